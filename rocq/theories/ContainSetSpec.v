(** * ContainSetSpec: programs over sets that go on after a set was damaged, as
    long as they leave that set alone (ContainSpec, for the programs of
    HostileSetSpec). *)
From Coq Require Import List Arith Lia Bool.
From Verif Require Import Base IterSpec MapSpec BTreeModel HeapModel HeapMapModel HistoryModel HeapSpec HostileSpec HostileSetModel HostileSetSpec ContainSpec.
Import ListNotations.
Set Implicit Arguments.

Section Spec.
  Variables (T Q : Type).
  Notation heap := (heap T unit).
  Notation state := (nat -> list (T * unit)).
  Notation result := (outcome reserve_error (xobs T)).
  Notation xop := (xop T Q).

  (** the variables an operation mentions *)
  Definition xmentions (c : xop) : list nat :=
    match c with
    | XMap c => mentions c
    | XLazy _ r t _ _ | XSubset r t | XSuperset r t | XDisjoint r t => [r; t]
    | XOperator _ r t u => [r; t; u]
    | XCollect r _ => [r]
    end.
  Definition xavoids (c : xop) (D : list nat) : Prop := forall r, In r (xmentions c) -> ~ In r D.
  (** the policy: a set is left alone for ever after an insertion into it failed, or an extend, append or split_off of it panicked;
      comparing, combining and building sets damages none *)
  Definition xsuspect (c : xop) (o : result) : list nat :=
    match c, o with
    | XMap (Insert r _ _), Err _ | XMap (Replace r _ _), Err _ | XMap (EntryOr r _ _ _), Err _
    | XMap (Extend r _), Panic | XMap (Append r _), Panic | XMap (SplitOff r _ _), Panic => [r]
    | _, _ => []
    end.
  Fixpoint xcareful (D : list nat) (ops : list xop) (outs : list result) : Prop :=
    match ops, outs with
    | c :: ops', o :: outs' => xavoids c D /\ xcareful (xsuspect c o ++ D) ops' outs'
    | _, _ => True
    end.

  Variables (no_memory : reserve_error -> Prop) (copy : T -> T -> Prop) (clone_ends : outcome Empty_set unit -> Prop)
            (clone_fails : outcome reserve_error unit -> Prop) (scared : Prop).
  Notation xloose := (xloose no_memory copy clone_ends clone_fails scared).
  Notation gave_up := (HostileSpec.gave_up no_memory scared).
  Notation lt := (fun _ _ : T => Lt).
  (** [n] elements or more were to be put into a new set *)
  Definition builds_many (c : xop) (S : state) : Prop :=
    match c with
    | XOperator _ r t _ => 12 <= length (S r) + length (S t)
    | XCollect _ l => 12 <= length l
    | _ => False
    end.
  (** comparisons answer anything and may panic *)
  Inductive xcontained : list nat -> state -> list xop -> list (result * hregs * heap) -> Prop :=
  | X_end D S : xcontained D S [] []
  | X_step D S c l o s hp S' rest :
      xavoids c D -> xloose c S o S' -> sound_memory lt D s hp S' -> o <> Abort -> o <> UB ->
      xcontained D S' l rest -> xcontained D S (c :: l) ((o, s, hp) :: rest)
  | X_dead D S c l o s hp S' :   (* only through an element's clone *)
      xavoids c D -> xloose c S o S' -> o = Abort \/ o = UB -> xcontained D S (c :: l) [(o, s, hp)]
  | X_gave_up D S c l o s hp r S' rest :
      xavoids (XMap c) D -> gave_up c S o -> damages c r S S' -> sound_memory lt (r :: D) s hp S' ->
      xcontained (r :: D) S' l rest -> xcontained D S (XMap c :: l) ((omap XObs o, s, hp) :: rest)
  | X_lost D S c l s hp :        (* refused memory while a set of 11 elements or more was built: it is dropped at once (C24) *)
      xavoids c D -> builds_many c S -> (exists e, no_memory e) -> xcontained D S (c :: l) [(UB, s, hp)]
  | X_risk D S c l res :         (* a damaged set is used *)
      ~ xavoids c D -> xcontained D S (c :: l) res.
End Spec.
