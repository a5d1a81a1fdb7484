(** * FrameSetSpec: what an operation on sets may write to (FrameSpec, for the
    programs of HostileSetSpec and the sessions of LazySpec). *)
From Coq Require Import List Arith Lia Bool.
From Verif Require Import Base IterSpec BTreeModel HeapModel HeapMapModel HistoryModel HeapSpec HostileSetModel ContainSpec ContainSetSpec FrameSpec.
Import ListNotations.
Set Implicit Arguments.

Section Spec.
  Variables (T Q : Type).
  Notation heap := (heap T unit).
  Notation result := (outcome reserve_error (xobs T)).
  Notation xop := (xop T Q).

  (** the operations that take the sets by [&self] and build none *)
  Definition xreader (c : xop) : bool :=
    match c with
    | XMap c => reader c
    | XLazy _ _ _ _ _ | XSubset _ _ | XSuperset _ _ | XDisjoint _ _ => true
    | XOperator _ _ _ _ | XCollect _ _ => false
    end.
  (** the variables an operation takes by [&mut self] or by value, or assigns to.  The operands of [-], [^], [&] and [|] are not among them *)
  Definition xgiven (c : xop) : list nat :=
    match c with
    | XMap c => given c
    | XLazy _ _ _ _ _ | XSubset _ _ | XSuperset _ _ | XDisjoint _ _ => []
    | XOperator _ _ _ u => [u]
    | XCollect r _ => [r]
    end.
  (** of all the nodes that exist before, only those of the sets that are given are written or freed *)
  Definition xconfined (c : xop) (s : hregs) (hp hp' : heap) : Prop :=
    exists nodes : nat -> list loc,
      (forall t, In t (xgiven c) -> owned_by s hp t (nodes t)) /\
      forall l, hget hp l <> None -> (forall t, In t (xgiven c) -> ~ In l (nodes t)) -> hget hp' l = hget hp l.
  (** only where elements are cloned or a set is built can an operation end the program *)
  Definition may_end (c : xop) : Prop :=
    match c with XMap (TryClone _ _) | XMap (Clone _ _) | XOperator _ _ _ _ => True | XCollect _ l => 12 <= length l | _ => False end.
  (** a program: [D] are the variables that may be damaged ([xsuspect] of ContainSetSpec) *)
  Inductive xframes : list nat -> hregs -> heap -> list xop -> list (result * hregs * heap) -> Prop :=
  | XF_end D s hp : xframes D s hp [] []
  | XF_step D s hp c l o s' hp' rest :
      xavoids c D -> o <> Abort -> o <> UB ->
      (forall r, ~ In r (xgiven c) -> s' r = s r) -> xconfined c s hp hp' ->
      (xreader c = true -> s' = s /\ hp' = hp) ->
      xframes (xsuspect c o ++ D) s' hp' l rest -> xframes D s hp (c :: l) ((o, s', hp') :: rest)
  | XF_dead D s hp c l o s' hp' :
      xavoids c D -> may_end c -> o = Abort \/ o = UB -> xframes D s hp (c :: l) [(o, s', hp')]
  | XF_risk D s hp c l res :             (* a damaged set is used *)
      ~ xavoids c D -> xframes D s hp (c :: l) res.
End Spec.
