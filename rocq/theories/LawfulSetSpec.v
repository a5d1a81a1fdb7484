(** * LawfulSetSpec: what programs over BTreeSets on raw memory may observe when
    the order of the elements is a total order, said about ascending lists of
    elements.  The program is that of HostileSetModel; the parts of the result
    are named as in SetHistorySpec. *)
From Coq Require Import List Arith Lia Bool.
From Verif Require Import Base IterSpec SetSpec BTreeModel BTreeIterModel BTreeRange HeapModel HeapMapModel HistoryModel HistorySpec SetHistorySpec HeapSpec HostileSetModel HostileSetSpec.
Import ListNotations.
Set Implicit Arguments.

Section Spec.
  Variables (T Q : Type) (cmp : T -> T -> comparison) (qcmp : Q -> Q -> comparison) (borrow : T -> Q).
  Notation state := (nat -> list (T * unit)).
  Notation result := (outcome reserve_error (xobs T)).
  Variables (eqb : T * unit -> T * unit -> bool) (pcmp : T * unit -> T * unit -> option comparison).
  (** as in HostileSetSpec *)
  Variables (no_memory : reserve_error -> Prop) (copy : T -> T -> Prop) (clone_ends : outcome Empty_set unit -> Prop)
            (clone_fails : outcome reserve_error unit -> Prop).

  (** [x] belongs to the combination of [a] and [b] *)
  Definition belongs (k : algebra) (a b : list T) (x : T) : Prop :=
    match k with
    | Difference => minus cmp a b x
    | SymmetricDifference => exclusive cmp a b x
    | Intersection => common cmp a b x
    | Union => either cmp a b x
    end.

  Definition xspec (c : xop T Q) (S : state) (o : result) (S' : state) : Prop :=
    match c with
    | XMap c => exists o', spec cmp qcmp borrow eqb pcmp no_memory (fun x y => copy (fst x) (fst y)) clone_fails c S o' S' /\ o = omap XObs o'
    | XLazy k r t n m =>
        exists l lo hi, all_with cmp (belongs k (elements S r) (elements S t)) l /\
          o = Ret (XItems (delivered n l) lo hi (delivered m (skipn n l))) /\ lo <= length (skipn n l) <= hi /\ same S S'
    | XSubset r t =>
        exists b, o = Ret (XBool b) /\ (b = true <-> forall x, In x (elements S r) -> member cmp x (elements S t)) /\ same S S'
    | XSuperset r t =>
        exists b, o = Ret (XBool b) /\ (b = true <-> forall x, In x (elements S t) -> member cmp x (elements S r)) /\ same S S'
    | XDisjoint r t =>
        exists b, o = Ret (XBool b) /\ (b = true <-> forall x, In x (elements S r) -> ~ member cmp x (elements S t)) /\ same S S'
    | XOperator k r t u =>
        (exists l l', all_with cmp (belongs k (elements S r) (elements S t)) l /\ Forall2 copy l l' /\
           o = Ret XUnit /\ same (upd S u (plain l')) S') \/
        (o = Panic /\ (exists e, no_memory e) /\ same S S') \/
        (exists u, clone_ends u /\ (forall a, u <> Ret a) /\ o = omap (fun _ => XUnit) (HistoryModel.cast u) /\ same S S')
    | XCollect r l =>
        (o = Ret XUnit /\ same (upd S r (plain (fold_left (fun s x => inserted cmp x s) l []))) S') \/
        (o = Panic /\ (exists e, no_memory e) /\ same S S')
    end.

  (** after these nothing is claimed, as in HistorySpec and HostileSetSpec *)
  Definition xquits (c : xop T Q) (S : state) (o : result) (s : hregs) (hp : heap T unit) : Prop :=
    match c with
    | XMap c => exists o', HistorySpec.gave_up cmp no_memory c S o' /\ o = omap XObs o' /\ torn_memory s hp
    | XOperator _ r t _ => o = UB /\ (exists e, no_memory e) /\ 12 <= length (S r) + length (S t)
    | XCollect _ l => o = UB /\ (exists e, no_memory e) /\ 12 <= length l
    | _ => False
    end.

  Inductive xagrees : state -> list (xop T Q) -> list (result * hregs * heap T unit) -> Prop :=
  | XA_end S : xagrees S [] []
  | XA_step S c l o s hp S' rest :
      xspec c S o S' -> memory cmp s hp S' -> o <> Abort -> o <> UB -> xagrees S' l rest ->
      xagrees S (c :: l) ((o, s, hp) :: rest)
  | XA_dead S c l o s hp S' :   (* only through an element's clone *)
      xspec c S o S' -> o = Abort \/ o = UB -> xagrees S (c :: l) [(o, s, hp)]
  | XA_gave_up S c l o s hp rest : xquits c S o s hp -> xagrees S (c :: l) ((o, s, hp) :: rest).
End Spec.
