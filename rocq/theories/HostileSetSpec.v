(** * HostileSetSpec: what programs over BTreeSets may observe when comparisons
    answer anything, said about lists of elements. *)
From Coq Require Import List Arith Lia Bool.
From Verif Require Import Base IterSpec SetSpec BTreeModel BTreeIterModel HeapModel HeapMapModel HistoryModel HeapSpec HostileSpec HostileSetModel.
Import ListNotations.
Set Implicit Arguments.

Section Lists.
  Variable T : Type.
  Implicit Types (a b c : list T).
  (** [subseq c a]: [c] is [a] with some elements left out *)
  Inductive subseq : list T -> list T -> Prop :=
  | Sub_nil : subseq [] []
  | Sub_keep x c a : subseq c a -> subseq (x :: c) (x :: a)
  | Sub_skip x c a : subseq c a -> subseq c (x :: a).
  (** the two interleaved; an element of the second may be left out for one of the first ... *)
  Inductive united : list T -> list T -> list T -> Prop :=
  | Uni_nil : united [] [] []
  | Uni_left x a b c : united a b c -> united (x :: a) b (x :: c)
  | Uni_right y a b c : united a b c -> united a (y :: b) (y :: c)
  | Uni_both x y a b c : united a b c -> united (x :: a) (y :: b) (x :: c).
  (** ... or one of each may be left out together *)
  Inductive cancelled : list T -> list T -> list T -> Prop :=
  | Can_nil : cancelled [] [] []
  | Can_left x a b c : cancelled a b c -> cancelled (x :: a) b (x :: c)
  | Can_right y a b c : cancelled a b c -> cancelled a (y :: b) (y :: c)
  | Can_both x y a b c : cancelled a b c -> cancelled (x :: a) (y :: b) c.

  (** [c] may be the combination of [a] and [b] for some answers of the comparisons *)
  Definition combines (k : algebra) (a b c : list T) : Prop :=
    match k with
    | Difference => subseq c a /\ length a <= length c + length b
    | SymmetricDifference => cancelled a b c
    | Intersection => if length a <=? length b then subseq c a else subseq c b
    | Union => united a b c
    end.
End Lists.

Section Spec.
  Variables (T Q : Type).
  Notation state := (nat -> list (T * unit)).
  Notation result := (outcome reserve_error (xobs T)).
  (** [no_memory e]: the allocator refuses with [e]; [copy x y]: Clone::clone makes [y] of [x];
      [clone_ends o]: it ends with [o]; [clone_fails o]: cloning a set ends with [o]; [scared]: some comparison panics *)
  Variables (no_memory : reserve_error -> Prop) (copy : T -> T -> Prop) (clone_ends : outcome Empty_set unit -> Prop)
            (clone_fails : outcome reserve_error unit -> Prop) (scared : Prop).
  Definition elements (S : state) (r : nat) : list T := map fst (S r).
  Definition plain (l : list T) : list (T * unit) := map (fun x => (x, tt)) l.

  Definition xloose (c : xop T Q) (S : state) (o : result) (S' : state) : Prop :=
    match c with
    | XMap c => exists o', loose no_memory (fun x y => copy (fst x) (fst y)) clone_fails scared c S o' S' /\ o = omap XObs o'
    | XLazy k r t n m =>
        (exists l lo hi, combines k (elements S r) (elements S t) l /\
           o = Ret (XItems (delivered n l) lo hi (delivered m (skipn n l))) /\ lo <= length (skipn n l) <= hi /\ is S S') \/
        (scared /\ o = Panic /\ is S S')
    | XSubset r t =>
        (exists b, o = Ret (XBool b) /\ (S r = [] -> b = true) /\ (length (S t) < length (S r) -> b = false) /\ is S S') \/
        (scared /\ o = Panic /\ is S S')
    | XSuperset r t =>
        (exists b, o = Ret (XBool b) /\ (S t = [] -> b = true) /\ (length (S r) < length (S t) -> b = false) /\ is S S') \/
        (scared /\ o = Panic /\ is S S')
    | XDisjoint r t =>
        (exists b, o = Ret (XBool b) /\ (S r = [] \/ S t = [] -> b = true) /\ is S S') \/ (scared /\ o = Panic /\ is S S')
    | XOperator k r t u =>
        (exists l l' new, combines k (elements S r) (elements S t) l /\ Forall2 copy l l' /\ inserted_all (plain l') [] new /\
           o = Ret (XUnit) /\ is (put S u new) S') \/
        (o = Panic /\ (scared \/ exists e, no_memory e) /\ is S S') \/
        (exists u, clone_ends u /\ (forall a, u <> Ret a) /\ o = omap (fun _ => XUnit) (HistoryModel.cast u) /\ is S S')
    | XCollect r l =>
        (exists new, inserted_all (plain l) [] new /\ o = Ret (XUnit) /\ is (put S r new) S') \/
        (o = Panic /\ (scared \/ exists e, no_memory e) /\ is S S')
    end.

  (** after these nothing is claimed: those of HostileSpec, and a set under construction, of 11 elements or more (so at least 12 were to be inserted), that
      was refused memory (C24) and is dropped *)
  Definition xgave_up (c : xop T Q) (S : state) (o : result) (s : hregs) (hp : heap T unit) : Prop :=
    match c with
    | XMap c => exists o', HostileSpec.gave_up no_memory scared c S o' /\ o = omap XObs o' /\ torn_memory s hp
    | XOperator _ r t _ => o = UB /\ (exists e, no_memory e) /\ 12 <= length (S r) + length (S t)
    | XCollect _ l => o = UB /\ (exists e, no_memory e) /\ 12 <= length l
    | _ => False
    end.

  Inductive xruns : state -> list (xop T Q) -> list (result * hregs * heap T unit) -> Prop :=
  | XR_end S : xruns S [] []
  | XR_step S c l o s hp S' rest :
      xloose c S o S' -> memory (fun _ _ => Lt) s hp S' -> o <> Abort -> o <> UB -> xruns S' l rest ->
      xruns S (c :: l) ((o, s, hp) :: rest)
  | XR_dead S c l o s hp S' :   (* only through an element's clone *)
      xloose c S o S' -> o = Abort \/ o = UB -> xruns S (c :: l) [(o, s, hp)]
  | XR_gave_up S c l o s hp rest : xgave_up c S o s hp -> xruns S (c :: l) ((o, s, hp) :: rest).
End Spec.
