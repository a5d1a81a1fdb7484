(** * FrameSpec: what an operation may write to, said about cells and addresses
    (HeapModel's [heap], [cell], [hget]). *)
From Coq Require Import List Arith Lia Bool.
From Verif Require Import Base IterSpec BTreeModel HeapModel HeapMapModel HistoryModel HistorySpec HeapSpec ContainSpec.
Import ListNotations.
Set Implicit Arguments.

Section Spec.
  Variables (K V Q : Type).
  Notation kv := (K * V)%type.
  Notation heap := (heap K V).
  Notation cell := (cell K V).
  Notation result := (outcome reserve_error (obs K V)).
  Notation op := (op K V Q).

  (** the operations that take the maps by [&self] *)
  Definition reader (c : op) : bool :=
    match c with
    | Get _ _ | GetKeyValue _ _ | Contains _ _ | Index _ _ | Len _ | IsEmpty _ | Iterate _ _ | RangeOver _ _ _ _ | Equal _ _ | Compare _ _ => true
    | _ => false
    end.
  (** those that hand out [&mut V] *)
  Definition lender (c : op) : bool :=
    match c with GetMut _ _ _ | IterMut _ _ _ | RangeMut _ _ _ _ _ => true | _ => false end.
  (** the variables an operation takes by [&mut self] or by value, or assigns to.  A map that is cloned from is not among them *)
  Definition given (c : op) : list nat :=
    match c with
    | New r | Clear r | Insert r _ _ | Replace r _ _ | Remove r _ | Take r _ | GetMut r _ _ | Extend r _ | IterMut r _ _ | RangeMut r _ _ _ _
    | IntoIter_ r _ | EntryOr r _ _ _ | EntryRemove r _ => [r]
    | Append r t | SplitOff r _ t => [r; t]
    | TryClone _ t | Clone _ t => [t]
    | Get _ _ | GetKeyValue _ _ | Contains _ _ | Index _ _ | Len _ | IsEmpty _ | Iterate _ _ | RangeOver _ _ _ _ | Equal _ _ | Compare _ _ => []
    end.

  (** the same nodes; in each, everything but the values is as before, and the same slots for values are initialised *)
  Definition full (A : Type) (x : option A) : bool := match x with Some _ => true | None => false end.
  Definition same_but_values (c c' : cell) : Prop :=
    cint c' = cint c /\ cpar c' = cpar c /\ cpidx c' = cpidx c /\ clen c' = clen c /\ ckeys c' = ckeys c /\ cedges c' = cedges c /\
    map (@full V) (cvals c') = map (@full V) (cvals c).
  Definition only_values (hp hp' : heap) : Prop :=
    forall l, match hget hp l, hget hp' l with
              | Some c, Some c' => same_but_values c c'
              | None, None => True
              | _, _ => False
              end.

  (** the map in the variable [r] consists of the nodes at [ns] *)
  Definition owned_by (s : hregs) (hp : heap) (r : nat) (ns : list loc) : Prop :=
    (mroot (s r) = NR 0 sroot /\ ns = []) \/ exists xs, stored hp (rh (mroot (s r))) (rl (mroot (s r))) None xs ns.
  (** of all the nodes that exist before, only those of the maps that are given are written or freed *)
  Definition confined (c : op) (s : hregs) (hp hp' : heap) : Prop :=
    exists nodes : nat -> list loc,
      (forall t, In t (given c) -> owned_by s hp t (nodes t)) /\
      forall l, hget hp l <> None -> (forall t, In t (given c) -> ~ In l (nodes t)) -> hget hp' l = hget hp l.

  (** a program: [D] are the variables that may be damaged ([suspect] of ContainSpec) *)
  Inductive frames : list nat -> hregs -> heap -> list op -> list (result * hregs * heap) -> Prop :=
  | Fr_end D s hp : frames D s hp [] []
  | Fr_step D s hp c l o s' hp' rest :
      avoids c D -> o <> Abort -> o <> UB ->
      (forall r, ~ In r (given c) -> s' r = s r) -> confined c s hp hp' ->
      (reader c = true -> hp' = hp) -> (lender c = true -> only_values hp hp') ->
      frames (suspect c o ++ D) s' hp' l rest -> frames D s hp (c :: l) ((o, s', hp') :: rest)
  | Fr_dead D s hp c l o s' hp' :        (* an element's clone aborted *)
      avoids c D -> (exists r t, c = TryClone r t \/ c = Clone r t) -> o = Abort \/ o = UB -> frames D s hp (c :: l) [(o, s', hp')]
  | Fr_risk D s hp c l res :             (* a damaged map is used *)
      ~ avoids c D -> frames D s hp (c :: l) res.
End Spec.
