(** * CostSpec: how many comparisons an operation may make (C54)

    A bound for each operation, from the sizes of the maps it works on alone.  It does not
    depend on what the comparisons answer: they may lie.  [calls] counts every call of the user's
    functions that the search makes: Ord::cmp, PartialEq, PartialOrd and RangeBounds. *)
From Coq Require Import List Arith.
From Verif Require Import Base BTreeModel HistoryModel HeapModel HeapMapModel HostileSpec HostileSetModel HostileSetSpec.
Import ListNotations.
Set Implicit Arguments.

(** levels of a tree of [n] entries: about half of the binary logarithm *)
Definition levels (n : nat) : nat := 1 + Nat.log2 (n + 1) / 2.
(** a node has at most 11 keys *)
Definition lookup (n : nat) : nat := 11 * levels n.
(** insertions of [k] entries, the map has [n] *)
Fixpoint lookups (n k : nat) : nat := match k with 0 => 0 | S k' => lookup n + lookups (S n) k' end.

Section Prices.
  Variables (K V Q : Type).
  (** [size r]: how many entries variable [r] holds *)
  Variable size : nat -> nat.
  Definition price (c : op K V Q) : nat :=
    match c with
    | Insert r _ _ | Replace r _ _ | Remove r _ | Take r _ | Get r _ | GetKeyValue r _ | Contains r _ | Index r _
    | GetMut r _ _ | EntryOr r _ _ _ | EntryRemove r _ => lookup (size r)
    | SplitOff r _ _ => lookup (size r)
    | Append r t => size r + size t
    | Extend r l => lookups (size r) (length l)
    | RangeOver r _ _ _ | RangeMut r _ _ _ _ => 4 + 2 * lookup (size r) + 2 * levels (size r)
    | Equal r t => if size r =? size t then size r else 0
    | Compare r t => min (size r) (size t)
    | New _ | Clear _ | Len _ | IsEmpty _ | TryClone _ _ | Clone _ _ | Iterate _ _ | IterMut _ _ _ | IntoIter_ _ _ => 0
    end.
End Prices.

(** ** Sets *)
(** the lazy iterators of sets of [n] and [m] elements, however often they are asked *)
Definition lazy_price (k : algebra) (n m : nat) : nat :=
  match k with
  | Difference => if m / 16 <? n then n + m else n * lookup m
  | SymmetricDifference | Union => n + m
  | Intersection => if max n m / 16 <? min n m then n + m else min n m * lookup (max n m)
  end.
(** how much they can deliver *)
Definition lazy_most (k : algebra) (n m : nat) : nat :=
  match k with
  | Difference => n
  | SymmetricDifference | Union => n + m
  | Intersection => min n m
  end.
Definition subset_price (n m : nat) : nat :=
  if m <? n then 0 else if m / 16 <? n then n + m else n * lookup m.
Section SetPrices.
  Variables (T Q : Type) (size : nat -> nat).
  Definition xprice (c : xop T Q) : nat :=
    match c with
    | XMap c => price size c
    | XLazy k r t _ _ => lazy_price k (size r) (size t)
    | XSubset r t => subset_price (size r) (size t)
    | XSuperset r t => subset_price (size t) (size r)
    | XDisjoint r t => lazy_price Intersection (size r) (size t)
    | XOperator k r t _ => lazy_price k (size r) (size t) + lookups 0 (lazy_most k (size r) (size t))
    | XCollect _ l => lookups 0 (length l)
    end.
End SetPrices.

(** ** Programs
    [priced S n ops results counts]: run from the lists [S], with the counter at [n], every step moves the
    lists as HostileSpec says and the counter ([counts] after each step) by at most its price.  After a step of
    HostileSpec.gave_up nothing more is claimed. *)
Section Programs.
  Variables (K V Q : Type).
  Notation kv := (K * V)%type.
  Notation result := (outcome reserve_error (obs K V)).
  Variables (no_memory : reserve_error -> Prop) (copy : kv -> kv -> Prop) (clone_fails : outcome reserve_error unit -> Prop) (scared : Prop).
  Notation size S := (fun r => length (S r)).
  Inductive priced : (nat -> list kv) -> nat -> list (op K V Q) -> list (result * hregs * heap K V) -> list nat -> Prop :=
  | P_end S n : priced S n [] [] []
  | P_step S n c l o s hp S' n' rest counts :
      loose no_memory copy clone_fails scared c S o S' -> o <> Abort -> o <> UB -> n' <= n + price (size S) c ->
      priced S' n' l rest counts -> priced S n (c :: l) ((o, s, hp) :: rest) (n' :: counts)
  | P_dead S n c l o s hp S' n' :
      loose no_memory copy clone_fails scared c S o S' -> o = Abort \/ o = UB -> n' <= n + price (size S) c ->
      priced S n (c :: l) [(o, s, hp)] [n']
  | P_gave_up S n c l o s hp n' rest counts :
      HostileSpec.gave_up no_memory scared c S o -> n' <= n + price (size S) c -> priced S n (c :: l) ((o, s, hp) :: rest) (n' :: counts).
End Programs.
Section SetPrograms.
  Variables (T Q : Type).
  Notation state := (nat -> list (T * unit)).
  Notation result := (outcome reserve_error (xobs T)).
  Variables (no_memory : reserve_error -> Prop) (copy : T -> T -> Prop) (clone_ends : outcome Empty_set unit -> Prop)
            (clone_fails : outcome reserve_error unit -> Prop) (scared : Prop).
  Notation size S := (fun r => length (S r)).
  Inductive xpriced : state -> nat -> list (xop T Q) -> list (result * hregs * heap T unit) -> list nat -> Prop :=
  | XP_end S n : xpriced S n [] [] []
  | XP_step S n c l o s hp S' n' rest counts :
      xloose no_memory copy clone_ends clone_fails scared c S o S' -> o <> Abort -> o <> UB -> n' <= n + xprice (size S) c ->
      xpriced S' n' l rest counts -> xpriced S n (c :: l) ((o, s, hp) :: rest) (n' :: counts)
  | XP_dead S n c l o s hp S' n' :
      xloose no_memory copy clone_ends clone_fails scared c S o S' -> o = Abort \/ o = UB -> n' <= n + xprice (size S) c ->
      xpriced S n (c :: l) [(o, s, hp)] [n']
  | XP_gave_up S n c l o s hp n' rest counts :
      xgave_up no_memory scared c S o s hp -> n' <= n + xprice (size S) c -> xpriced S n (c :: l) ((o, s, hp) :: rest) (n' :: counts).
End SetPrograms.
