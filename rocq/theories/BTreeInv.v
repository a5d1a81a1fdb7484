(** * BTreeInv: what a tree holds and when it is well formed.
    Specification-level definitions (no code of /repo is modelled here);
    see the comment at the head of src/btree/node.rs 24-33 and the invariants
    documented in map.rs. *)
From Coq Require Import List Arith Lia Bool Sorted.
From Verif Require Import Base MapSpec BTreeModel.
Import ListNotations.
Set Implicit Arguments.

(** [weave [e0;e1;..] [k0;k1;..]] = e0 ++ k0 :: e1 ++ k1 :: ..., and just the
    pairs when there are no edges (leaf) *)
Fixpoint weave {A} (es : list (list A)) (ks : list A) : list A :=
  match es with
  | [] => ks
  | e :: es' => e ++ match ks with [] => [] | k :: ks' => k :: weave es' ks' end
  end.

Section Inv.
  Variables (K V : Type).
  Notation node := (node K V).

  (** the entries of a (sub)tree from left to right *)
  Fixpoint inorder (n : node) : list (K * V) :=
    match n with Node k e => weave (map inorder e) k end.

  (** [P]: what the number of pairs of a non-root node satisfies;
      [kids P h n]: below [n] (at height [h]) every leaf is at depth [h], every
      internal node of [len] pairs has [len + 1] edges, every node satisfies [P] *)
  Fixpoint kids (P : nat -> Prop) (h : nat) (n : node) : Prop :=
    match h with
    | 0 => edges n = []
    | S h' => length (edges n) = S (nlen n) /\
              Forall (fun e => P (nlen e) /\ kids P h' e) (edges n)
    end.

  Definition any : nat -> Prop := fun _ => True.
  (** uniform depth, one more edge than pairs: all the iterators and the
      destructor need *)
  Definition shape (h : nat) (n : node) : Prop := kids any h n.

  (** The real lower bound of a non-root node (the documented one is MIN_LEN = 5) *)
  Definition REAL_MIN : nat := B_ - 2.
  Definition fair (k : nat) : Prop := REAL_MIN <= k <= CAPACITY.
  Definition root_fair (h k : nat) : Prop := k <= CAPACITY /\ (0 < h -> 1 <= k).

  (** a well-formed tree of height [h] *)
  Definition balanced (h : nat) (n : node) : Prop :=
    root_fair h (nlen n) /\ kids fair h n.

  (** the entries of a map, in iteration order *)
  Definition entries (m : bmap K V) : list (K * V) := inorder (bnode m).

  (** structural invariant of a map, without the order of keys *)
  Definition sound (m : bmap K V) : Prop :=
    balanced (bheight m) (bnode m) /\
    (bshared m = true -> bnode m = empty_leaf /\ bheight m = 0) /\
    blen m = length (entries m).

  (** the invariant of a BTreeMap *)
  Definition valid (cmp : K -> K -> comparison) (m : bmap K V) : Prop :=
    sound m /\ sorted cmp (entries m).
End Inv.
