(** * Examples: concrete maps and sets, used to show that the hypotheses of the
    theorems are met by non-trivial cases.  Models no code of /repo. *)
From Coq Require Import List Arith Lia Bool Sorted.
From Verif Require Import Base MapSpec SpecFacts SetSpec BTreeModel BTreeInv BTreeSplit BTreeIterModel BTreeBulkModel BTreeSetModel BTreeSets BTreeCollect.
Import ListNotations.
Set Implicit Arguments.

(** the order of numbers is lawful *)
Lemma nat_laws : ord_laws Nat.compare.
Proof.
  constructor.
  - apply Nat.compare_refl.
  - intros a b. apply Nat.compare_antisym.
  - intros a b c. rewrite !Nat.compare_lt_iff. lia.
  - intros a b c H. apply Nat.compare_eq in H. now subst.
Qed.

(** a lawful order whose equality is not identity: pairs ordered by the first
    component *)
Definition cmp1 (a b : nat * nat) : comparison := Nat.compare (fst a) (fst b).
Lemma cmp1_laws : ord_laws cmp1.
Proof.
  constructor; unfold cmp1.
  - intros. apply Nat.compare_refl.
  - intros a b. apply Nat.compare_antisym.
  - intros a b c. rewrite !Nat.compare_lt_iff. lia.
  - intros a b c H. apply Nat.compare_eq in H. now rewrite H.
Qed.
Lemma cmp1_borrow : borrow_laws cmp1 Nat.compare fst.
Proof. constructor; [exact nat_laws|reflexivity]. Qed.
Lemma nat_borrow : borrow_laws Nat.compare Nat.compare (fun k => k).
Proof. constructor; [exact nat_laws|reflexivity]. Qed.

(** an allocator that never refuses, and one with a budget of nodes *)
Definition grant (internal : bool) (w : unit) : option reserve_error * unit := (None, tt).
Definition budget (internal : bool) (w : nat) : option reserve_error * nat :=
  match w with 0 => (Some AllocError, 0) | S w' => (None, w') end.

Section Mk.
  Variables (K V : Type) (cmp : K -> K -> comparison).
  Hypothesis laws : ord_laws cmp.
  Definition mk (l : list (K * V)) : bmap K V := let '(_, m, _) := from_iter grant cmp l tt in m.
  Lemma new_valid : valid cmp (@new K V).
  Proof. split; [apply new_sound|constructor]. Qed.
  Lemma mk_valid l : valid cmp (mk l).
  Proof.
    unfold mk. pose proof (extend_ok grant laws l (m := new) tt new_valid) as H. unfold from_iter.
    destruct (extend grant cmp l new tt) as [[o m] w]. destruct o; try contradiction; [apply H|].
    destruct H as (_ & _ & _ & _ & e & _ & _ & _ & (b & w0 & w' & Hr) & _). discriminate.
  Qed.
End Mk.

(** numbers, with themselves as values *)
Definition nmap (l : list nat) : bmap nat nat := mk Nat.compare (map (fun k => (k, k)) l).
Lemma nmap_valid l : valid Nat.compare (nmap l).
Proof. apply (mk_valid nat_laws). Qed.
(** 200 keys in a scattered order: a tree of height 2 *)
Definition scattered : list nat := map (fun i => (i * 37) mod 200) (seq 0 200).
Definition bigmap : bmap nat nat := nmap scattered.
Example bigmap_big : bheight bigmap = 2 /\ len bigmap = 200.
Proof. vm_compute. auto. Qed.

Definition nset (l : list nat) : bset nat := mk Nat.compare (map (fun k => (k, tt)) l).
Lemma nset_valid l : valid Nat.compare (nset l).
Proof. apply (mk_valid nat_laws). Qed.
