(** * HeapDisj: deciding disjointness of addresses by counting. *)
From Coq Require Import List Arith Lia Bool Permutation.
From Verif Require Import Base BTreeModel BTreeInv HeapModel HeapArr HeapRep HeapWp HeapNode HeapOps.
Import ListNotations.
Set Implicit Arguments.
Unset Strict Implicit.

Definition hit (a y : nat) : nat := if Nat.eq_dec a y then 1 else 0.
Definition ct (l : list nat) (y : nat) : nat := count_occ Nat.eq_dec l y.
Lemma ct_cons a l y : ct (a :: l) y = hit a y + ct l y.
Proof. unfold ct, hit. cbn. now destruct (Nat.eq_dec a y). Qed.
Lemma ct_nil y : ct [] y = 0.
Proof. reflexivity. Qed.
Lemma ct_app l1 l2 y : ct (l1 ++ l2) y = ct l1 y + ct l2 y.
Proof. apply count_occ_app. Qed.
Lemma ct_map {K V} (l1 l2 : list (ltree K V)) y : ct (map (@lroot K V) (l1 ++ l2)) y = ct (map (@lroot K V) l1) y + ct (map (@lroot K V) l2) y.
Proof. rewrite map_app. apply ct_app. Qed.
Lemma ct_In l y : In y l -> 1 <= ct l y.
Proof. intro H. apply (proj1 (count_occ_In Nat.eq_dec l y)) in H. exact H. Qed.
Lemma In_ct l y : 1 <= ct l y -> In y l.
Proof. intro H. apply (count_occ_In Nat.eq_dec). exact H. Qed.
Lemma ct_NoDup l : NoDup l -> forall y, ct l y <= 1.
Proof. intros H y. apply (proj1 (NoDup_count_occ Nat.eq_dec l) H). Qed.
Lemma NoDup_ct l : (forall y, ct l y <= 1) -> NoDup l.
Proof. intro H. apply (NoDup_count_occ Nat.eq_dec). exact H. Qed.
Lemma hit_refl a : hit a a = 1.
Proof. unfold hit. now destruct (Nat.eq_dec a a). Qed.
Lemma hit_eq (a b : nat) : a = b -> hit a b = 1.
Proof. intros ->. apply hit_refl. Qed.
Lemma hit_not (a b : nat) : hit a b = 0 -> a <> b.
Proof. intros H ->. rewrite hit_refl in H. discriminate. Qed.

Lemma nin_ct l y : ct l y = 0 -> ~ In y l.
Proof. intros H Q. apply ct_In in Q. rewrite H in Q. inversion Q. Qed.

Lemma ct_nin l y : ~ In y l -> ct l y = 0.
Proof. intros H. destruct (ct l y) eqn:E; [reflexivity|]. exfalso. apply H, In_ct. lia. Qed.

Ltac cts := unfold HeapModel.loc; repeat (progress (cbn [map HeapRep.lroot app]; rewrite ?ct_app, ?ct_cons, ?ct_map, ?ct_nil, ?hit_refl)); unfold HeapModel.loc.
(** [ND]: the addresses are distinct; [y]: the address in question *)
Ltac dq ND y :=
  lazymatch goal with
  | |- ~ In _ _ => apply nin_ct
  | |- In _ _ => apply In_ct
  | |- y <> _ => apply not_eq_sym; apply hit_not
  | |- _ <> y => apply hit_not
  | |- _ => exfalso
  end;
  generalize (ct_NoDup ND y);
  repeat match goal with
  | H : In y ?l |- _ => generalize (@ct_In l y H); clear H
  | H : ~ In y ?l |- _ => generalize (@ct_nin l y H); clear H
  end;
  clear; cts; lia.
(** lengths, without touching the context *)
Ltac len := rewrite ?app_length, ?map_length; cbn [length clen]; unfold CAPACITY, B_ in *; lia.
Ltac nd ND := let y := fresh "y" in apply NoDup_ct; intro y; generalize (ct_NoDup ND y); clear; cts; lia.
