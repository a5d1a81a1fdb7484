(** * Properties_Layout: C39 *)
From Coq Require Import List Arith Lia Bool.
From Verif Require Import Base BTreeModel LayoutModel.
Import ListNotations.
Set Implicit Arguments.

(** Rust's pointer widths (16, 32, 64 bits); alignments are powers of two *)
Definition pointer_width (p : nat) : Prop := p = 2 \/ p = 4 \/ p = 8.
(** the largest key alignment the code supports, per pointer width *)
Definition supported (p : nat) : nat := match p with 8 => 16 | 4 => 8 | _ => 2 end.

Lemma pow2_cases k : 2 ^ k = 1 \/ 2 ^ k = 2 \/ 2 ^ k = 4 \/ 2 ^ k = 8 \/ 2 ^ k = 16 \/ exists j, 2 ^ k = 32 * 2 ^ j /\ 0 < 2 ^ j.
Proof.
  destruct k as [|[|[|[|[|k]]]]]; cbn [Nat.pow]; [auto|auto|auto|auto|auto 6|]. do 5 right. exists k.
  split; [simpl; lia|]. apply Nat.neq_0_lt_0, Nat.pow_nonzero. lia.
Qed.
Lemma round_up_big x a : 0 < x <= a -> round_up x a = a.
Proof.
  intros H. unfold round_up. replace ((x + a - 1) / a) with 1; [lia|].
  apply Nat.div_unique with (x - 1); lia.
Qed.
Lemma round_up_0 a : 0 < a -> round_up 0 a = 0.
Proof. intros H. unfold round_up. rewrite Nat.div_small; lia. Qed.
Lemma round_up_1 x : round_up x 1 = x.
Proof. unfold round_up. rewrite Nat.div_1_r. lia. Qed.
Lemma max_big a b : a <= b -> Nat.max a b = b. Proof. lia. Qed.

(** The keys are read from where they were written: for every key size, value
    size and alignment, every key alignment up to [supported p], whether the node is the
    shared root or not; reading never panics.  Of the shared root, which is only
    a header, nothing beyond its last byte is ever addressed. *)
Theorem C39_keys_located_partial : forall p ksize a vsize valign,
  pointer_width p -> 2 ^ a <= supported p ->
  let header := size_of (node_header p 1) in
  let at_keys := offset_of (leaf_node p ksize (2 ^ a) vsize valign) 3 in
  into_key_slice p (2 ^ a) false = KAt at_keys /\
  into_key_slice_mut p ksize (2 ^ a) vsize valign false = KAt at_keys /\
  (into_key_slice p (2 ^ a) true = KEmptySlice \/ (into_key_slice p (2 ^ a) true = KAt at_keys /\ at_keys <= header)) /\
  into_key_slice_mut p ksize (2 ^ a) vsize valign true = into_key_slice p (2 ^ a) true.
Proof.
  intros p ksize a vsize valign Hp Ha.
  assert (G : 2 ^ a = 1 \/ 2 ^ a = 2 \/ 2 ^ a = 4 \/ 2 ^ a = 8 \/ 2 ^ a = 16).
  { destruct (pow2_cases a) as [H|[H|[H|[H|[H|(j & H & Hj)]]]]]; auto 6. exfalso. destruct Hp as [-> | [-> | ->]]; cbn [supported] in Ha; lia. }
  cbv zeta. destruct Hp as [-> | [-> | ->]]; destruct G as [E|[E|[E|[E|E]]]]; rewrite E in Ha |- *; clear E;
    try (exfalso; unfold supported in Ha; lia);
    (split; [reflexivity|]); (split; [reflexivity|]); (split; [|reflexivity]);
    first [left; reflexivity | right; split; [reflexivity|apply Nat.leb_le; reflexivity]].
Qed.

(** Refuted beyond that: for every larger key alignment, any lookup in a map
    with an allocated root panics. *)
Theorem C39_large_alignment_panics_refuted : forall p a,
  pointer_width p -> supported p < 2 ^ a -> into_key_slice p (2 ^ a) false = KPanic.
Proof.
  intros p a Hp Ha. unfold into_key_slice. rewrite andb_false_r.
  assert (E : (size_of (node_header p 1) =? size_of (node_header p (2 ^ a))) = false).
  { apply Nat.eqb_neq. destruct (pow2_cases a) as [H|[H|[H|[H|[H|(j & H & Hj)]]]]]; rewrite H in Ha |- *.
    1-5: destruct Hp as [-> | [-> | ->]]; unfold supported in Ha; try lia; vm_compute; discriminate.
    assert (G : size_of (node_header p (32 * 2 ^ j)) = 32 * 2 ^ j).
    { assert (HA : 32 <= 32 * 2 ^ j) by lia. generalize dependent (32 * 2 ^ j). intros A _ _ HA.
      unfold size_of, node_header, common, align_of. cbn [app end_of fold_right falign fsize].
      assert (M : Nat.max p (Nat.max 2 (Nat.max 2 (Nat.max A 1))) = A) by (destruct Hp as [-> | [-> | ->]]; lia). rewrite M.
      assert (R : 0 < round_up (round_up (round_up 0 p + p) 2 + 2) 2 + 2 <= A).
      { destruct Hp as [-> | [-> | ->]]; unfold round_up; simpl; lia. }
      rewrite (round_up_big R). rewrite Nat.add_0_r. apply round_up_big. lia. }
    rewrite G. assert (L : size_of (node_header p 1) <= 16) by (destruct Hp as [-> | [-> | ->]]; vm_compute; lia). lia. }
  now rewrite E.
Qed.

(** The hypotheses are met: 64-bit, 16-byte aligned keys of 16 bytes, u64 values: the keys start at 16. *)
Example C39_example : into_key_slice 8 (2 ^ 4) false = KAt 16 /\ pointer_width 8 /\ 2 ^ 4 <= supported 8 /\
  into_key_slice 8 (2 ^ 5) false = KPanic.
Proof. split; [reflexivity|]. split; [right; right; reflexivity|]. split; [simpl; lia|reflexivity]. Qed.

Print Assumptions C39_keys_located_partial.
Print Assumptions C39_large_alignment_panics_refuted.
