(** * Properties_Parts: C57.  Where the parts of a node are, whichever way it is looked at. *)
From Coq Require Import List Arith Lia Bool.
From Verif Require Import Base BTreeModel LayoutModel.
Import ListNotations.
Set Implicit Arguments.

Lemma round_up_ge x a : 0 < a -> x <= round_up x a.
Proof.
  intros H. unfold round_up. pose proof (Nat.div_mod (x + a - 1) a ltac:(lia)) as E. pose proof (Nat.mod_upper_bound (x + a - 1) a ltac:(lia)). nia.
Qed.
Lemma round_up_dvd x a : Nat.divide a (round_up x a).
Proof. unfold round_up. now exists ((x + a - 1) / a). Qed.
Lemma pow2_dvd a b : a <= b -> Nat.divide (2 ^ a) (2 ^ b).
Proof. intros H. exists (2 ^ (b - a)). rewrite <- Nat.pow_add_r. f_equal. lia. Qed.
Lemma pow2_max a b : Nat.max (2 ^ a) (2 ^ b) = 2 ^ Nat.max a b.
Proof.
  destruct (Nat.le_ge_cases a b) as [H|H].
  - rewrite (Nat.max_r a b H). apply Nat.max_r. apply Nat.pow_le_mono_r; lia.
  - rewrite (Nat.max_l a b H). apply Nat.max_l. apply Nat.pow_le_mono_r; lia.
Qed.

Section Parts.
  (** pointers of 16 bits and more; every size a multiple of its alignment, alignments powers of two, as in Rust *)
  Variables (w ksize a vsize b : nat).
  Hypothesis Hw : 1 <= w.
  Hypotheses (Hk : Nat.divide (2 ^ a) ksize) (Hv : Nat.divide (2 ^ b) vsize).
  Notation p := (2 ^ w).
  Notation leaf := (leaf_node p ksize (2 ^ a) vsize (2 ^ b)).
  Notation internal := (internal_node p ksize (2 ^ a) vsize (2 ^ b)).
  Notation size := (part_size p ksize vsize).
  Notation align := (part_align p (2 ^ a) (2 ^ b)).
  Notation in_leaf := (in_leaf p ksize (2 ^ a) vsize (2 ^ b)).
  Notation in_internal := (in_internal p ksize (2 ^ a) vsize (2 ^ b)).
  Notation alignment := (2 ^ Nat.max w (Nat.max 1 (Nat.max a b))).

  Lemma align_leaf : align_of leaf = alignment.
  Proof using.
    clear Hw Hk Hv.
    unfold align_of, leaf_node, common. cbn [app fold_right falign]. change (Nat.max (2 ^ w) (Nat.max (2 ^ 1) (Nat.max (2 ^ 1) (Nat.max (2 ^ a) (Nat.max (2 ^ b) (2 ^ 0))))) = alignment). rewrite !pow2_max. f_equal. lia.
  Qed.
  Lemma align_internal : align_of internal = alignment.
  Proof using.
    clear Hw Hk Hv.
    unfold align_of at 1, internal_node. cbn [fold_right falign]. rewrite align_leaf. change (Nat.max alignment (Nat.max (2 ^ w) (2 ^ 0)) = alignment). rewrite !pow2_max. f_equal. lia.
  Qed.
  Lemma leaf_places : let k := offset_of leaf 3 in let v := offset_of leaf 4 in
    offset_of leaf 0 = 0 /\ offset_of leaf 1 = p /\ offset_of leaf 2 = p + 2 /\ p + 4 <= k /\ Nat.divide (2 ^ a) k /\
    k + CAPACITY * ksize <= v /\ Nat.divide (2 ^ b) v /\ v + CAPACITY * vsize <= size_of leaf.
  Proof using Hw.
    pose proof (Nat.pow_nonzero 2 a ltac:(lia)) as Pa. pose proof (Nat.pow_nonzero 2 b ltac:(lia)) as Pb. pose proof (Nat.pow_nonzero 2 w ltac:(lia)) as Pw.
    assert (round_up 0 p = 0) as E0 by (unfold round_up; rewrite Nat.div_small; lia).
    assert (Nat.divide 2 p) as Dp by (change (Nat.divide (2 ^ 1) p); apply pow2_dvd; exact Hw).
    assert (forall x, Nat.divide 2 x -> round_up x 2 = x) as E2.
    { intros x [q ->]. unfold round_up. replace (q * 2 + 2 - 1) with (1 + q * 2) by lia. rewrite Nat.div_add by lia. reflexivity. }
    cbv zeta. unfold size_of. rewrite align_leaf. unfold offset_of, leaf_node, common. cbn [app offsets nth end_of fsize falign]. rewrite E0, Nat.add_0_l, (E2 p Dp).
    rewrite (E2 (p + 2)) by (apply Nat.divide_add_r; [exact Dp|apply Nat.divide_refl]).
    replace (p + 2 + 2) with (p + 4) by lia. set (k := round_up (p + 4) (2 ^ a)). set (v := round_up (k + CAPACITY * ksize) (2 ^ b)).
    pose proof (Nat.pow_nonzero 2 (Nat.max w (Nat.max 1 (Nat.max a b))) ltac:(lia)) as P.
    split; [reflexivity|]. split; [reflexivity|]. split; [reflexivity|]. split; [apply round_up_ge; lia|]. split; [apply round_up_dvd|].
    split; [apply round_up_ge; lia|]. split; [apply round_up_dvd|]. apply round_up_ge. lia.
  Qed.
  Lemma internal_places : offset_of internal 0 = 0 /\ size_of leaf <= offset_of internal 1 /\ Nat.divide p (offset_of internal 1) /\
    offset_of internal 1 + 2 * B_ * p <= size_of internal.
  Proof using Hw.
    pose proof (Nat.pow_nonzero 2 w ltac:(lia)) as Pw. pose proof (Nat.pow_nonzero 2 (Nat.max w (Nat.max 1 (Nat.max a b))) ltac:(lia)) as P.
    unfold size_of at 2. rewrite align_internal. unfold offset_of, internal_node. cbn [offsets nth end_of fsize falign]. rewrite align_leaf.
    assert (round_up 0 alignment = 0) as E0 by (unfold round_up; rewrite Nat.div_small; lia). rewrite E0, Nat.add_0_l.
    split; [reflexivity|]. split; [apply round_up_ge; lia|]. split; [apply round_up_dvd|]. apply round_up_ge. lia.
  Qed.

  (** ** C57.  Seen as a LeafNode, an InternalNode has every key, value and header field where it is; so have both seen as a header *)
  Theorem C57_casts : forall x, has_part false x ->
    in_internal x = in_leaf x /\
    (forall a2, x = Parent \/ x = ParentIdx \/ x = Len -> in_header p a2 x = in_leaf x).
  Proof using Hw.
    intros x Hx. destruct internal_places as (E & _). split.
    - destruct x; cbn [LayoutModel.in_internal has_part] in *; try (now rewrite E). now destruct Hx.
    - intros a2 [-> |[-> | ->]]; reflexivity.
  Qed.
  (** no two parts of a node overlap, each is within the node, and each is aligned wherever an aligned node is *)
  Theorem C57_apart : forall x y, has_part true x -> has_part true y -> x <> y ->
    in_internal x + size x <= in_internal y \/ in_internal y + size y <= in_internal x.
  Proof using Hw.
    intros x y Hx Hy N. destruct leaf_places as (E0 & E1 & E2 & L3 & _ & L4 & _ & L5). destruct internal_places as (I0 & I1 & _ & I2).
    assert (forall i j n, i <> j -> i * n + n <= j * n \/ j * n + n <= i * n) as K by (intros i j n H; destruct (Nat.lt_trichotomy i j) as [H'|[H'|H']]; [left|lia|right]; nia).
    assert (forall i c n, i < c -> i * n + n <= c * n) as K2 by (intros; nia).
    destruct x as [| | |i|i|i], y as [| | |j|j|j]; try congruence; unfold LayoutModel.in_internal, LayoutModel.in_leaf, part_size, has_part in *; rewrite ?I0, ?E0, ?E1, ?E2;
      try (pose proof (K2 i CAPACITY ksize Hx)); try (pose proof (K2 i CAPACITY vsize Hx)); try (pose proof (K2 j CAPACITY ksize Hy)); try (pose proof (K2 j CAPACITY vsize Hy));
      try lia.
    - destruct (K i j ksize); [congruence|lia|lia].
    - destruct (K i j vsize); [congruence|lia|lia].
    - destruct (K i j p); [congruence|lia|lia].
  Qed.
  Theorem C57_within : forall x,
    (has_part false x -> in_leaf x + size x <= size_of leaf) /\ (has_part true x -> in_internal x + size x <= size_of internal).
  Proof using Hw.
    intros x. destruct leaf_places as (E0 & E1 & E2 & L3 & _ & L4 & _ & L5). destruct internal_places as (I0 & I1 & _ & I2).
    assert (forall i c n, i < c -> i * n + n <= c * n) as K2 by (intros; nia).
    destruct x as [| | |i|i|i]; unfold LayoutModel.in_internal, LayoutModel.in_leaf, part_size, has_part; rewrite ?I0, ?E0, ?E1, ?E2; (split; intros Hx);
      try (pose proof (K2 i CAPACITY ksize Hx)); try (pose proof (K2 i CAPACITY vsize Hx)); try lia.
    destruct Hx as [_ Hx]. pose proof (K2 i (2 * B_) p Hx). lia.
  Qed.
  Theorem C57_aligned : forall x at_,
    (has_part false x -> Nat.divide (align_of leaf) at_ -> Nat.divide (align x) (at_ + in_leaf x)) /\
    (has_part true x -> Nat.divide (align_of internal) at_ -> Nat.divide (align x) (at_ + in_internal x)).
  Proof using Hw Hk Hv.
    intros x at_. rewrite align_leaf, align_internal. destruct leaf_places as (E0 & E1 & E2 & _ & D3 & _ & D4 & _). destruct internal_places as (I0 & _ & D5 & _).
    assert (Nat.divide 2 p) as Dp by (change (Nat.divide (2 ^ 1) p); apply pow2_dvd; exact Hw).
    assert (Nat.divide (align x) alignment) as DA.
    { destruct x; cbn [part_align]; try change (Nat.divide (2 ^ 1) alignment); apply pow2_dvd; lia. }
    assert (has_part false x -> Nat.divide (align x) (in_leaf x)) as DL.
    { destruct x as [| | |i|i|i]; cbn [part_align LayoutModel.in_leaf has_part]; intros Hx; rewrite ?E0, ?E1, ?E2.
      - apply Nat.divide_0_r.
      - exact Dp.
      - apply Nat.divide_add_r; [exact Dp|apply Nat.divide_refl].
      - apply Nat.divide_add_r; [exact D3|]. now apply Nat.divide_mul_r.
      - apply Nat.divide_add_r; [exact D4|]. now apply Nat.divide_mul_r.
      - apply Nat.divide_0_r. }
    split; intros Hx Hd; (apply Nat.divide_add_r; [eapply Nat.divide_trans; eassumption|]).
    - auto.
    - destruct x as [| | |i|i|i]; cbn [LayoutModel.in_internal]; try (rewrite I0; now apply DL). cbn [part_align]. apply Nat.divide_add_r; [exact D5|]. now apply Nat.divide_mul_r, Nat.divide_refl.
  Qed.
End Parts.

(** 64 bits, keys of 24 bytes aligned to 8, values of 32 aligned to 32: the values start at 288, the edges behind them *)
Example C57_example : Nat.divide (2 ^ 3) 24 /\ Nat.divide (2 ^ 5) 32 /\
  in_leaf 8 24 (2 ^ 3) 32 (2 ^ 5) (Key 10) = 256 /\ in_leaf 8 24 (2 ^ 3) 32 (2 ^ 5) (Val 0) = 288 /\
  in_internal 8 24 (2 ^ 3) 32 (2 ^ 5) (Edge 11) = 728.
Proof. split; [now exists 3|]. split; [now exists 1|]. repeat split. Qed.

Print Assumptions C57_casts.
Print Assumptions C57_apart.
Print Assumptions C57_within.
Print Assumptions C57_aligned.
