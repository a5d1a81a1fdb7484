(** * HeapArr: facts about arrays of slots. *)
From Coq Require Import List Arith Lia Bool.
From Verif Require Import Base BTreeModel HeapModel.
Import ListNotations.
Set Implicit Arguments.

Section Arr.
  Variable A : Type.
  Implicit Types (a src dst : slots A) (xs ys : list A).

  (** [at_ a o xs]: the slots from [o] on hold [xs] *)
  Definition at_ a (o : nat) xs := forall j x, nth_error xs j = Some x -> nth_error a (o + j) = Some (Some x).
  (** an array of [cap] slots, the first of which hold [xs] *)
  Definition holds a xs (cap : nat) := length a = cap /\ at_ a 0 xs.

  Lemma at_nil a o : at_ a o [].
  Proof. intros [|j] x H; discriminate H. Qed.

  Lemma at_app a o xs ys : at_ a o (xs ++ ys) <-> at_ a o xs /\ at_ a (o + length xs) ys.
  Proof.
    split.
    - intro H. split; intros j x Hj.
      + apply H. rewrite nth_error_app1; [exact Hj|]. apply nth_error_Some. congruence.
      + rewrite <- Nat.add_assoc. apply H. rewrite nth_error_app2 by lia.
        replace (length xs + j - length xs) with j by lia. exact Hj.
    - intros [H1 H2] j x Hj. destruct (Nat.lt_ge_cases j (length xs)) as [L | L].
      + rewrite nth_error_app1 in Hj by exact L. now apply H1.
      + rewrite nth_error_app2 in Hj by exact L. apply H2 in Hj.
        replace (o + length xs + (j - length xs)) with (o + j) in Hj by lia. exact Hj.
  Qed.

  Lemma at_cons a o x ys : at_ a o (x :: ys) <-> nth_error a o = Some (Some x) /\ at_ a (S o) ys.
  Proof.
    change (x :: ys) with ([x] ++ ys). rewrite at_app. cbn [length].
    replace (o + 1) with (S o) by lia. split; intros [H1 H2]; split; auto.
    - specialize (H1 0 x eq_refl). rewrite Nat.add_0_r in H1. exact H1.
    - intros [|[|j]] y Hj; cbn in Hj; try discriminate. injection Hj as <-. now rewrite Nat.add_0_r.
  Qed.

  Lemma at_len a o xs : at_ a o xs -> xs = [] \/ o + length xs <= length a.
  Proof.
    intro H. destruct xs as [|x xs]; [now left|right].
    destruct (nth_error (x :: xs) (length xs)) as [y|] eqn:E.
    - apply H in E. assert (nth_error a (o + length xs) <> None) as N by congruence.
      apply nth_error_Some in N. cbn. lia.
    - apply nth_error_None in E. cbn in E. lia.
  Qed.

  Lemma holds_len a xs cap : holds a xs cap -> length xs <= cap.
  Proof. intros [H1 H2]. destruct (at_len H2) as [-> | H]; cbn in *; lia. Qed.
  Arguments holds_len {a xs cap}.

  Lemma at_read a o xs x : at_ a o (x :: xs) -> arr_read a o = Some x.
  Proof. intro H. apply at_cons in H as [H _]. unfold arr_read. now rewrite H. Qed.

  Lemma at_init a xs : at_ a 0 xs -> arr_init a (length xs) = Some xs.
  Proof.
    revert a. induction xs as [|x xs IH]; intros a H; [now destruct a|].
    destruct a as [|s a].
    - apply at_cons in H as [H _]. discriminate H.
    - apply at_cons in H as [H1 H2]. cbn in H1. injection H1 as ->. cbn.
      rewrite IH; [reflexivity|]. intros j y Hj. exact (H2 j y Hj).
  Qed.

  Lemma holds_init a xs cap : holds a xs cap -> arr_init a (length xs) = Some xs.
  Proof. intros [_ H]. now apply at_init. Qed.

  Lemma nth_firstn B (l : list B) n i : i < n -> nth_error (firstn n l) i = nth_error l i.
  Proof. revert l i. induction n; intros [|x l] [|i] H; cbn; try reflexivity; try lia. apply IHn. lia. Qed.
  Lemma nth_skipn B (l : list B) n i : nth_error (skipn n l) i = nth_error l (n + i).
  Proof. revert l i. induction n; intros [|x l] i; cbn; auto. now destruct i. Qed.

  Lemma nth_copy src so dst d n a :
    arr_copy src so dst d n = Some a ->
    length a = length dst /\
    forall j, nth_error a j =
      if (d <=? j) && (j <? d + n) then nth_error src (so + (j - d)) else nth_error dst j.
  Proof.
    unfold arr_copy. destruct (Nat.leb_spec (so + n) (length src)) as [H1|]; [|discriminate].
    destruct (Nat.leb_spec (d + n) (length dst)) as [H2|]; [|discriminate]. cbn [andb].
    intro E. injection E as <-.
    assert (length (firstn d dst) = d) as L1 by (rewrite firstn_length; lia).
    assert (length (firstn n (skipn so src)) = n) as L2 by (rewrite firstn_length, skipn_length; lia).
    split.
    - rewrite !app_length, L1, L2, skipn_length. lia.
    - intro j. destruct (Nat.leb_spec d j) as [G1|G1]; cbn [andb].
      + rewrite nth_error_app2 by lia. rewrite L1.
        destruct (Nat.ltb_spec j (d + n)) as [G2|G2].
        * rewrite nth_error_app1 by lia. rewrite nth_firstn by lia. apply nth_skipn.
        * rewrite nth_error_app2 by lia. rewrite L2.
          rewrite <- (firstn_skipn (d + n) dst) at 2.
          rewrite nth_error_app2; rewrite firstn_length; [|lia]. f_equal. lia.
      + rewrite nth_error_app1 by lia.
        rewrite <- (firstn_skipn d dst) at 2. rewrite nth_error_app1 by lia. reflexivity.
  Qed.
  Arguments nth_copy {src so dst d n a}.

  Lemma copy_ex src so dst d n :
    so + n <= length src -> d + n <= length dst -> exists a, arr_copy src so dst d n = Some a.
  Proof.
    intros H1 H2. unfold arr_copy. apply Nat.leb_le in H1, H2. rewrite H1, H2. now eexists.
  Qed.

  (** what was copied is there *)
  Lemma copy_at src so dst d n a xs :
    arr_copy src so dst d n = Some a -> at_ src so xs -> length xs <= n -> at_ a d xs.
  Proof.
    intros H Hx L j x Hj. apply nth_copy in H as [_ H]. rewrite H.
    assert (j < length xs) by (apply nth_error_Some; congruence).
    destruct (Nat.leb_spec d (d + j)); [|lia]. destruct (Nat.ltb_spec (d + j) (d + n)); [|lia]. cbn [andb].
    replace (d + j - d) with j by lia. now apply Hx.
  Qed.
  Arguments copy_at {src so dst d n a xs}.

  (** the rest of the target is untouched *)
  Lemma copy_other src so dst d n a o xs :
    arr_copy src so dst d n = Some a -> at_ dst o xs -> o + length xs <= d \/ d + n <= o -> at_ a o xs.
  Proof.
    intros H Hx L j x Hj. apply nth_copy in H as [_ H]. rewrite H.
    assert (j < length xs) by (apply nth_error_Some; congruence).
    destruct (Nat.leb_spec d (o + j)); cbn [andb]; [|now apply Hx].
    destruct (Nat.ltb_spec (o + j) (d + n)); [lia|]. now apply Hx.
  Qed.
  Arguments copy_other {src so dst d n a o xs}.

  Lemma nth_write a i x a' :
    arr_write a i x = Some a' ->
    length a' = length a /\ forall j, nth_error a' j = if j =? i then Some (Some x) else nth_error a j.
  Proof.
    unfold arr_write. destruct (Nat.ltb_spec i (length a)) as [H|]; [|discriminate].
    intro E. assert (a' = firstn i a ++ Some x :: skipn (S i) a) as -> by congruence.
    assert (length (firstn i a) = i) as L by (rewrite firstn_length; lia).
    split.
    - rewrite app_length, L. change (length (Some x :: skipn (S i) a)) with (S (length (skipn (S i) a))). rewrite skipn_length. lia.
    - intro j. destruct (Nat.eqb_spec j i) as [-> | N].
      + rewrite nth_error_app2 by lia. rewrite L, Nat.sub_diag. reflexivity.
      + destruct (Nat.lt_ge_cases j i).
        * rewrite nth_error_app1 by lia. rewrite <- (firstn_skipn i a) at 2. rewrite nth_error_app1 by lia. reflexivity.
        * rewrite nth_error_app2 by lia. rewrite L. destruct (j - i) as [|k] eqn:Ek; [lia|]. change (nth_error (skipn (S i) a) k = nth_error a j). rewrite nth_skipn. f_equal. lia.
  Qed.
  Arguments nth_write {a i x a'}.

  Lemma write_ex a i x : i < length a -> exists a', arr_write a i x = Some a'.
  Proof. intro H. unfold arr_write. apply Nat.ltb_lt in H. rewrite H. now eexists. Qed.

  Lemma write_at a i x a' : arr_write a i x = Some a' -> at_ a' i [x].
  Proof.
    intro H. apply nth_write in H as [_ H]. apply at_cons. split; [|apply at_nil].
    now rewrite H, Nat.eqb_refl.
  Qed.
  Arguments write_at {a i x a'}.

  Lemma write_other a i x a' o xs :
    arr_write a i x = Some a' -> at_ a o xs -> o + length xs <= i \/ i < o -> at_ a' o xs.
  Proof.
    intros H Hx L j y Hj. apply nth_write in H as [_ H]. rewrite H.
    assert (j < length xs) by (apply nth_error_Some; congruence).
    destruct (Nat.eqb_spec (o + j) i); [lia|]. now apply Hx.
  Qed.
  Arguments write_other {a i x a' o xs}.

  (** ** The helpers of node.rs on the initialised prefix *)
  Lemma firstn_skipn_at a o xs i : at_ a o xs -> i <= length xs ->
    at_ a o (firstn i xs) /\ at_ a (o + i) (skipn i xs).
  Proof.
    intros H L. rewrite <- (firstn_skipn i xs) in H. apply at_app in H. rewrite firstn_length in H.
    replace (Nat.min i (length xs)) with i in H by lia. exact H.
  Qed.
  Arguments firstn_skipn_at {a o xs i}.

  Lemma slice_insert_holds a xs cap i x :
    holds a xs cap -> i <= length xs -> length xs < cap ->
    exists a', arr_slice_insert a (length xs) i x = Some a' /\ holds a' (slice_insert i x xs) cap.
  Proof.
    intros [L H] Hi Hc. unfold arr_slice_insert. apply Nat.leb_le in Hi as Hb. rewrite Hb.
    destruct (@copy_ex a i a (i + 1) (length xs - i)) as [a1 E1]; [lia|lia|]. rewrite E1.
    destruct (nth_copy E1) as [L1 _].
    destruct (@write_ex a1 i x) as [a2 E2]; [lia|]. exists a2. split; [exact E2|].
    destruct (nth_write E2) as [L2 _]. split; [lia|].
    destruct (firstn_skipn_at H Hi) as [G1 G2]. cbn in G2.
    unfold slice_insert. apply at_app. rewrite firstn_length. replace (Nat.min i (length xs)) with i by lia.
    split.
    - apply (write_other E2); [|rewrite firstn_length; left; lia].
      apply (copy_other E1); [exact G1|rewrite firstn_length; lia].
    - cbn [Nat.add]. apply at_cons. split.
      + pose proof (write_at E2) as W. now apply at_cons in W.
      + apply (write_other E2); [|lia]. replace (S i) with (i + 1) by lia.
        apply (copy_at E1); [exact G2|rewrite skipn_length; lia].
  Qed.

  Lemma slice_remove_holds a xs cap i x ys n :
    holds a xs cap -> n = length xs -> slice_remove i xs = Some (x, ys) ->
    exists a', arr_slice_remove a n i = Some (x, a') /\ holds a' ys cap.
  Proof.
    intros [L H] -> R. unfold slice_remove, pick in R.
    destruct (nth_error xs i) as [x'|] eqn:E; [|discriminate]. assert (x' = x /\ ys = firstn i xs ++ skipn (S i) xs) as [-> ->] by (split; congruence). clear R.
    assert (i < length xs) as Hi by (apply nth_error_Some; congruence).
    pose proof (holds_len (conj L H)) as Hc.
    unfold arr_slice_remove. apply Nat.ltb_lt in Hi as Hb. rewrite Hb.
    assert (arr_read a i = Some x) as -> by (pose proof (H i x E) as Hr; cbn in Hr; unfold arr_read; now rewrite Hr).
    destruct (@copy_ex a (i + 1) a i (length xs - i - 1)) as [a1 E1]; [lia|lia|]. rewrite E1.
    exists a1. split; [reflexivity|]. destruct (nth_copy E1) as [L1 _]. split; [lia|].
    apply at_app. rewrite firstn_length. replace (Nat.min i (length xs)) with i by lia. cbn [Nat.add].
    destruct (@firstn_skipn_at a 0 xs i H) as [G1 _]; [lia|].
    destruct (@firstn_skipn_at a 0 xs (S i) H) as [_ G2]; [lia|]. cbn [Nat.add] in G2.
    split.
    - apply (copy_other E1); [exact G1|rewrite firstn_length; lia].
    - apply (copy_at E1); [replace (i + 1) with (S i) by lia; exact G2|rewrite skipn_length; lia].
  Qed.

  (** removal from a longer slice than the initialised part (merge, on the array of edges) *)
  Lemma slice_remove_raw a xs cap i x ys :
    holds a xs cap -> slice_remove i xs = Some (x, ys) ->
    exists a', arr_slice_remove a cap i = Some (x, a') /\ holds a' ys cap.
  Proof.
    intros [L H] R. unfold slice_remove, pick in R.
    destruct (nth_error xs i) as [x'|] eqn:E; [|discriminate]. assert (x' = x /\ ys = firstn i xs ++ skipn (S i) xs) as [-> ->] by (split; congruence). clear R.
    assert (i < length xs) as Hi by (apply nth_error_Some; congruence).
    pose proof (holds_len (conj L H)) as Hc.
    unfold arr_slice_remove. assert (i <? cap = true) as -> by (apply Nat.ltb_lt; lia).
    assert (arr_read a i = Some x) as -> by (pose proof (H i x E) as Hr; cbn in Hr; unfold arr_read; now rewrite Hr).
    destruct (@copy_ex a (i + 1) a i (cap - i - 1)) as [a1 E1]; [lia|lia|]. rewrite E1.
    exists a1. split; [reflexivity|]. destruct (nth_copy E1) as [L1 _]. split; [lia|].
    apply at_app. rewrite firstn_length. replace (Nat.min i (length xs)) with i by lia. cbn [Nat.add].
    destruct (@firstn_skipn_at a 0 xs i H) as [G1 _]; [lia|].
    destruct (@firstn_skipn_at a 0 xs (S i) H) as [_ G2]; [lia|]. cbn [Nat.add] in G2.
    split.
    - apply (copy_other E1); [exact G1|rewrite firstn_length; lia].
    - apply (copy_at E1); [replace (i + 1) with (S i) by lia; exact G2|rewrite skipn_length; lia].
  Qed.

  (** a shorter prefix is still held *)
  Lemma holds_prefix a xs ys cap : holds a (xs ++ ys) cap -> holds a xs cap.
  Proof. intros [L H]. split; [exact L|]. now apply at_app in H. Qed.

  Lemma holds_read a xs cap i x : holds a xs cap -> nth_error xs i = Some x -> arr_read a i = Some x.
  Proof. intros [_ H] E. apply H in E. cbn in E. unfold arr_read. now rewrite E. Qed.

  (** pushing after the prefix *)
  Lemma push_holds a xs cap x : holds a xs cap -> length xs < cap ->
    exists a', arr_write a (length xs) x = Some a' /\ holds a' (xs ++ [x]) cap.
  Proof.
    intros [L H] C. destruct (@write_ex a (length xs) x) as [a' E]; [lia|].
    exists a'. split; [exact E|]. destruct (nth_write E) as [L' _]. split; [lia|].
    apply at_app. split; [|exact (write_at E)]. apply (write_other E H). lia.
  Qed.

  (** overwriting one slot of the prefix *)
  Lemma overwrite_holds a xs cap i y (x : A) l r : holds a xs cap -> pick i xs = Some (l, y, r) ->
    exists a', arr_write a i x = Some a' /\ holds a' (l ++ x :: r) cap.
  Proof.
    intros [L H] P. unfold pick in P. destruct (nth_error xs i) as [y'|] eqn:E; [|discriminate].
    assert (l = firstn i xs /\ r = skipn (S i) xs) as [-> ->] by (split; congruence). clear P. assert (i < length xs) as Hi by (apply nth_error_Some; congruence).
    pose proof (holds_len (conj L H)) as Hc.
    destruct (@write_ex a i x) as [a' W]; [lia|]. exists a'. split; [exact W|].
    destruct (nth_write W) as [L' _]. split; [lia|].
    apply at_app. rewrite firstn_length. replace (Nat.min i (length xs)) with i by lia. cbn [Nat.add].
    destruct (@firstn_skipn_at a 0 xs i H) as [G1 _]; [lia|].
    destruct (@firstn_skipn_at a 0 xs (S i) H) as [_ G2]; [lia|]. cbn [Nat.add] in G2.
    split; [apply (write_other W G1); rewrite firstn_length; lia|].
    apply at_cons. split.
    - pose proof (write_at W) as W'. now apply at_cons in W'.
    - apply (write_other W G2). lia.
  Qed.

  (** appending a copied segment to the prefix *)
  Lemma append_copy src so xs dst ys cap n :
    at_ src so xs -> n = length xs -> so + n <= length src -> holds dst ys cap -> length ys + n <= cap ->
    exists a, arr_copy src so dst (length ys) n = Some a /\ holds a (ys ++ xs) cap.
  Proof.
    intros Hx -> Hs [L H] C. destruct (@copy_ex src so dst (length ys) (length xs)) as [a E]; [lia|lia|].
    exists a. split; [exact E|]. destruct (nth_copy E) as [L' _]. split; [lia|].
    apply at_app. split; [apply (copy_other E H); lia|]. apply (copy_at E Hx). lia.
  Qed.

  Lemma holds_repeat cap : holds (repeat (@None A) cap) [] cap.
  Proof. split; [apply repeat_length|apply at_nil]. Qed.
End Arr.
