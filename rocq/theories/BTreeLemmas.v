(** * BTreeLemmas: trees, zippers, search *)
From Coq Require Import List Arith Lia Bool Sorted.
From Verif Require Import Base MapSpec BTreeModel BTreeInv.
Import ListNotations.
Set Implicit Arguments.

Ltac nlia := unfold fair, root_fair, REAL_MIN, MIN_LEN, CAPACITY, B_ in *; simpl in *; lia.

(** ** pick *)
Lemma pick_app A (a : list A) x z : pick (length a) (a ++ x :: z) = Some (a, x, z).
Proof.
  unfold pick. rewrite nth_error_app2, Nat.sub_diag by lia. cbn [nth_error].
  rewrite firstn_app, Nat.sub_diag, firstn_O, app_nil_r, firstn_all.
  replace (skipn (S (length a)) (a ++ x :: z)) with z; [reflexivity|].
  rewrite skipn_app. replace (S (length a) - length a) with 1 by lia.
  rewrite skipn_all2 by lia. reflexivity.
Qed.
Lemma pick_some A i (l : list A) a x z : pick i l = Some (a, x, z) -> l = a ++ x :: z /\ length a = i.
Proof.
  unfold pick. destruct (nth_error l i) eqn:E; [|discriminate]. intros H; injection H; intros; subst.
  assert (Hl : i < length l) by (apply nth_error_Some; congruence).
  split; [|rewrite firstn_length; lia].
  rewrite <- (firstn_skipn i l) at 1. f_equal.
  clear H Hl. revert i E. induction l; intros [|i] E; simpl in *; try discriminate; [congruence|auto].
Qed.
Lemma pick_lt A i (l : list A) : i < length l -> exists a x z, pick i l = Some (a, x, z).
Proof.
  intros H. unfold pick. destruct (nth_error l i) eqn:E; [eauto|]. apply nth_error_None in E. lia.
Qed.
Lemma pick_none A i (l : list A) : pick i l = None -> length l <= i.
Proof. unfold pick. destruct (nth_error l i) eqn:E; [discriminate|]. intros _. now apply nth_error_None. Qed.
Lemma pick_app' A i (a : list A) x z : length a = i -> pick i (a ++ x :: z) = Some (a, x, z).
Proof. intros <-. apply pick_app. Qed.
Lemma slice_remove_app A i (a : list A) x z : length a = i -> slice_remove i (a ++ x :: z) = Some (x, a ++ z).
Proof. intros. unfold slice_remove. now rewrite pick_app'. Qed.
Lemma slice_insert_app A i (a z : list A) x : length a = i -> slice_insert i x (a ++ z) = a ++ x :: z.
Proof.
  intros <-. unfold slice_insert. rewrite firstn_app, Nat.sub_diag, firstn_O, app_nil_r, firstn_all.
  rewrite skipn_app, Nat.sub_diag, skipn_all. reflexivity.
Qed.
Lemma firstn_app_len A (a z : list A) i : length a = i -> firstn i (a ++ z) = a.
Proof. intros <-. now rewrite firstn_app, Nat.sub_diag, firstn_O, app_nil_r, firstn_all. Qed.
Lemma skipn_app_len A (a z : list A) i : length a = i -> skipn i (a ++ z) = z.
Proof. intros <-. now rewrite skipn_app, Nat.sub_diag, skipn_all. Qed.
Lemma split_at A (l : list A) i : i <= length l -> exists a z, l = a ++ z /\ length a = i.
Proof. intros. exists (firstn i l), (skipn i l). rewrite firstn_skipn, firstn_length. split; auto; lia. Qed.
Lemma slice_insert_length A i (x : A) l : length (slice_insert i x l) = S (length l).
Proof.
  unfold slice_insert. rewrite app_length. cbn [length]. rewrite <- (firstn_skipn i l) at 3.
  rewrite app_length. lia.
Qed.

(** ** weave *)
(** e0 k0 e1 k1 ... (as many edges as pairs) / k0 e0 k1 e1 ... *)
Fixpoint wl {A} (es : list (list A)) (ks : list A) : list A :=
  match es, ks with e :: es', k :: ks' => e ++ k :: wl es' ks' | _, _ => [] end.
Fixpoint wr {A} (ks : list A) (es : list (list A)) : list A :=
  match ks, es with k :: ks', e :: es' => k :: e ++ wr ks' es' | _, _ => [] end.

Section W.
  Context {A : Type}.
  Implicit Types (es : list (list A)) (ks : list A).
  Lemma weave_split es1 e es2 ks1 ks2 : length es1 = length ks1 -> length es2 = length ks2 ->
    weave (es1 ++ e :: es2) (ks1 ++ ks2) = wl es1 ks1 ++ e ++ wr ks2 es2.
  Proof.
    revert ks1. induction es1 as [|e1 es1 IH]; intros [|k1 ks1] H1 H2; simpl in *; try discriminate.
    - f_equal. clear H1. revert ks2 H2. induction es2 as [|e2 es2 IH]; intros [|k ks2] H; simpl in *; try discriminate; auto.
      do 2 f_equal. apply IH. lia.
    - rewrite IH by lia. now rewrite <- app_assoc.
  Qed.
  Lemma wl_app es1 es2 ks1 ks2 : length es1 = length ks1 ->
    wl (es1 ++ es2) (ks1 ++ ks2) = wl es1 ks1 ++ wl es2 ks2.
  Proof.
    revert ks1. induction es1; intros [|k1 ks1] H; simpl in *; try discriminate; auto.
    rewrite IHes1 by lia. now rewrite <- app_assoc.
  Qed.
  Lemma wr_app es1 es2 ks1 ks2 : length es1 = length ks1 ->
    wr (ks1 ++ ks2) (es1 ++ es2) = wr ks1 es1 ++ wr ks2 es2.
  Proof.
    revert ks1. induction es1; intros [|k1 ks1] H; simpl in *; try discriminate; auto.
    rewrite IHes1 by lia. now rewrite <- app_assoc.
  Qed.
  (** cutting a woven list at a pair *)
  Lemma weave_cut es1 es2 ks1 k ks2 : length es1 = S (length ks1) ->
    weave (es1 ++ es2) (ks1 ++ k :: ks2) = weave es1 ks1 ++ k :: weave es2 ks2.
  Proof.
    revert ks1. induction es1 as [|e1 es1 IH]; intros ks1 H; simpl in *; [discriminate|].
    destruct ks1 as [|k1 ks1]; simpl in *.
    - destruct es1; [|discriminate]. now rewrite app_nil_r.
    - rewrite IH by lia. now rewrite <- app_assoc.
  Qed.
  Lemma weave_length es ks : es = [] \/ length es = S (length ks) ->
    length (weave es ks) = length ks + list_sum (map (@length A) es).
  Proof.
    intros [->|H]; [simpl; lia|]. revert ks H. induction es as [|e es IH]; intros ks H; simpl in *; [discriminate|].
    rewrite app_length. destruct ks; simpl in *.
    - destruct es; [simpl; lia|discriminate].
    - rewrite IH by lia. simpl. lia.
  Qed.
End W.

Section Tree.
  Variables (K V : Type).
  Notation node := (node K V).
  Notation frame := (frame K V).
  Notation ctx := (ctx K V).
  Notation handle := (handle K V).
  Implicit Types (n : node) (c : ctx) (f : frame) (hd : handle).

  Lemma node_eta n : n = Node (kvs n) (edges n).
  Proof. now destruct n. Qed.
  Lemma inorder_leaf k : inorder (Node (V:=V) k []) = (k : list (K * V)).
  Proof. reflexivity. Qed.
  Lemma inorder_eq n : inorder n = weave (map (@inorder K V) (edges n)) (kvs n).
  Proof. now destruct n. Qed.

  (** ** Frames *)
  Definition before f : list (K * V) := wl (map (@inorder K V) (fl f)) (firstn (fidx f) (fk f)).
  Definition after f : list (K * V) := wr (skipn (fidx f) (fk f)) (map (@inorder K V) (fr f)).
  Fixpoint cbefore c : list (K * V) := match c with [] => [] | f :: c' => cbefore c' ++ before f end.
  Fixpoint cafter c : list (K * V) := match c with [] => [] | f :: c' => after f ++ cafter c' end.
  Definition frame_ok f : Prop := length (fk f) = length (fl f) + length (fr f).

  Lemma inorder_fill f n : frame_ok f -> inorder (fill f n) = before f ++ inorder n ++ after f.
  Proof.
    unfold frame_ok. intros H. unfold fill, before, after, fidx. simpl. rewrite map_app. simpl.
    rewrite <- (firstn_skipn (length (fl f)) (fk f)) at 1. rewrite weave_split; auto.
    - rewrite map_length, firstn_length. lia.
    - rewrite map_length, skipn_length. lia.
  Qed.
  Lemma inorder_plug c : Forall frame_ok c -> forall n, inorder (plug n c) = cbefore c ++ inorder n ++ cafter c.
  Proof.
    induction 1 as [|f c Hf Hc IH]; intros n; simpl; [now rewrite app_nil_r|].
    rewrite IH, inorder_fill by auto. now rewrite <- !app_assoc.
  Qed.
  Lemma cbefore_app c1 c2 : cbefore (c1 ++ c2) = cbefore c2 ++ cbefore c1.
  Proof. induction c1; simpl; [now rewrite app_nil_r|]. now rewrite IHc1, app_assoc. Qed.
  Lemma cafter_app c1 c2 : cafter (c1 ++ c2) = cafter c1 ++ cafter c2.
  Proof. induction c1; simpl; auto. now rewrite IHc1, app_assoc. Qed.
  Lemma plug_app n c1 c2 : plug n (c1 ++ c2) = plug (plug n c1) c2.
  Proof. revert n. induction c1; intros; simpl; auto. Qed.
  Lemma cpath_cons f c : cpath (f :: c) = cpath c ++ [fidx f].
  Proof. reflexivity. Qed.
  Lemma cpath_app c1 c2 : cpath (c1 ++ c2) = cpath c2 ++ cpath c1.
  Proof. unfold cpath. now rewrite map_app, rev_app_distr. Qed.

  Lemma nlen_fill f n : nlen (fill f n) = length (fk f).
  Proof. reflexivity. Qed.

  (** ** Shapes with bounds *)
  Section Bounds.
    Variables (P : nat -> Prop) (R : nat -> nat -> Prop).
    Definition sub h n : Prop := P (nlen n) /\ kids P h n.
    (** what the length of a node at height [h] below context [c] satisfies *)
    Definition bound h c k : Prop := match c with [] => R h k | _ => P k end.
    Fixpoint cok h c : Prop :=
      match c with
      | [] => True
      | f :: c' => frame_ok f /\ Forall (sub h) (fl f) /\ Forall (sub h) (fr f) /\
                   bound (S h) c' (length (fk f)) /\ cok (S h) c'
      end.
    Lemma kids_S h n : kids P (S h) n <-> length (edges n) = S (nlen n) /\ Forall (sub h) (edges n).
    Proof. reflexivity. Qed.

    Lemma fill_kids h f n : kids P (S h) (fill f n) <->
      frame_ok f /\ Forall (sub h) (fl f) /\ sub h n /\ Forall (sub h) (fr f).
    Proof.
      rewrite kids_S. unfold fill, frame_ok, nlen. cbn [kvs edges]. rewrite app_length. cbn [length].
      rewrite Forall_app. split.
      - intros (H1 & H2 & H3). inversion H3; subst. repeat (split; auto). lia.
      - intros (H1 & H2 & H3 & H4). split; [lia|]. split; auto.
    Qed.

    Lemma plug_ok c : forall h n,
      (bound h c (nlen n) /\ kids P h n /\ cok h c) <->
      (R (h + length c) (nlen (plug n c)) /\ kids P (h + length c) (plug n c)).
    Proof.
      induction c as [|f c IH]; intros h n; simpl.
      - rewrite Nat.add_0_r. tauto.
      - replace (h + S (length c)) with (S h + length c) by lia. rewrite <- IH, fill_kids, nlen_fill.
        unfold sub. tauto.
    Qed.

    Lemma cok_frames h c : cok h c -> Forall frame_ok c.
    Proof. revert h. induction c; intros h H; constructor; simpl in H; [tauto|]. apply (IHc (S h)); tauto. Qed.
    Lemma cok_app h c1 c2 : c2 <> [] -> cok h (c1 ++ c2) <->
      (fix go h c1 := match c1 with
                      | [] => cok h c2
                      | f :: c' => frame_ok f /\ Forall (sub h) (fl f) /\ Forall (sub h) (fr f) /\
                          P (length (fk f)) /\ go (S h) c'
                      end) h c1.
    Proof.
      intros Hc. revert h. induction c1 as [|f c1 IH]; intros h; simpl; [tauto|].
      rewrite IH. assert (Hb : bound (S h) (c1 ++ c2) (length (fk f)) = P (length (fk f))).
      { unfold bound. destruct (c1 ++ c2) eqn:E; auto. apply app_eq_nil in E. destruct E; congruence. }
      rewrite Hb. tauto.
    Qed.

    (** ** descend *)
    Lemma descend_some n i e f : descend n i = Some (e, f) ->
      n = fill f e /\ fidx f = i.
    Proof.
      unfold descend. destruct (pick i (edges n)) as [[[l x] r]|] eqn:E; [|discriminate].
      intros H; injection H; intros; subst. apply pick_some in E. destruct E as [E Hl].
      unfold fill, fidx. cbn [fl fr fk]. rewrite <- E. split; auto. apply node_eta.
    Qed.
    Lemma descend_ok h n i : kids P (S h) n -> i <= nlen n -> exists e f, descend n i = Some (e, f).
    Proof.
      intros [Hl _] Hi. unfold descend. destruct (@pick_lt _ i (edges n)) as (a & x & z & ->); [lia|]. eauto.
    Qed.
    Lemma descend_kids h n i e f : kids P (S h) n -> descend n i = Some (e, f) ->
      n = fill f e /\ fidx f = i /\ frame_ok f /\ Forall (sub h) (fl f) /\ sub h e /\ Forall (sub h) (fr f) /\ fk f = kvs n.
    Proof.
      intros Hk Hd. destruct (descend_some _ _ Hd) as [-> Hi]. apply fill_kids in Hk.
      repeat (split; try tauto).
    Qed.
    Lemma cok_descend h n i e f c : bound (S h) c (nlen n) -> kids P (S h) n -> cok (S h) c ->
      descend n i = Some (e, f) -> bound h (f :: c) (nlen e) /\ kids P h e /\ cok h (f :: c) /\ plug e (f :: c) = plug n c.
    Proof.
      intros Hb Hk Hc Hd. destruct (descend_kids _ Hk Hd) as (-> & Hi & Hf & Hl & [He1 He2] & Hr & Hk').
      rewrite nlen_fill in Hb. simpl. tauto.
    Qed.
  End Bounds.

  Lemma kids_weaken (P Q : nat -> Prop) : (forall k, P k -> Q k) -> forall h n, kids P h n -> kids Q h n.
  Proof.
    intros HPQ h. induction h; intros n H; simpl in *; auto.
    destruct H as [H1 H2]. split; auto. eapply Forall_impl; [|exact H2]. simpl. intros e [? ?]. auto.
  Qed.
  Lemma kids_shape P h n : kids P h n -> shape h n.
  Proof. apply kids_weaken. intros; exact I. Qed.

  Lemma balanced_eq h n : balanced h n <-> root_fair h (nlen n) /\ kids fair h n.
  Proof. reflexivity. Qed.
End Tree.
