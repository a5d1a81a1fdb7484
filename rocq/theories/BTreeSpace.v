(** * BTreeSpace: requests for memory and numbers of nodes *)
From Coq Require Import List Arith Lia Bool.
From Verif Require Import Base MapSpec BTreeModel BTreeInv BTreeLemmas BTreeSearch BTreeInsert BTreeRemove BTreeIterModel BTreeBulkModel BTreeBorder BTreeSplit BTreeAppend BTreeClone BTreeCost SpaceSpec.
Import ListNotations.
Set Implicit Arguments.

Section Space.
  Variables (K V : Type).
  Notation kv := (K * V)%type.
  Notation node := (node K V).
  Notation ctx := (ctx K V).
  Notation bmap := (bmap K V).

  Implicit Types (n l r p : node) (c : ctx) (m : bmap) (f : frame K V).

  Definition tot (es : list node) : nat := list_sum (map (@size K V) es).
  Lemma size_eq (n : node) : size n = S (tot (edges n)).
  Proof. destruct n. reflexivity. Qed.
  Lemma tot_app (a b : list node) : tot (a ++ b) = tot a + tot b.
  Proof. unfold tot. rewrite map_app, list_sum_app. reflexivity. Qed.
  Lemma tot_cons x b : tot (x :: b) = size x + tot b.
  Proof. reflexivity. Qed.
  Lemma tot_nil : tot [] = 0.
  Proof. reflexivity. Qed.
  Lemma tot_cut i es : tot (firstn i es) + tot (skipn i es) = tot es.
  Proof. rewrite <- tot_app, firstn_skipn. reflexivity. Qed.
  Lemma tot_ins i e es : tot (slice_insert i e es) = tot es + size e.
  Proof. unfold slice_insert. rewrite tot_app, tot_cons. rewrite <- (tot_cut i es). lia. Qed.
  Lemma tot_nth i es e : nth_error es i = Some e -> size e <= tot es.
  Proof. intros H. apply nth_error_split in H. destruct H as (a & b & -> & _). rewrite tot_app, tot_cons. lia. Qed.
  Lemma tot_firstn_nth i es e : nth_error es i = Some e -> tot (firstn i es) + size e <= tot es.
  Proof. intros H. apply nth_error_split in H. destruct H as (a & b & -> & <-). rewrite firstn_app, Nat.sub_diag, firstn_O, firstn_all, app_nil_r. rewrite tot_app, tot_cons. lia. Qed.

  Fixpoint csize (c : ctx) : nat := match c with [] => 0 | f :: c' => S (tot (fl f) + tot (fr f)) + csize c' end.
  Lemma size_fill f (n : node) : size (fill f n) = S (tot (fl f) + tot (fr f)) + size n.
  Proof. rewrite size_eq. cbn [edges fill]. rewrite tot_app, tot_cons. lia. Qed.
  Lemma size_plug (c : ctx) : forall n : node, size (plug n c) = size n + csize c.
  Proof. induction c as [|f c IH]; intros n; cbn [plug csize]; [lia|]. rewrite IH, size_fill. lia. Qed.

  Lemma split_size (n : node) i l y r : split_node n i = Some (l, y, r) -> size l + size r = size n + 1.
  Proof.
    unfold split_node. destruct (pick i (kvs n)) as [[[a x] z]|]; [|discriminate]. intros E. inversion E; subst.
    rewrite !size_eq. cbn [edges]. rewrite <- (tot_cut (i + 1) (edges n)). lia.
  Qed.
  Lemma leaf_fit_size i x (n : node) : size (leaf_insert_fit i x n) = size n.
  Proof. unfold leaf_insert_fit. rewrite !size_eq. reflexivity. Qed.
  Lemma internal_fit_size i x e (n : node) : size (internal_insert_fit i x e n) = size n + size e.
  Proof. unfold internal_insert_fit. rewrite (size_eq (Node _ _)), (size_eq n). cbn [edges]. rewrite tot_ins. lia. Qed.

  (** ** searches end at nodes of the tree *)
  Lemma descend_size n i (e : node) f : descend n i = Some (e, f) -> fill f e = n.
  Proof.
    unfold descend. destruct (pick i (edges n)) as [[[a x] z]|] eqn:E; [|discriminate]. intros H. inversion H; subst.
    apply pick_some in E. destruct E as [E _]. unfold fill. cbn. rewrite <- E. now destruct n.
  Qed.
  Lemma search_ctx q h : forall n c, match search_tree q h n c with
    | Some (Found hd) => plug (hn hd) (hc hd) = plug n c
    | Some (GoDown hd) => plug (hn hd) (hc hd) = plug n c /\ length (hc hd) = h + length c
    | None => True
    end.
  Proof.
    induction h as [|h IH]; intros n c; cbn [search_tree]; destruct (search_linear q (kvs n)) as [i [|]]; cbn [hn hc]; auto.
    destruct (descend n i) as [[e f]|] eqn:Ed; auto. specialize (IH e (f :: c)). apply descend_size in Ed.
    destruct (search_tree q h e (f :: c)) as [[hd|hd]|]; auto; cbn [plug length] in IH; rewrite Ed in IH; auto.
    destruct IH as [-> ->]. split; auto. lia.
  Qed.
  Lemma first_leaf_ctx h : forall n c hd, first_leaf_edge h n c = Some hd -> plug (hn hd) (hc hd) = plug n c.
  Proof.
    induction h as [|h IH]; intros n c hd; cbn [first_leaf_edge]; [intros E; now inversion E|].
    destruct (descend n 0) as [[e f]|] eqn:Ed; [|discriminate]. intros E. apply IH in E. cbn [plug] in E. now rewrite (descend_size _ _ Ed) in E.
  Qed.
  Lemma update_size (p : list nat) i g : forall n n', update_node p i g n = Some n' -> size n' = size n.
  Proof.
    induction p as [|j p IH]; intros n n'; cbn [update_node].
    - destruct (pick i (kvs n)) as [[[a x] z]|]; [|discriminate]. intros E. inversion E. rewrite !size_eq. reflexivity.
    - destruct (pick j (edges n)) as [[[a e] z]|] eqn:Ep; [|discriminate]. destruct (update_node p i g e) as [e'|] eqn:Eu; [|discriminate].
      intros E. inversion E. apply IH in Eu. apply pick_some in Ep. destruct Ep as [Ep _]. rewrite !size_eq, Ep. cbn [edges].
      rewrite !tot_app, !tot_cons. lia.
  Qed.
  Lemma update_at_blocks a g m m' : update_at a g m = Some m' -> blocks m' = blocks m.
  Proof.
    unfold update_at. destruct (update_node _ _ g (bnode m)) as [n|] eqn:E; [|discriminate]. intros H. inversion H. unfold blocks. cbn.
    now rewrite (update_size _ _ _ _ E).
  Qed.

  (** ** Removal only gives memory back *)
  Lemma merge_size p i p' : merge p i = Some p' -> size p' + 1 = size p.
  Proof.
    unfold merge. destruct (slice_remove i (kvs p)) as [[x pk]|]; [|discriminate]. destruct (pick i (edges p)) as [[[a l] [|r z]]|] eqn:Ep; try discriminate.
    intros E. inversion E. apply pick_some in Ep. destruct Ep as [Ep _]. rewrite !size_eq, Ep. cbn [edges]. rewrite !tot_app, !tot_cons, (size_eq (Node _ _)). cbn [edges].
    rewrite tot_app, (size_eq l), (size_eq r). lia.
  Qed.
  Definition osize (e : option node) : nat := match e with Some e => size e | None => 0 end.
  Lemma pop_size h n x e n' : pop h n = Some (x, e, n') -> size n' + osize e <= size n /\ (h = 0 -> e = None).
  Proof.
    unfold pop. destruct (rev (kvs n)) as [|y ?]; [discriminate|]. destruct h as [|h].
    - intros E. inversion E. rewrite !size_eq. cbn [edges osize]. split; [lia|auto].
    - destruct (nth_error (edges n) (nlen n - 1 + 1)) as [d|] eqn:En; [|discriminate]. intros E. inversion E. rewrite !size_eq. cbn [edges osize].
      pose proof (tot_firstn_nth _ _ En). split; [lia|discriminate].
  Qed.
  Lemma slice_remove_some A i (l l' : list A) x : slice_remove i l = Some (x, l') -> exists a z, l = a ++ x :: z /\ l' = a ++ z.
  Proof. unfold slice_remove. destruct (pick i l) as [[[a y] z]|] eqn:E; [|discriminate]. intros H. inversion H; subst. apply pick_some in E. destruct E. eauto. Qed.
  Lemma pop_front_size h n x e n' : pop_front h n = Some (x, e, n') -> size n' + osize e = size n /\ (h = 0 -> e = None).
  Proof.
    unfold pop_front. destruct (slice_remove 0 (kvs n)) as [[y k']|]; [|discriminate]. destruct h as [|h].
    - intros E. inversion E. rewrite !size_eq. cbn [edges osize]. split; [lia|auto].
    - destruct (slice_remove 0 (edges n)) as [[d e']|] eqn:En; [|discriminate]. intros E. inversion E; subst. apply slice_remove_some in En.
      destruct En as (a & z & Ea & ->). rewrite !size_eq, Ea. cbn [edges osize]. rewrite !tot_app, tot_cons. split; [lia|discriminate].
  Qed.
  Lemma push_front_size h x e n n' : push_front h x e n = Some n' -> size n' <= size n + osize e.
  Proof. unfold push_front. destruct h; [|destruct e; [|discriminate]]; intros E; inversion E; rewrite !size_eq; cbn [edges osize]; rewrite ?tot_cons; lia. Qed.
  Lemma push_size h x e n n' : push h x e n = Some n' -> size n' <= size n + osize e.
  Proof.
    unfold push. destruct h; [|destruct e as [e|]; [|discriminate]]; intros E; inversion E; rewrite !size_eq; cbn [edges osize]; [lia|].
    rewrite tot_app, tot_cons, tot_nil. pose proof (tot_cut (nlen n + 1) (edges n)). lia.
  Qed.
  Lemma push_size_eq h x e n n' : push h x e n = Some n' -> (h = 0 -> e = None) -> (0 < h -> length (edges n) = nlen n + 1) -> size n' = size n + osize e.
  Proof.
    unfold push. destruct h; [|destruct e as [e|]; [|discriminate]]; intros E H1 H2; inversion E; rewrite !size_eq; cbn [edges osize];
      [now rewrite H1 by auto; cbn; lia|].
    rewrite tot_app, tot_cons, tot_nil, firstn_all2 by (rewrite H2; lia). lia.
  Qed.
  Lemma steal_left_size h p i p' : steal_left h p i = Some p' -> size p' <= size p.
  Proof.
    unfold steal_left. destruct (pick i (kvs p)) as [[[pa x] pz]|]; [|discriminate]. destruct (pick i (edges p)) as [[[a l] [|r z]]|] eqn:Ep; try discriminate.
    destruct (pop h l) as [[[y e] l']|] eqn:E1; [|discriminate]. destruct (push_front h x e r) as [r'|] eqn:E2; [|discriminate].
    intros E. inversion E. apply pick_some in Ep. destruct Ep as [Ep _]. apply pop_size in E1. apply push_front_size in E2. rewrite !size_eq, Ep. cbn [edges].
    rewrite !tot_app, !tot_cons. lia.
  Qed.
  Lemma steal_right_size h p i p' : steal_right h p i = Some p' -> size p' <= size p.
  Proof.
    unfold steal_right. destruct (pick i (kvs p)) as [[[pa x] pz]|]; [|discriminate]. destruct (pick i (edges p)) as [[[a l] [|r z]]|] eqn:Ep; try discriminate.
    destruct (pop_front h r) as [[[y e] l']|] eqn:E1; [|discriminate]. destruct (push h x e l) as [r'|] eqn:E2; [|discriminate].
    intros E. inversion E. apply pick_some in Ep. destruct Ep as [Ep _]. apply pop_front_size in E1. apply push_size in E2. rewrite !size_eq, Ep. cbn [edges].
    rewrite !tot_app, !tot_cons. lia.
  Qed.
  Lemma bulk_left_size h p i k p' : bulk_steal_left h p i k = Some p' -> size p' = size p.
  Proof.
    unfold bulk_steal_left. destruct (pick i (kvs p)) as [[[pa x] pz]|]; [|discriminate]. destruct (pick i (edges p)) as [[[a l] [|r z]]|] eqn:Ep; try discriminate.
    destruct (_ || _); [discriminate|]. destruct (pick _ (kvs l)) as [[[lk y] mv]|]; [|discriminate].
    apply pick_some in Ep. destruct Ep as [Ep _]. rewrite (size_eq p), Ep. rewrite !tot_app, !tot_cons, (size_eq l), (size_eq r).
    destruct h; intros E; inversion E; rewrite size_eq; cbn [edges]; rewrite tot_app, !tot_cons, !(size_eq (Node _ _)); cbn [edges]; rewrite ?tot_app; [lia|].
    pose proof (tot_cut (nlen l - k + 1) (edges l)). lia.
  Qed.
  Lemma bulk_right_size h p i k p' : bulk_steal_right h p i k = Some p' -> size p' = size p.
  Proof.
    unfold bulk_steal_right. destruct (pick i (kvs p)) as [[[pa x] pz]|]; [|discriminate]. destruct (pick i (edges p)) as [[[a l] [|r z]]|] eqn:Ep; try discriminate.
    destruct (_ || _); [discriminate|]. destruct (pick _ (kvs r)) as [[[lk y] mv]|]; [|discriminate].
    apply pick_some in Ep. destruct Ep as [Ep _]. rewrite (size_eq p), Ep. rewrite !tot_app, !tot_cons, (size_eq l), (size_eq r).
    destruct h; intros E; inversion E; rewrite size_eq; cbn [edges]; rewrite tot_app, !tot_cons, !(size_eq (Node _ _)); cbn [edges]; rewrite ?tot_app; [lia|].
    pose proof (tot_cut k (edges r)). lia.
  Qed.

  Lemma fix_underflow_size H : forall (c : ctx) h (n : node), match fix_underflow H h n c with Ret (n', _) => size n' <= size n + csize c | _ => True end.
  Proof.
    induction c as [|f c IH]; intros h n; cbn [fix_underflow]; destruct (nlen n <? CAPACITY / 2); cbn [handle_underfull_node];
      [cbn; lia|cbn; lia| |rewrite size_plug; lia].
    set (choice := if 0 <? fidx f then _ else _). destruct choice as [[il j]|]; auto.
    destruct (can_merge (fill f n) j) as [[|]|]; auto.
    - destruct (merge (fill f n) j) as [p'|] eqn:Em; auto. apply merge_size in Em. rewrite size_fill in Em. cbn [csize].
      destruct (nlen p' =? 0).
      + unfold pop_level. destruct (nth_error (edges (plug p' c)) 0) as [r|] eqn:En; auto. apply tot_nth in En.
        pose proof (size_eq (plug p' c)) as E. rewrite size_plug in E. lia.
      + specialize (IH (S h) p'). destruct (fix_underflow H (S h) p' c) as [[n' ?]| | | |]; auto. lia.
    - destruct (if il then _ else _) as [p'|] eqn:Es; auto. rewrite size_plug. cbn [csize].
      assert (size p' <= size (fill f n)) by (destruct il; [eapply steal_left_size|eapply steal_right_size]; eauto). rewrite size_fill in *. lia.
  Qed.
  Lemma csize_app (a b : ctx) : csize (a ++ b) = csize a + csize b.
  Proof. induction a as [|f a IH]; auto. cbn [csize app]. rewrite IH. lia. Qed.
  Lemma remove_kv_size H (hd : handle K V) : match remove_kv H hd with Ret (_, (n, _)) => size n <= size (plug (hn hd) (hc hd)) | _ => True end.
  Proof.
    unfold remove_kv. destruct (hh hd) as [|h'].
    - destruct (slice_remove _ _) as [[x k']|]; auto. pose proof (fix_underflow_size H (hc hd) 0 (Node k' (edges (hn hd)))) as E.
      destruct (fix_underflow _ _ _ _) as [[n' ?]| | | |]; auto. rewrite size_plug. rewrite !size_eq in *. exact E.
    - destruct (pick _ _) as [[[ka old] kz]|]; auto. destruct (descend _ _) as [[e f]|] eqn:Ed; auto. destruct (first_leaf_edge h' e []) as [lf|] eqn:El; auto.
      destruct (slice_remove _ _) as [[x k']|]; auto.
      pose proof (fix_underflow_size H (hc lf ++ Frame (ka ++ x :: kz) (fl f) (fr f) :: hc hd) 0 (Node k' (edges (hn lf)))) as E.
      destruct (fix_underflow _ _ _ _) as [[n' ?]| | | |]; auto. apply descend_size in Ed. rewrite size_plug, <- Ed, size_fill.
      apply first_leaf_ctx in El. pose proof (size_plug (hc lf) (hn lf)) as E2. rewrite El in E2. cbn [plug] in E2.
      rewrite csize_app in E. cbn [csize fl fr] in E. rewrite (size_eq (Node _ _)) in E. cbn [edges] in E. rewrite (size_eq (hn lf)) in E2. lia.
  Qed.
  Lemma remove_entry_blocks q m : match remove_entry q m with (Ret _, m') => blocks m' <= blocks m | _ => True end.
  Proof.
    unfold remove_entry, search. pose proof (@search_ctx q (bheight m) (bnode m) []) as HS. destruct (search_tree q (bheight m) (bnode m) []) as [[hd|hd]|]; auto.
    unfold remove_entry_at. pose proof (remove_kv_size (bheight m) hd) as E. destruct (remove_kv (bheight m) hd) as [[x [n h]]| | | |]; auto. cbn [omap].
    unfold blocks. cbn [bshared bnode]. destruct (bshared m); [lia|]. cbn [plug] in HS. now rewrite HS in E.
  Qed.

  (** ** Borders *)
  Lemma fix_right_edge_size h : forall n n', fix_right_edge h n = Ret n' -> size n' = size n.
  Proof.
    induction h as [|h IH]; intros n n'; cbn [fix_right_edge]; [intros E; now inversion E|].
    destruct (nth_error (edges n) (nlen n)) as [c0|]; [|discriminate]. set (st := if nlen c0 <? MIN_LEN then _ else _).
    assert (Hst : forall n1, st = Ret n1 -> size n1 = size n).
    { intros n1. unfold st. destruct (nlen c0 <? MIN_LEN); [|intros E; now inversion E]. destruct (nlen n =? 0); [discriminate|].
      destruct (bulk_steal_left _ _ _ _) as [n2|] eqn:Eb; [|discriminate]. intros E. inversion E; subst. eapply bulk_left_size; eauto. }
    destruct st as [n1|[]| | |]; try discriminate. specialize (Hst n1 eq_refl). destruct (descend n1 (nlen n1)) as [[e f]|] eqn:Ed; [|discriminate].
    destruct (fix_right_edge h e) as [e'| | | |] eqn:Ef; cbn [omap]; intros E; inversion E; subst. apply IH in Ef. apply descend_size in Ed.
    rewrite <- Hst, <- Ed, !size_fill. lia.
  Qed.
  Lemma fix_top_size h : forall n n' h', fix_top h n = Some (n', h') -> size n' <= size n.
  Proof.
    induction h as [|h IH]; intros n n' h'; cbn [fix_top]; [intros E; inversion E; lia|]. destruct (0 <? nlen n); [intros E; inversion E; lia|].
    unfold pop_level. destruct (nth_error (edges n) 0) as [e|] eqn:En; [|discriminate]. intros E. apply IH in E. apply tot_nth in En. rewrite (size_eq n). lia.
  Qed.
  Lemma fix_right_loop_size h : forall n n', fix_right_loop h n = Some n' -> size n' <= size n.
  Proof.
    induction h as [|h IH]; intros n n'; cbn [fix_right_loop]; [intros E; inversion E; lia|]. destruct (nlen n =? 0); [discriminate|].
    destruct (can_merge n (nlen n - 1)) as [[|]|]; [| |discriminate].
    - destruct (merge n (nlen n - 1)) as [n1|] eqn:Em; [|discriminate]. destruct (descend n1 (nlen n - 1)) as [[e f]|] eqn:Ed; [|discriminate].
      destruct (fix_right_loop h e) as [e'|] eqn:Ef; [|discriminate]. cbn [option_map]. intros E; inversion E. apply merge_size in Em. apply IH in Ef. apply descend_size in Ed.
      rewrite size_fill. rewrite <- Ed, size_fill in Em. lia.
    - destruct (nth_error (edges n) (nlen n - 1 + 1)) as [r|]; [|discriminate]. set (st := if nlen r <? MIN_LEN + 1 then _ else _).
      assert (Hst : forall n1, st = Some n1 -> size n1 = size n).
      { intros n1. unfold st. destruct (nlen r <? MIN_LEN + 1); [|intros E; now inversion E]. apply bulk_left_size. }
      destruct st as [n1|]; [|discriminate]. specialize (Hst n1 eq_refl). destruct (descend n1 (nlen n - 1 + 1)) as [[e f]|] eqn:Ed; [|discriminate].
      destruct (fix_right_loop h e) as [e'|] eqn:Ef; [|discriminate]. cbn [option_map]. intros E; inversion E. apply IH in Ef. apply descend_size in Ed.
      rewrite size_fill. rewrite <- Hst, <- Ed, size_fill. lia.
  Qed.
  Lemma fix_left_loop_size h : forall n n', fix_left_loop h n = Some n' -> size n' <= size n.
  Proof.
    induction h as [|h IH]; intros n n'; cbn [fix_left_loop]; [intros E; inversion E; lia|]. destruct (nlen n =? 0); [discriminate|].
    destruct (can_merge n 0) as [[|]|]; [| |discriminate].
    - destruct (merge n 0) as [n1|] eqn:Em; [|discriminate]. destruct (descend n1 0) as [[e f]|] eqn:Ed; [|discriminate].
      destruct (fix_left_loop h e) as [e'|] eqn:Ef; [|discriminate]. cbn [option_map]. intros E; inversion E. apply merge_size in Em. apply IH in Ef. apply descend_size in Ed.
      rewrite size_fill. rewrite <- Ed, size_fill in Em. lia.
    - destruct (nth_error (edges n) 0) as [r|]; [|discriminate]. set (st := if nlen r <? MIN_LEN + 1 then _ else _).
      assert (Hst : forall n1, st = Some n1 -> size n1 = size n).
      { intros n1. unfold st. destruct (nlen r <? MIN_LEN + 1); [|intros E; now inversion E]. apply bulk_right_size. }
      destruct st as [n1|]; [|discriminate]. specialize (Hst n1 eq_refl). destruct (descend n1 0) as [[e f]|] eqn:Ed; [|discriminate].
      destruct (fix_left_loop h e) as [e'|] eqn:Ef; [|discriminate]. cbn [option_map]. intros E; inversion E. apply IH in Ef. apply descend_size in Ed.
      rewrite size_fill. rewrite <- Hst, <- Ed, size_fill. lia.
  Qed.
  Lemma fix_border_size loop n h n' h' : (forall h n n', loop h n = Some n' -> size n' <= size n) ->
    fix_border loop n h = Some (n', h') -> size n' <= size n.
  Proof.
    intros HL. unfold fix_border. destruct (fix_top h n) as [[n1 h1]|] eqn:E1; [|discriminate]. destruct (loop h1 n1) as [n2|] eqn:E2; [|discriminate].
    intros E3. apply fix_top_size in E1, E3. apply HL in E2. lia.
  Qed.
  Lemma move_suffix_size i l r l' r' : move_suffix i l r = Some (l', r') -> size l' + size r' <= size l + size r.
  Proof.
    unfold move_suffix. destruct (_ || _); [discriminate|]. intros E. inversion E. rewrite !size_eq. cbn [edges]. rewrite tot_app.
    pose proof (tot_cut (i + 1) (edges l)). destruct (edges r); rewrite ?tot_cons, ?tot_nil; lia.
  Qed.
  Lemma split_loop_size q h : forall l r l' r', split_loop q h l r = Some (l', r') -> size l' + size r' <= size l + size r.
  Proof.
    induction h as [|h IH]; intros l r l' r'; cbn [split_loop]; destruct (move_suffix _ l r) as [[l1 r1]|] eqn:Em; try discriminate; apply move_suffix_size in Em.
    - intros E. inversion E; subst. exact Em.
    - destruct (descend l1 _) as [[el fl_]|] eqn:E1; [|discriminate]. destruct (descend r1 0) as [[er fr_]|] eqn:E2; [|discriminate].
      destruct (split_loop q h el er) as [[el' er']|] eqn:Es; [|discriminate]. intros E. inversion E. apply IH in Es. apply descend_size in E1, E2.
      rewrite !size_fill. rewrite <- E1, <- E2, !size_fill in Em. lia.
  Qed.

  (** ** Well-formed trees are at least a third full *)
  Lemma fair_size_dfs h : forall n, kids fair h n -> 4 * tot (edges n) + nlen n <= dfs h n.
  Proof.
    induction h as [|h IH]; intros n Hk.
    - cbn [kids] in Hk. cbn [dfs]. rewrite Hk, tot_nil. lia.
    - rewrite kids_S in Hk. destruct Hk as [_ HF]. cbn [dfs]. enough (4 * tot (edges n) <= list_sum (map (dfs h) (edges n))) by lia.
      induction HF as [|e es [[He _] Hk] HF IHF]; [cbn; lia|]. rewrite tot_cons. cbn [map list_sum fold_right]. specialize (IH e Hk). rewrite size_eq.
      unfold REAL_MIN, B_ in He. unfold list_sum in *. lia.
  Qed.
  Lemma sound_space m : sound m -> 4 * blocks m <= length (entries m) + 4.
  Proof.
    intros ((_ & Hk) & _ & _). unfold blocks. destruct (bshared m); [lia|]. pose proof (@fair_size_dfs _ _ Hk) as E. rewrite dfs_ok in E.
    - rewrite size_eq. unfold entries. lia.
    - eapply kids_weaken; [|exact Hk]. now unfold any.
  Qed.

  (** ** Requests *)
  Section Alloc.
    Variables (W : Type) (nalloc : bool -> W -> option reserve_error * W) (asked : W -> nat).
    Hypothesis counts : forall b w, asked (snd (nalloc b w)) = S (asked w).
    Lemma counts_ b w o w' : nalloc b w = (o, w') -> asked w' = S (asked w).
    Proof. intros E. rewrite <- (counts b w), E. reflexivity. Qed.

    Lemma new_leaf_asked w o w' : new_leaf K V nalloc w = (o, w') -> asked w' = S (asked w) /\ match o with Ret n => n = @empty_leaf K V | Err _ => True | _ => False end.
    Proof. unfold new_leaf. destruct (nalloc false w) as [[e|] w1] eqn:E; intros H; inversion H; subst; apply counts_ in E; auto. Qed.
    Lemma push_level_asked (n : node) w o w' : push_level nalloc n w = (o, w') -> asked w' = S (asked w) /\ match o with Ret n' => n' = Node [] [n] | Err _ => True | _ => False end.
    Proof. unfold push_level. destruct (nalloc true w) as [[e|] w1] eqn:E; intros H; inversion H; subst; apply counts_ in E; auto. Qed.

    Lemma leaf_insert_asked i x (n : node) w o w' : leaf_insert nalloc i x n w = (o, w') ->
      match o with
      | Ret (Fit n', _) => asked w' = asked w /\ size n' = size n
      | Ret (Split l _ r, _) => asked w' = S (asked w) /\ size l + size r = size n + 1
      | _ => asked w' = S (asked w)
      end.
    Proof.
      unfold leaf_insert. destruct (nlen n <? CAPACITY); [intros E; inversion E; subst; auto using leaf_fit_size|].
      destruct (nalloc false w) as [[e|] w1] eqn:E; apply counts_ in E; [intros H; now inversion H; subst|].
      destruct (split_node n B_) as [[[l y] r]|] eqn:Es; [|intros H; now inversion H; subst]. apply split_size in Es.
      destruct (i <=? B_); intros H; inversion H; subst; rewrite leaf_fit_size; auto.
    Qed.
    Lemma internal_insert_asked i x e rt (n : node) w o w' : internal_insert nalloc i x e rt n w = (o, w') ->
      match o with
      | Ret (Fit n', _) => asked w' = asked w /\ size n' = size n + size e
      | Ret (Split l _ r, _) => asked w' = S (asked w) /\ size l + size r = size n + size e + 1
      | _ => asked w' = S (asked w)
      end.
    Proof.
      unfold internal_insert. destruct (nlen n <? CAPACITY); [intros E; inversion E; subst; auto using internal_fit_size|].
      destruct (nalloc true w) as [[er|] w1] eqn:E; apply counts_ in E; [intros H; now inversion H; subst|].
      destruct (split_node n B_) as [[[l y] r]|] eqn:Es; [|intros H; now inversion H; subst]. apply split_size in Es.
      destruct (i <=? B_); intros H; inversion H; subst; rewrite internal_fit_size; split; auto; lia.
    Qed.
    Lemma insert_up_asked H : forall c (l : node) x r rt a w,
      let '(o, (n, _), w') := insert_up nalloc H l x r rt a c w in
      asked w <= asked w' <= asked w + length c + 1 /\
      match o with Ret _ => size n + asked w = size l + size r + csize c + asked w' | _ => True end.
    Proof.
      induction c as [|f c IH]; intros l x r rt a w; cbn [insert_up].
      - destruct (push_level nalloc l w) as [o w1] eqn:E. apply push_level_asked in E. destruct E as [E HE]. destruct o; try contradiction; cbn [length csize].
        + subst a0. cbn [push]. rewrite size_eq. cbn. rewrite E. unfold tot. cbn. lia.
        + lia.
      - destruct (internal_insert nalloc (fidx f) x r rt (fill f l) w) as [o w1] eqn:E. apply internal_insert_asked in E.
        destruct o as [[[n|l' y r'] [rt' j]]| | | |]; cbn [length csize]; try (split; [lia|exact I]).
        + destruct E as [E1 E2]. rewrite size_plug, E2, size_fill. lia.
        + destruct E as [E1 E2]. rewrite size_fill in E2. specialize (IH l' y r' rt' (j :: fst a, snd a) w1).
          destruct (insert_up nalloc H l' y r' rt' (j :: fst a, snd a) c w1) as [[o [n h]] w2]. destruct IH as [I1 I2]. split; [lia|]. destruct o; auto. lia.
    Qed.
    Lemma vacant_asked m k hd v w : plug (hn hd) (hc hd) = bnode m -> length (hc hd) = bheight m -> bshared m = false ->
      let '(o, m', w') := vacant_insert nalloc m k hd v w in
      asked w <= asked w' <= asked w + bheight m + 2 /\
      match o with Ret _ => blocks m' + asked w = blocks m + asked w' | _ => True end.
    Proof.
      intros E1 E2 Hs. unfold vacant_insert. assert (Eb : blocks m = size (hn hd) + csize (hc hd)) by (unfold blocks; rewrite Hs, <- E1; apply size_plug).
      destruct (leaf_insert nalloc (hi hd) (k, v) (hn hd) w) as [o w1] eqn:E. apply leaf_insert_asked in E.
      destruct o as [[[n|l y r] [rt i]]| | | |]; try (split; [lia|exact I]).
      - destruct E as [E3 E4]. split; [lia|]. rewrite Eb. unfold blocks. cbn [bshared bnode]. rewrite Hs, size_plug. lia.
      - destruct E as [E3 E4]. pose proof (@insert_up_asked (bheight m) (hc hd) l y r rt ([], i) w1) as HI.
        destruct (insert_up nalloc (bheight m) l y r rt ([], i) (hc hd) w1) as [[o [n h]] w2]. destruct HI as [I1 I2]. split; [lia|]. destruct o; auto.
        rewrite Eb. unfold blocks. cbn [bshared bnode]. rewrite Hs. lia.
    Qed.
    Lemma ensure_asked (m : bmap) w : (bshared m = true -> bheight m = 0) ->
      let '(o, m', w') := ensure_root_is_owned nalloc m w in
      match o with
      | Ret _ => bshared m' = false /\ bheight m' = bheight m /\ blocks m' + asked w = blocks m + asked w' /\ asked w' = asked w + (if bshared m then 1 else 0) /\
                 (bshared m = false -> m' = m)
      | Err _ => asked w' = S (asked w) /\ m' = m /\ bshared m = true
      | _ => False
      end.
    Proof.
      intros Hh. unfold ensure_root_is_owned. destruct (bshared m) eqn:Es; [|rewrite Es; repeat (split; auto); lia].
      destruct (new_leaf K V nalloc w) as [o w1] eqn:E. apply new_leaf_asked in E. destruct E as [E HE]. destruct o; try contradiction; auto.
      subst a. cbn [bshared bheight]. rewrite Hh by auto. unfold blocks. cbn [bshared bnode]. rewrite Es, E. cbn. repeat (split; auto); try lia; discriminate.
    Qed.

    Variable cmp : K -> K -> comparison.
    (** no memory is asked for when the key is there; at most one block per level and two more otherwise; what is asked for is kept *)
    Lemma try_insert_asked k v (m : bmap) w : (bshared m = true -> bheight m = 0 /\ bnode m = @empty_leaf K V) ->
      let '(o, m', w') := try_insert nalloc cmp k v m w in
      asked w <= asked w' <= asked w + bheight m + 2 /\
      match o with
      | Ret (Some _) => asked w' = asked w /\ blocks m' = blocks m
      | Ret None => blocks m' + asked w = blocks m + asked w'
      | _ => True
      end.
    Proof.
      intros Hs. unfold try_insert, try_entry. pose proof (@ensure_asked m w (fun E => proj1 (Hs E))) as HE.
      destruct (ensure_root_is_owned nalloc m w) as [[o m1] w1] eqn:Eo. destruct o; try contradiction; [|destruct HE as (HE & _ & Hsh); split; [lia|exact I]].
      destruct HE as (H1 & H2 & H3 & H4 & H5). unfold search. pose proof (@search_ctx (cmp k) (bheight m1) (bnode m1) []) as HS.
      assert (Ha : asked w <= asked w1 <= asked w + 1) by (destruct (bshared m); lia).
      destruct (search_tree (cmp k) (bheight m1) (bnode m1) []) as [[hd|hd]|] eqn:Es; [| |split; [lia|exact I]].
      - unfold occupied_insert. destruct (into_kv hd) as [e|] eqn:Ek; cbn [omap]; [|split; [lia|exact I]].
        destruct (update_at _ _ m1) as [m2|] eqn:Eu; cbn [omap]; [|split; [lia|exact I]].
        apply update_at_blocks in Eu. split; [lia|]. destruct (bshared m) eqn:Esh; [|split; lia].
        exfalso. destruct (Hs eq_refl) as [Hh Hn]. unfold ensure_root_is_owned in Eo. rewrite Esh in Eo. unfold new_leaf in Eo.
        destruct (nalloc false w) as [[?|] ?]; inversion Eo; subst. cbn in Es. inversion Es.
      - destruct HS as [E1 E2]. cbn [plug length] in E1, E2. pose proof (@vacant_asked m1 k hd v w1 E1 ltac:(lia) H1) as HV.
        destruct (vacant_insert nalloc m1 k hd v w1) as [[o2 m2] w2] eqn:Ev. destruct HV as [V1 V2]. 
        assert (asked w2 <= asked w + bheight m + 2).
        { destruct (bshared m) eqn:Esh; [|lia]. clear -Eo Es Ev Esh H4. unfold ensure_root_is_owned in Eo. rewrite Esh in Eo. unfold new_leaf in Eo.
          destruct (nalloc false w) as [[?|] ?]; inversion Eo; subst. cbn in Es. inversion Es; subst. unfold vacant_insert, leaf_insert in Ev. cbn in Ev. inversion Ev; subst. lia. }
        split; [lia|]. destruct o2; cbn [omap]; auto. lia.
    Qed.

    (** ** split_off *)
    Lemma push_levels_asked h : forall n k w o t w', push_levels nalloc h n k w = (o, t, w') ->
      asked w <= asked w' <= asked w + h /\ match o with Ret n' => size n' + asked w = size n + asked w' | Err _ => True | _ => False end.
    Proof.
      induction h as [|h IH]; intros n k w o t w'; cbn [push_levels]; [intros E; inversion E; subst; lia|].
      destruct (push_level nalloc n w) as [o1 w1] eqn:E. apply push_level_asked in E. destruct E as [E HE]. destruct o1 as [n1| | | |]; try contradiction.
      - subst n1. intros H. apply IH in H. destruct H as [H1 H2]. split; [lia|]. destruct o; auto. rewrite (size_eq (Node _ _)) in H2. cbn [edges] in H2. rewrite tot_cons, tot_nil in H2. lia.
      - intros H. inversion H; subst. split; [lia|exact I].
    Qed.
    Lemma split_off_asked q m w :
      let '(o, m', _, w') := split_off nalloc q m w in
      asked w <= asked w' <= asked w + bheight m + 1 /\
      match o with Ret m2 => blocks m' + blocks m2 + asked w <= blocks m + asked w' \/ bshared m = true | _ => True end.
    Proof.
      unfold split_off. destruct (is_empty m); [split; [lia|left; unfold blocks at 2; cbn [bshared new]; lia]|].
      destruct (new_leaf K V nalloc w) as [o w1] eqn:E1. apply new_leaf_asked in E1. destruct E1 as [E1 HE]. destruct o; try contradiction; [|split; [lia|exact I]]. subst a.
      destruct (push_levels nalloc (bheight m) empty_leaf 0 w1) as [[o [t ht]] w2] eqn:E2. apply push_levels_asked in E2. destruct E2 as [E2 HE]. destruct o as [ch| | | |]; try contradiction; [|split; [lia|exact I]].
      destruct (split_loop q (bheight m) (bnode m) ch) as [[l r]|] eqn:E3; [|split; [lia|exact I]]. apply split_loop_size in E3.
      destruct (fix_right_border l (bheight m)) as [[l' hl]|] eqn:E4; [|split; [lia|exact I]].
      destruct (fix_left_border r (bheight m)) as [[r' hr]|] eqn:E5; [|split; [lia|exact I]].
      apply fix_border_size in E4; [|apply fix_right_loop_size]. apply fix_border_size in E5; [|apply fix_left_loop_size].
      destruct (bshared m) eqn:Es; [destruct (hl <? hr); (split; [lia|auto])|]. change (size empty_leaf) with 1 in HE.
      destruct (hl <? hr); (split; [lia|left; unfold blocks; cbn [bshared bnode]; rewrite Es; lia]).
    Qed.

    (** ** append *)
    Lemma find_open_asked c : forall h n w, match find_open nalloc h n c w with
      | (Ret (o, _, c'), w') => size (plug o c') + asked w = size (plug n c) + asked w'
      | _ => True
      end.
    Proof.
      induction c as [|f c IH]; intros h n w; cbn [find_open].
      - destruct (push_level nalloc n w) as [o w1] eqn:E. apply push_level_asked in E. destruct E as [E HE]. destruct o; try contradiction; auto. subst a.
        cbn [plug]. rewrite (size_eq (Node _ _)). cbn [edges]. rewrite tot_cons, tot_nil. lia.
      - destruct (nlen (fill f n) <? CAPACITY); [reflexivity|]. specialize (IH (S h) (fill f n) w). exact IH.
    Qed.
    Lemma push_sorted_asked x n c w : J n c ->
      match push_sorted nalloc x n c w with
      | (Ret (n', c'), _, w') => size (plug n' c') + asked w = size (plug n c) + asked w'
      | _ => True
      end.
    Proof.
      intros HJ. unfold push_sorted. destruct (nlen n <? CAPACITY) eqn:En.
      - cbn [push]. rewrite !size_plug, !size_eq. cbn [edges]. reflexivity.
      - destruct HJ as (He & Hc & Hr & _). apply Nat.ltb_ge in En.
        assert (HS : BTreeLemmas.sub full 0 n) by (split; [unfold full; lia|exact He]).
        pose proof (@find_open_ok K V W nalloc c 0 n w HS Hr) as HF. pose proof (find_open_asked c 0 n w) as HA.
        destruct (find_open nalloc 0 n c w) as [[[[o ho] c']| | | |] w1]; try contradiction; auto. destruct HF as (Hho & Hk & Hlt & Hrc & _).
        destruct (new_leaf K V nalloc w1) as [ol w2] eqn:E1. apply new_leaf_asked in E1. destruct E1 as [E1 HE]. destruct ol; try contradiction; auto. subst a.
        destruct (push_levels nalloc (ho - 1) empty_leaf 0 w2) as [[oc t] w3] eqn:E2. apply push_levels_asked in E2. destruct E2 as [E2 HE]. destruct oc as [ch| | | |]; try contradiction; auto.
        destruct (push ho x (Some ch) o) as [o'|] eqn:Ep; auto. apply push_size_eq in Ep; [|lia|intros _; destruct ho as [|ho]; [lia|]; rewrite kids_S in Hk; lia].
        assert (HL : forall h n c hd, last_leaf_edge h n c = Some hd -> plug (hn hd) (hc hd) = plug n c).
        { clear. induction h as [|h IH]; intros n c hd; cbn [last_leaf_edge]; [intros E; now inversion E|].
          destruct (descend n (nlen n)) as [[e f]|] eqn:Ed; [|discriminate]. intros E. apply IH in E. cbn [plug] in E. now rewrite (descend_size _ _ Ed) in E. }
        destruct (last_leaf_edge ho o' c') as [hd|] eqn:El; auto. apply HL in El. rewrite El, size_plug, Ep. rewrite size_plug in HA. cbn [osize]. change (size empty_leaf) with 1 in HE. lia.
    Qed.
    Lemma from_sorted_asked fuel : forall mi n c len w, J n c ->
      let '(o, (t, _), _, _, w') := from_sorted_loop nalloc cmp fuel mi n c len w in
      match o with Ret _ => size t + asked w = size (plug n c) + asked w' | _ => True end.
    Proof.
      induction fuel as [|fuel IH]; intros mi n c len w HJ; cbn [from_sorted_loop]; [exact I|].
      destruct (merge_next cmp mi) as [[[x|] mi']| | | |]; auto. pose proof (@push_sorted_asked x n c w HJ) as HP. pose proof (@push_sorted_ok K V W nalloc x n c w HJ) as HO.
      destruct (push_sorted nalloc x n c w) as [[[[n' c']| | | |] t] w1]; destruct t as [t ht]; auto. destruct HO as [HJ' _].
      specialize (IH mi' n' c' (len + 1) w1 HJ'). destruct (from_sorted_loop _ _ _ _ _ _ _ _) as [[[[o [t1 ?]] ?] ?] w2]. destruct o; auto. lia.
    Qed.
    (** an append of two maps that are not empty builds a new tree *)
    Lemma append_asked m (o : bmap) w :
      let '(r, m', o', _, w') := append nalloc cmp m o w in
      match r with
      | Ret _ => (len m = 0 \/ len o = 0) /\ w' = w /\ blocks m' + blocks o' = blocks m + blocks o \/
                 0 < len m /\ 0 < len o /\ blocks m' + asked w = asked w' /\ blocks o' = 0
      | _ => True
      end.
    Proof.
      unfold append. destruct (len o =? 0) eqn:E1; [apply Nat.eqb_eq in E1; left; split; auto|]. destruct (len m =? 0) eqn:E2; [apply Nat.eqb_eq in E2; left; split; auto; split; auto; lia|].
      apply Nat.eqb_neq in E1, E2. destruct (map_into_iter m) as [li| | | |]; auto. destruct (map_into_iter o) as [ri| | | |]; auto.
      destruct (new_leaf K V nalloc w) as [ol w1] eqn:El. apply new_leaf_asked in El. destruct El as [El HE]. destruct ol; try contradiction; auto. subst a.
      pose proof (@from_sorted_asked (len m + len o + 1) (MergeIter (Peekable None li) (Peekable None ri) []) empty_leaf [] 0 w1) as HF.
      destruct (from_sorted_loop _ _ _ _ _ _ _ _) as [[[[r [n h]] l] mi'] w2]. destruct r; auto.
      destruct (fix_right_edge h n) as [n'| | | |] eqn:Ef; auto. apply fix_right_edge_size in Ef. right. split; [lia|]. split; [lia|].
      unfold blocks. cbn [bshared bnode new]. rewrite Ef. split; auto.
      assert (HJ : @J K V empty_leaf []) by (split; [reflexivity|split; [cbn; lia|split; [exact I|congruence]]]). specialize (HF HJ). cbn [plug] in HF.
      change (size empty_leaf) with 1 in HF. lia.
    Qed.

    (** ** clone *)
    Variables (kclone : K -> W -> outcome reserve_error K * W) (vclone : V -> W -> outcome reserve_error V * W).
    Hypothesis kquiet : forall k w, asked (snd (kclone k w)) = asked w.
    Hypothesis vquiet : forall v w, asked (snd (vclone v w)) = asked w.
    Lemma kv_clone_asked x w o w' : kv_clone kclone vclone x w = (o, w') -> asked w' = asked w.
    Proof.
      unfold kv_clone. pose proof (kquiet (fst x) w) as HK. destruct (kclone (fst x) w) as [[k| | | |] w1]; cbn [snd] in HK; try (intros E; inversion E; subst; exact HK).
      pose proof (vquiet (snd x) w1) as HV. destruct (vclone (snd x) w1) as [[v| | | |] w2]; cbn [snd] in HV; intros E; inversion E; subst; lia.
    Qed.
    Lemma clone_leaf_asked xs : forall n (l : nat) w,
      let '(o, _, w') := clone_leaf kclone vclone xs n l w in
      match o with Ret (n', _) => asked w' = asked w /\ size n' = size n | _ => True end.
    Proof.
      induction xs as [|x xs IH]; intros n l w; cbn [clone_leaf]; [auto|]. destruct (kv_clone kclone vclone x w) as [[y| | | |] w1] eqn:E; auto.
      apply kv_clone_asked in E. cbn [push]. specialize (IH (Node (kvs n ++ [y]) (edges n)) (l + 1) w1).
      destruct (clone_leaf kclone vclone xs _ _ w1) as [[o d] w2]. destruct o as [[n' ?]| | | |]; auto. rewrite (size_eq (Node _ _)) in IH. cbn [edges] in IH. rewrite (size_eq n). lia.
    Qed.
    Lemma clone_internal_asked h (sub : node -> W -> cres K V W) :
      (forall e w, kids any h e -> let '(o, _, w') := sub e w in match o with Ret (n', _) => size n' = size e /\ asked w' = asked w + size e | _ => True end) ->
      forall xs es n (l : nat) w, Forall (kids any h) es -> length es = length xs -> length (edges n) = nlen n + 1 ->
      let '(o, _, w') := clone_internal kclone vclone sub h xs es n l w in
      match o with Ret (n', _) => asked w' = asked w + tot es /\ size n' = size n + tot es | _ => True end.
    Proof.
      intros HS. induction xs as [|x xs IH]; intros es n l w HF Hl He; destruct es as [|e es]; try discriminate; cbn [clone_internal]; [rewrite tot_nil; lia|].
      destruct (kv_clone kclone vclone x w) as [[y| | | |] w1] eqn:E; auto. apply kv_clone_asked in E. inversion HF as [|? ? He1 HF']; subst.
      specialize (HS e w1 He1) as Hs. destruct (sub e w1) as [[[[s sl]| | | |] d] w2]; auto. destruct Hs as [Hs1 Hs2].
      destruct (push (S h) y (Some s) n) as [n'|] eqn:Ep; auto. pose proof Ep as Ep0. apply push_size_eq in Ep; [|discriminate|auto].
      specialize (IH es n' (l + (1 + sl)) w2 HF'). destruct (clone_internal kclone vclone sub h xs es n' _ w2) as [[o d2] w3]. destruct o as [[n2 ?]| | | |]; auto.
      destruct IH as [I1 I2]; [cbn in Hl; lia| |].
      - cbn [push] in Ep0. inversion Ep0; subst. unfold nlen. cbn [edges kvs]. rewrite !app_length, firstn_length. cbn [length]. unfold nlen in He. lia.
      - rewrite tot_cons. cbn [osize] in Ep. lia.
    Qed.
    Lemma clone_subtree_asked h : forall n w, kids any h n ->
      let '(o, _, w') := clone_subtree nalloc kclone vclone h n w in
      match o with Ret (n', _) => size n' = size n /\ asked w' = asked w + size n | _ => True end.
    Proof.
      induction h as [|h IH]; intros n w Hk; cbn [clone_subtree].
      - destruct (new_leaf K V nalloc w) as [o w1] eqn:E. apply new_leaf_asked in E. destruct E as [E HE]. destruct o; try contradiction; auto. subst a.
        pose proof (clone_leaf_asked (kvs n) empty_leaf 0 w1) as HC. destruct (clone_leaf kclone vclone (kvs n) empty_leaf 0 w1) as [[[[n' ?]| | | |] d] w2]; auto.
        cbn [kids] in Hk. rewrite (size_eq n), Hk, tot_nil. change (size empty_leaf) with 1 in HC. lia.
      - rewrite kids_S in Hk. destruct Hk as [Hl HF]. destruct (edges n) as [|e0 es] eqn:Ee; [discriminate|]. inversion HF as [|? ? [_ He0] HF']; subst.
        specialize (IH e0 w He0) as H0. destruct (clone_subtree nalloc kclone vclone h e0 w) as [[[[o l]| | | |] d] w1]; auto. destruct H0 as [H1 H2].
        destruct (push_level nalloc o w1) as [o1 w2] eqn:E. apply push_level_asked in E. destruct E as [E HE]. destruct o1; try contradiction; auto. subst a.
        pose proof (@clone_internal_asked h (clone_subtree nalloc kclone vclone h) IH (kvs n) es (Node [] [o]) l w2) as HC.
        destruct (clone_internal kclone vclone (clone_subtree nalloc kclone vclone h) h (kvs n) es (Node [] [o]) l w2) as [[[[n' ?]| | | |] d2] w3]; auto.
        destruct HC as [C1 C2]; [eapply Forall_impl; [|exact HF']; intros e He; apply He|cbn in Hl; unfold nlen in Hl; lia|reflexivity|].
        rewrite (size_eq n), Ee, tot_cons. rewrite (size_eq (Node _ _)) in C2. cbn [edges] in C2. rewrite tot_cons, tot_nil in C2. lia.
    Qed.
    Lemma try_clone_asked m w : sound m ->
      let '(o, _, w') := try_clone nalloc kclone vclone m w in
      match o with
      | Ret m' => blocks m' + asked w = asked w' /\ (0 < len m -> blocks m' = blocks m)
      | _ => True
      end.
    Proof.
      intros ((_ & Hk) & Hs & Hl). unfold try_clone. destruct (len m =? 0) eqn:E; [apply Nat.eqb_eq in E; unfold blocks at 1; cbn; split; [lia|lia]|]. apply Nat.eqb_neq in E.
      pose proof (@clone_subtree_asked (bheight m) (bnode m) w) as HC. destruct (clone_subtree nalloc kclone vclone (bheight m) (bnode m) w) as [[[[n' l]| | | |] d] w1]; auto.
      destruct HC as [C1 C2]; [eapply kids_weaken; [|exact Hk]; now unfold any|]. unfold blocks. cbn [bshared bnode].
      destruct (bshared m) eqn:Es; [|lia]. exfalso. destruct (Hs eq_refl) as [Hn _]. unfold entries in Hl. rewrite Hn in Hl. unfold len in E. cbn in Hl. lia.
    Qed.
  End Alloc.
End Space.
