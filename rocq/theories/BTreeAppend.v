(** * BTreeAppend: append (MergeIter, from_sorted_iter, fix_right_edge) *)
From Coq Require Import List Arith Lia Bool Sorted Permutation.
From Verif Require Import Base MapSpec MergeSpec IterSpec BTreeModel BTreeIterModel BTreeBulkModel BTreeInv BTreeLemmas BTreeSearch BTreeSurgery BTreeIter BTreeIterProofs BTreeBorder BTreeSplit.
Import ListNotations.
Set Implicit Arguments.

Section Append.
  Variables (K V : Type).
  Notation kv := (K * V)%type.
  Notation node := (node K V).
  Notation frame := (frame K V).
  Notation ctx := (ctx K V).
  Notation bmap := (bmap K V).
  Implicit Types (n o : node) (c : ctx) (f : frame) (m : bmap).

  (** ** The merging iterator *)
  (** [p] still delivers [rem], the end of the entries of the tree [T] *)
  Definition pk_ok (H : nat) (T : node) (sh : bool) (p : peekable K V) (rem : list kv) : Prop :=
    exists a b, into_ok H T sh a b (pinner p) /\
      match pk p with
      | None => rem = seg (inorder T) a b
      | Some (Some x) => rem = x :: seg (inorder T) a b
      | Some None => rem = [] /\ a = b
      end.

  Lemma peek_ok H T sh p rem : pk_ok H T sh p rem ->
    exists p', peek p = Ret (hd_error rem, p') /\ pk p' = Some (hd_error rem) /\ pk_ok H T sh p' rem.
  Proof.
    intros (a & b & Hi & Hr). unfold peek. destruct (pk p) as [[x|]|] eqn:E.
    - subst rem. exists p. split; auto. split; auto. exists a, b. rewrite E. auto.
    - destruct Hr as [-> ->]. exists p. split; auto. split; auto. exists b, b. rewrite E. auto.
    - pose proof (into_next_ok Hi) as Hs.
      assert (Hbd : a <= b <= length (inorder T)) by (destruct Hi as [Hb _]; exact (between_bound Hb)).
      destruct (Nat.eqb_spec a b) as [->|Hne].
      + destruct Hs as (it' & -> & Hi'). rewrite seg_nil in Hr. subst rem. eexists. split; [reflexivity|]. split; auto.
        exists b, b. cbn [pk pinner]. auto.
      + destruct Hs as (x & it' & -> & Hx & _ & Hi'). rewrite (@seg_front _ (inorder T) a b x) in Hr by (auto; lia). subst rem.
        eexists. split; [reflexivity|]. split; auto. exists (S a), b. cbn [pk pinner]. auto.
  Qed.
  Lemma pnext_ok H T sh p rem : pk_ok H T sh p rem -> pk p = Some (hd_error rem) ->
    exists p', pnext p = Ret (hd_error rem, p') /\ pk_ok H T sh p' (tl rem) /\ pk p' = None.
  Proof.
    intros (a & b & Hi & Hr) E. unfold pnext. rewrite E. rewrite E in Hr. eexists. split; [reflexivity|]. split; auto.
    exists a, b. cbn [pk pinner]. split; auto. destruct (hd_error rem) as [x|] eqn:Eh.
    - now subst rem.
    - destruct Hr as [-> ->]. now rewrite seg_nil.
  Qed.

  Section Cmp.
    Variable cmp : K -> K -> comparison.

    Definition mi_ok H1 T1 s1 H2 T2 s2 (mi : merge_iter K V) l r : Prop :=
      pk_ok H1 T1 s1 (mleft mi) l /\ pk_ok H2 T2 s2 (mright mi) r.

    (** the entries of the left side that the right side overwrites *)
    Fixpoint overwritten (l : list kv) : list kv -> list kv :=
      fix go r :=
        match l, r with
        | [], _ | _, [] => []
        | x :: l', y :: r' =>
            match cmp (fst x) (fst y) with
            | Lt => overwritten l' r
            | Eq => x :: overwritten l' r'
            | Gt => go r'
            end
        end.

    Lemma merge_next_ok H1 T1 s1 H2 T2 s2 mi l r : mi_ok H1 T1 s1 H2 T2 s2 mi l r ->
      match merge2 cmp l r with
      | [] => exists mi', merge_next cmp mi = Ret (None, mi') /\ mi_ok H1 T1 s1 H2 T2 s2 mi' [] [] /\ l = [] /\ r = [] /\ mdropped mi' = mdropped mi
      | x :: rest => exists mi' l' r' d, merge_next cmp mi = Ret (Some x, mi') /\ mi_ok H1 T1 s1 H2 T2 s2 mi' l' r' /\
          merge2 cmp l' r' = rest /\ length l' + length r' < length l + length r /\
          mdropped mi' = mdropped mi ++ d /\ overwritten l r = d ++ overwritten l' r' /\
          Permutation (l ++ r) (x :: d ++ l' ++ r')
      end.
    Proof.
      intros [Hl Hr]. unfold merge_next.
      destruct (peek_ok Hl) as (p1 & -> & E1 & Hl1). destruct (peek_ok Hr) as (p2 & -> & E2 & Hr1).
      destruct l as [|x l].
      - rewrite merge2_nil_l. destruct r as [|y r]; cbn [hd_error] in *.
        + eexists. split; [reflexivity|]. repeat (split; auto).
        + destruct (pnext_ok Hr1) as (p3 & -> & Hr2 & _); auto. cbn [hd_error tl] in *.
          eexists _, [], r, []. split; [reflexivity|]. split; [split; auto|]. rewrite merge2_nil_l. cbn [mdropped]. rewrite app_nil_r.
          split; auto. split; [simpl; lia|]. split; auto. split; [now destruct r|]. simpl. auto.
      - destruct r as [|y r]; cbn [hd_error] in *.
        + rewrite merge2_nil_r. destruct (pnext_ok Hl1) as (p3 & -> & Hl2 & _); auto. cbn [hd_error tl] in *.
          eexists _, l, [], []. split; [reflexivity|]. split; [split; auto|]. rewrite merge2_nil_r. cbn [mdropped]. rewrite !app_nil_r.
          simpl. split; auto. split; [lia|]. split; auto. split; [now destruct l|]. auto.
        + rewrite merge2_cons. destruct (cmp (fst x) (fst y)) eqn:E.
          * destruct (pnext_ok Hl1) as (p3 & -> & Hl2 & _); auto. destruct (pnext_ok Hr1) as (p4 & -> & Hr2 & _); auto. cbn [hd_error tl] in *.
            eexists _, l, r, [x]. split; [reflexivity|]. split; [split; auto|]. split; auto. split; [simpl; lia|]. split; auto.
            split; [simpl; now rewrite E|]. simpl. apply Permutation_sym. rewrite perm_swap. constructor. apply Permutation_middle.
          * destruct (pnext_ok Hl1) as (p3 & -> & Hl2 & _); auto. cbn [hd_error tl] in *.
            eexists _, l, (y :: r), []. split; [reflexivity|]. split; [split; auto|]. split; auto. split; [simpl; lia|].
            split; [simpl; now rewrite app_nil_r|]. split; [simpl; now rewrite E|]. simpl. auto.
          * destruct (pnext_ok Hr1) as (p3 & -> & Hr2 & _); auto. cbn [hd_error tl] in *.
            eexists _, (x :: l), r, []. split; [reflexivity|]. split; [split; auto|]. split; auto. split; [simpl; lia|].
            split; [simpl; now rewrite app_nil_r|]. split; [simpl; now rewrite E|]. simpl.
            apply Permutation_sym. apply (Permutation_middle (x :: l) r y).
    Qed.

    (** the overwritten entries are those whose key is on the right *)
    Hypothesis laws : ord_laws cmp.
    Lemma overwritten_has (l r : list kv) : sorted cmp l -> sorted cmp r ->
      overwritten l r = filter (fun x => has cmp r (fst x)) l.
    Proof.
      revert r. induction l as [|x l IH]; intros r Hl Hr; [now destruct r|].
      pose proof Hl as Hl0. rewrite sorted_cons in Hl. destruct Hl as [Hl Hxl].
      assert (Hskip : forall (y : kv) (l r : list kv), above cmp y l -> filter (fun x => has cmp (y :: r) (fst x)) l = filter (fun x => has cmp r (fst x)) l).
      { intros y l0 r0 Ha. induction Ha as [|e l1 He Hl1 IH1]; [reflexivity|]. cbn [filter].
        assert (Eh : has cmp (y :: r0) (fst e) = has cmp r0 (fst e)) by (unfold has; cbn [existsb]; now rewrite (cmp_lt_gt laws _ _ He)).
        now rewrite Eh, IH1. }
      induction r as [|y r IHr].
      - cbn [overwritten]. symmetry. apply filter_nothing. apply Forall_forall. reflexivity.
      - pose proof Hr as Hr0. rewrite sorted_cons in Hr. destruct Hr as [Hr Hyr].
        change (overwritten (x :: l) (y :: r)) with (match cmp (fst x) (fst y) with
            | Lt => overwritten l (y :: r) | Eq => x :: overwritten l r | Gt => overwritten (x :: l) r end).
        destruct (cmp (fst x) (fst y)) eqn:E.
        + rewrite IH by auto. cbn [filter]. assert (Hh : has cmp (y :: r) (fst x) = true) by (unfold has; cbn [existsb]; now rewrite E).
          rewrite Hh, Hskip; auto. eapply above_eq; eauto.
        + rewrite IH by auto. cbn [filter]. rewrite has_above; auto. constructor; auto. eapply above_trans; eauto.
        + rewrite IHr by auto. apply (cmp_gt laws) in E. rewrite Hskip; auto. constructor; auto. eapply above_trans; eauto.
    Qed.
  End Cmp.

  (** ** from_sorted_iter *)
  (** nothing right of the path, full nodes left of it *)
  Fixpoint rctx (h : nat) (c : ctx) : Prop :=
    match c with
    | [] => True
    | f :: c' => frame_ok f /\ fr f = [] /\ Forall (sub full h) (fl f) /\ length (fk f) <= CAPACITY /\ rctx (S h) c'
    end.
  Lemma rctx_frames h c : rctx h c -> Forall (@frame_ok K V) c.
  Proof. revert h. induction c; intros h H; constructor; simpl in H; [tauto|]. apply (IHc (S h)); tauto. Qed.
  Lemma rctx_after h c : rctx h c -> cafter c = [].
  Proof.
    revert h. induction c as [|f c IH]; intros h H; simpl in *; auto. destruct H as (_ & E & _ & _ & H).
    rewrite (IH _ H). unfold after. rewrite E. cbn [map]. destruct (skipn (fidx f) (fk f)); reflexivity.
  Qed.
  Lemma rctx_inorder h c n : rctx h c -> inorder (plug n c) = cbefore c ++ inorder n.
  Proof. intros H. rewrite inorder_plug by (eapply rctx_frames; eauto). now rewrite (rctx_after _ _ H), app_nil_r. Qed.
  Lemma rctx_plug c : forall h n, rctx h c -> rb full h n -> nlen n <= CAPACITY ->
    rb full (h + length c) (plug n c) /\ nlen (plug n c) <= CAPACITY.
  Proof.
    induction c as [|f c IH]; intros h n Hc Hn Hl; cbn [plug length].
    - rewrite Nat.add_0_r. auto.
    - destruct Hc as (H1 & H2 & H3 & H4 & H5). replace (h + S (length c)) with (S h + length c) by lia.
      apply IH; auto. cbn [rb]. exists (fl f), n. unfold fill, nlen. cbn [edges kvs]. rewrite H2.
      unfold frame_ok in H1. rewrite H2 in H1. simpl in H1. repeat (split; auto). lia.
  Qed.
  Lemma nlen_plug c : c <> [] -> forall n n', nlen (plug n c) = nlen (plug n' c).
  Proof.
    induction c as [|f c IH]; intros H n n'; [congruence|]. cbn [plug]. destruct c as [|g c].
    - reflexivity.
    - apply IH. discriminate.
  Qed.

  Lemma rb_descend h n : rb full (S h) n -> exists e, descend n (nlen n) = Some (e, Frame (kvs n) (firstn (nlen n) (edges n)) []) /\
     rb full h e /\ nlen e <= CAPACITY /\ Forall (sub full h) (firstn (nlen n) (edges n)) /\ length (firstn (nlen n) (edges n)) = nlen n.
  Proof.
    intros (es & e & E & Hl & Hs & He & Hr). exists e. unfold descend. rewrite E. rewrite pick_app' by auto.
    rewrite firstn_app_len by auto. auto.
  Qed.
  Lemma last_leaf_rctx h : forall n c, rb full h n -> nlen n <= CAPACITY -> rctx h c ->
    exists hd, last_leaf_edge h n c = Some hd /\ rctx 0 (hc hd) /\ edges (hn hd) = [] /\ nlen (hn hd) <= CAPACITY /\
      plug (hn hd) (hc hd) = plug n c /\ length (hc hd) = h + length c.
  Proof.
    induction h as [|h IH]; intros n c Hr Hl Hc; cbn [last_leaf_edge].
    - eexists. split; [reflexivity|]. cbn [hn hc]. auto.
    - destruct (rb_descend Hr) as (e & E & He & Hle & Hf & Hlen). rewrite E.
      destruct (IH e (Frame (kvs n) (firstn (nlen n) (edges n)) [] :: c)) as (hd & E2 & R & E3 & E4 & E5 & E6); auto.
      { cbn [rctx]. unfold frame_ok. cbn [fk fl fr length]. unfold nlen in *. split; [lia|]. auto. }
      exists hd. split; auto. split; auto. split; auto. split; auto. split.
      + rewrite E5. cbn [plug]. f_equal. apply descend_some in E. destruct E as [E _]. now rewrite <- E.
      + rewrite E6. simpl. lia.
  Qed.

  Section Alloc.
    Variable W : Type.
    Variable nalloc : bool -> W -> option reserve_error * W.
    Definition refused_ (w' : W) : Prop := exists i w0 e, nalloc i w0 = (Some e, w').


    Lemma find_open_ok c : forall h n w, sub full h n -> rctx h c ->
      match find_open nalloc h n c w with
      | (Ret (o, ho, c'), w') => 0 < ho /\ kids full ho o /\ nlen o < CAPACITY /\ rctx ho c' /\
          ((plug o c' = plug n c /\ ho + length c' = h + length c) \/
           (c' = [] /\ o = Node [] [plug n c] /\ ho = S (h + length c)))
      | (Err e, w') => refused_ w'
      | _ => False
      end.
    Proof.
      induction c as [|f c IH]; intros h n w Hn Hc; cbn [find_open].
      - unfold push_level. destruct (nalloc true w) as [[e|] w'] eqn:E.
        + exists true, w, e. auto.
        + split; [lia|]. split. { rewrite kids_S. cbn [edges]. split; [reflexivity|]. constructor; auto. }
          split; [unfold nlen, CAPACITY, B_; simpl; lia|]. split; [exact I|]. right. cbn [plug length]. repeat (split; auto).
      - destruct Hc as (H1 & H2 & H3 & H4 & H5).
        assert (Hk : kids full (S h) (fill f n)). { apply fill_kids. split; auto. split; auto. split; auto. rewrite H2. constructor. }
        destruct (Nat.ltb_spec (nlen (fill f n)) CAPACITY) as [Hlt|Hge].
        + split; [lia|]. split; auto. split; auto. split; auto. left. cbn [plug length]. split; auto. lia.
        + assert (Hs : sub full (S h) (fill f n)). { split; auto. unfold full. rewrite nlen_fill in *. lia. }
          specialize (IH (S h) (fill f n) w Hs H5). destruct (find_open nalloc (S h) (fill f n) c w) as [[[[o ho] c']|e| | |] w']; auto.
          destruct IH as (G1 & G2 & G3 & G4 & G5). split; auto. split; auto. split; auto. split; auto.
          cbn [plug length]. replace (h + S (length c)) with (S h + length c) by lia. auto.
    Qed.

    Definition J n c : Prop := edges n = [] /\ nlen n <= CAPACITY /\ rctx 0 c /\ (c <> [] -> 1 <= nlen (plug n c)).

    Lemma full_cap k : full k -> k <= CAPACITY.
    Proof. unfold full. lia. Qed.

    Lemma J_rb n c : J n c -> rb full (length c) (plug n c) /\ nlen (plug n c) <= CAPACITY.
    Proof. intros (H1 & H2 & H3 & _). apply (@rctx_plug c 0); auto. Qed.

    Lemma push_sorted_ok x n c w : J n c ->
      match push_sorted nalloc x n c w with
      | (Ret (n', c'), _, w') => J n' c' /\ inorder (plug n' c') = inorder (plug n c) ++ [x]
      | (Panic, (t, ht), w') => refused_ w' /\ shape ht t /\ inorder t = inorder (plug n c)
      | _ => False
      end.
    Proof.
      intros HJ. pose proof HJ as (H1 & H2 & H3 & H4). unfold push_sorted.
      destruct (Nat.ltb_spec (nlen n) CAPACITY) as [Hlt|Hge].
      - cbn [push]. split.
        + split; auto. split; [unfold nlen in *; cbn [kvs]; rewrite app_length; simpl; lia|]. split; auto.
          intros Hc. rewrite (nlen_plug Hc _ n). auto.
        + rewrite !(rctx_inorder 0) by auto. rewrite !(inorder_eq), H1. cbn [edges kvs]. cbn [map weave]. now rewrite app_assoc.
      - assert (Hs : sub full 0 n). { split; [unfold full; lia|auto]. }
        pose proof (find_open_ok c w Hs H3) as HF. destruct (find_open nalloc 0 n c w) as [[[[o ho] c']|e| | |] w1]; try contradiction.
        + destruct HF as (Hho & Hk & Hlt & Hrc & Halt).
          assert (Hio : inorder (plug o c') = inorder (plug n c)).
          { destruct Halt as [[-> _]|(-> & -> & _)]; auto. cbn [plug]. rewrite inorder_eq. simpl. now rewrite app_nil_r. }
          assert (Hsh : shape (ho + length c') (plug o c')).
          { eapply rb_shape. apply rctx_plug; auto; [|lia]. apply kids_rb; auto. apply full_cap. }
          unfold new_leaf. destruct (nalloc false w1) as [[e|] w2] eqn:E2.
          { split; [exists false, w1, e; auto|]. auto. }
          pose proof (@push_levels_ok K V _ nalloc (ho - 1) (@empty_leaf K V) 0 w2 eq_refl) as HP.
          destruct (push_levels nalloc (ho - 1) (@empty_leaf K V) 0 w2) as [[r [n' h']] w3] eqn:E3.
          destruct HP as [_ HP]. destruct r as [ch|e| | |]; try contradiction.
          2:{ destruct HP as (i & w0 & HP). split; [exists i, w0, e; auto|]. auto. }
          cbn [Nat.add] in HP. destruct ho as [|ho]; [lia|]. replace (S ho - 1) with ho in * by lia.
          destruct (chain_kids _ _ HP) as (C1 & C2 & C3). rewrite kids_S in Hk. destruct Hk as [Hl Hf].
          cbn [push]. rewrite firstn_all2 by lia. set (o' := Node (kvs o ++ [x]) (edges o ++ [ch])).
          assert (Hn' : nlen o' = S (nlen o)) by (unfold o', nlen; cbn [kvs]; rewrite app_length; simpl; lia).
          assert (Hrb : rb full (S ho) o').
          { cbn [rb]. exists (edges o), ch. split; auto. split; [lia|]. split; auto. split; [lia|]. apply chain_rb; auto. }
          destruct (@last_leaf_rctx (S ho) o' c' Hrb) as (hd & -> & R1 & R2 & R3 & R4 & R5); auto; [lia|].
          split.
          * split; auto. split; auto. split; auto. intros _. rewrite R4. destruct c' as [|g c'].
            -- cbn [plug]. lia.
            -- rewrite (@nlen_plug (g :: c') ltac:(discriminate) _ o). destruct Halt as [[-> Hlen]|(Hx & _)]; [|discriminate].
               apply H4. intros ->. simpl in Hlen. lia.
          * rewrite R4. rewrite <- Hio, !(rctx_inorder (S ho)) by auto. rewrite <- app_assoc. f_equal.
            rewrite !inorder_eq. unfold o'. cbn [edges kvs]. rewrite map_app. cbn [map]. rewrite C3.
            rewrite weave_cut by (rewrite map_length; auto). reflexivity.
        + split; auto. destruct (J_rb HJ) as [Hr _]. apply rb_shape in Hr. auto.
    Qed.

    Variable cmp : K -> K -> comparison.

    Lemma from_sorted_loop_ok H1 T1 s1 H2 T2 s2 fuel : forall mi l r n c len w,
      mi_ok H1 T1 s1 H2 T2 s2 mi l r -> J n c -> length l + length r < fuel -> len = length (inorder (plug n c)) ->
      let '(o, (t, ht), len', mi', w') := from_sorted_loop nalloc cmp fuel mi n c len w in
      match o with
      | Ret _ => rb full ht t /\ nlen t <= CAPACITY /\ (0 < ht -> 1 <= nlen t) /\
                 inorder t = inorder (plug n c) ++ merge2 cmp l r /\ len' = length (inorder t) /\
                 mi_ok H1 T1 s1 H2 T2 s2 mi' [] [] /\ mdropped mi' = mdropped mi ++ overwritten cmp l r
      | Panic => refused_ w' /\ shape ht t /\ len' = length (inorder t) /\
                 exists done x l' r' d, merge2 cmp l r = done ++ x :: merge2 cmp l' r' /\
                   inorder t = inorder (plug n c) ++ done /\ mi_ok H1 T1 s1 H2 T2 s2 mi' l' r' /\
                   mdropped mi' = mdropped mi ++ d /\ Permutation (l ++ r) (done ++ x :: d ++ l' ++ r')
      | _ => False
      end.
    Proof.
      induction fuel as [|fuel IH]; intros mi l r n c len w Hmi HJ Hf Hlen; [lia|]. cbn [from_sorted_loop].
      pose proof (merge_next_ok cmp Hmi) as Hm. destruct (merge2 cmp l r) as [|x rest] eqn:E.
      - destruct Hm as (mi' & -> & Hmi' & -> & -> & Hd). destruct (J_rb HJ) as [R1 R2].
        split; auto. split; auto. split. { intros Hc. apply HJ. intros ->. simpl in Hc. lia. }
        rewrite app_nil_r. split; auto. split; auto. split; auto. rewrite Hd. simpl. now rewrite app_nil_r.
      - destruct Hm as (mi' & l' & r' & d & -> & Hmi' & Hrest & Hlt & Hd & Ho & Hp).
        pose proof (push_sorted_ok x w HJ) as HS.
        destruct (push_sorted nalloc x n c w) as [[[[n' c']|e| | |] [t ht]] w']; try contradiction.
        + destruct HS as [HJ' Hi]. specialize (IH mi' l' r' n' c' (len + 1) w' Hmi' HJ').
          rewrite Hi, app_length in IH. simpl in IH.
          destruct (from_sorted_loop nalloc cmp fuel mi' n' c' (len + 1) w') as [[[[o [t2 ht2]] len2] mi2] w2].
          specialize (IH ltac:(lia) ltac:(lia)). destruct o; try contradiction.
          * destruct IH as (G1 & G2 & G3 & G4 & G5 & G6 & G7). split; auto. split; auto. split; auto.
            rewrite <- app_assoc, Hrest in G4. split; auto. split; auto. split; auto. rewrite G7, Hd, Ho. now rewrite app_assoc.
          * destruct IH as (G1 & G2 & G3 & done & y & l2 & r2 & d2 & G4 & G5 & G6 & G7 & G8). split; auto. split; auto. split; auto.
            exists (x :: done), y, l2, r2, (d ++ d2). rewrite <- Hrest, G4. split; auto. rewrite <- app_assoc in G5. split; auto. split; auto.
            split; [rewrite G7, Hd; now rewrite app_assoc|]. rewrite Hp. cbn [app]. constructor. rewrite (Permutation_app_head d G8).
            rewrite Permutation_app_swap_app. apply Permutation_app_head. rewrite <- app_assoc. symmetry. apply Permutation_middle.
        + destruct HS as (G1 & G2 & G3). split; auto. split; auto. rewrite G3. split; auto.
          exists [], x, l', r', d. cbn [app]. rewrite Hrest, app_nil_r. repeat (split; auto).
    Qed.

    (** the iterator left over is dropped safely *)
    Lemma drop_peekable_ok H T sh p rem : kids any H T -> pk_ok H T sh p rem ->
      exists fr, drop_peekable p = Ret (rem, fr) /\ if sh then fr = [] else Permutation fr (allpaths [] T).
    Proof.
      intros Hk (a & b & Hi & Hr). unfold drop_peekable. destruct (drop_into_iter_ok Hk Hi) as (fr & -> & Hfr).
      exists fr. split; auto. unfold peeked. destruct (pk p) as [[x|]|].
      - now subst rem.
      - destruct Hr as [-> ->]. now rewrite seg_nil.
      - now subst rem.
    Qed.

    Lemma documented_fair k : documented k -> fair k.
    Proof. unfold documented, fair. change MIN_LEN with 5. change REAL_MIN with 4. lia. Qed.

    Definition both_drop m (o : bmap) (mi : merge_iter K V) (rest1 rest2 : list kv) : Prop :=
      exists fr1 fr2, drop_peekable (mleft mi) = Ret (rest1, fr1) /\ drop_peekable (mright mi) = Ret (rest2, fr2) /\
        Permutation fr1 (allpaths [] (bnode m)) /\ Permutation fr2 (allpaths [] (bnode o)).

    Lemma append_ok m (o : bmap) w : sound m -> sound o ->
      let '(r, m', o', mi, w') := append nalloc cmp m o w in
      match r with
      | Ret _ => sound m' /\ sound o' /\ entries m' = merge2 cmp (entries m) (entries o) /\ entries o' = [] /\
                 match mi with
                 | None => entries m = [] \/ entries o = []
                 | Some mi => both_drop m o mi [] [] /\ mdropped mi = overwritten cmp (entries m) (entries o) /\
                     kids documented (bheight m') (bnode m')
                 end
      | Panic => refused_ w' /\ droppable m' /\ o' = new /\
                 exists mi', mi = Some mi' /\ exists done lost l' r',
                   entries m' = done /\ merge2 cmp (entries m) (entries o) = done ++ lost ++ merge2 cmp l' r' /\
                   both_drop m o mi' l' r' /\
                   Permutation (entries m ++ entries o) (done ++ lost ++ mdropped mi' ++ l' ++ r')
      | _ => False
      end.
    Proof.
      intros Hm Ho. pose proof Hm as (Hb1 & Hs1 & Hl1). pose proof Ho as (Hb2 & Hs2 & Hl2). unfold append, len.
      destruct (Nat.eqb_spec (blen o) 0) as [E0|E0].
      { assert (He : entries o = []) by (destruct (entries o); auto; simpl in Hl2; lia). rewrite He, merge2_nil_r. do 4 (split; [now auto|]). auto. }
      destruct (Nat.eqb_spec (blen m) 0) as [E1|E1].
      { assert (He : entries m = []) by (destruct (entries m); auto; simpl in Hl1; lia). rewrite He, merge2_nil_l. do 4 (split; [now auto|]). auto. }
      assert (N1 : bshared m = false).
      { destruct (bshared m); auto. destruct Hs1 as [E _]; auto. exfalso. apply E1. rewrite Hl1. unfold entries. now rewrite E. }
      assert (N2 : bshared o = false).
      { destruct (bshared o); auto. destruct Hs2 as [E _]; auto. exfalso. apply E0. rewrite Hl2. unfold entries. now rewrite E. }
      pose proof (@kids_shape K V _ _ _ (proj2 Hb1)) as K1. pose proof (kids_shape _ _ _ (proj2 Hb2)) as K2.
      destruct (map_into_iter_ok m K1 Hl1) as (li & -> & Hli); [congruence|].
      destruct (map_into_iter_ok o K2 Hl2) as (ri & -> & Hri); [congruence|].
      rewrite N1 in Hli. rewrite N2 in Hri.
      set (mi := MergeIter (Peekable None li) (Peekable None ri) []).
      assert (Hmi : mi_ok (bheight m) (bnode m) false (bheight o) (bnode o) false mi (entries m) (entries o)).
      { split; [exists 0, (length (entries m))|exists 0, (length (entries o))]; cbn [mi mleft mright pk pinner];
          (split; [auto|unfold entries; now rewrite seg_all]). }
      assert (Hdrop : forall mi l r, mi_ok (bheight m) (bnode m) false (bheight o) (bnode o) false mi l r -> both_drop m o mi l r).
      { intros mi0 l r [G1 G2]. destruct (drop_peekable_ok K1 G1) as (f1 & D1 & P1). destruct (drop_peekable_ok K2 G2) as (f2 & D2 & P2).
        exists f1, f2. auto. }
      unfold new_leaf. destruct (nalloc false w) as [[e|] w1] eqn:Ea.
      { split; [exists false, w, e; auto|]. split; [apply new_droppable|]. split; auto. exists mi. split; auto.
        exists [], [], (entries m), (entries o). cbn [app]. split; auto. }
      assert (HJ : J (@empty_leaf K V) []).
      { split; auto. split; [apply Nat.le_0_l|]. split; [exact I|congruence]. }
      pose proof (@from_sorted_loop_ok (bheight m) (bnode m) false (bheight o) (bnode o) false (blen m + blen o + 1) mi (entries m) (entries o)
        (@empty_leaf K V) [] 0 w1 Hmi HJ ltac:(lia) eq_refl) as HL.
      destruct (from_sorted_loop nalloc cmp (blen m + blen o + 1) mi (@empty_leaf K V) [] 0 w1) as [[[[r [t ht]] l'] mi'] w2].
      destruct r; try contradiction.
      - destruct HL as (R1 & R2 & R3 & R4 & R5 & R6 & R7). cbn [plug app] in R4.
        destruct (@fix_right_edge_ok K V ht t R1 R3) as (t' & -> & F1 & F2 & F3).
        split; [|split; [|split; [|split; [|split; [|split]]]]]; auto.
        + split; [|split].
          * split; [rewrite <- F2 in *; split; auto|]. eapply kids_weaken; [|exact F1]. apply documented_fair.
          * discriminate.
          * unfold entries. cbn [blen bnode]. now rewrite F3.
        + apply new_sound.
        + unfold entries at 1. cbn [bnode]. now rewrite F3, R4.
      - destruct HL as (R1 & R2 & R3 & done & x & lr & rr & d & R4 & R5 & R6 & R7 & R8). cbn [plug app] in R5.
        split; auto. split; [split; [auto|split; [auto|discriminate]]|]. split; auto. exists mi'. split; auto.
        exists done, [x], lr, rr. unfold entries at 1. cbn [bnode]. split; auto. split; auto. split; auto.
        rewrite R8, R7. cbn [mi mdropped app]. auto.
    Qed.
  End Alloc.
End Append.
