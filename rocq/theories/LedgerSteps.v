(** * LedgerSteps: the books of clones, drops and writes, and of every operation *)
From Coq Require Import List Arith Lia Bool Sorted Permutation.
From Verif Require Import Base MapSpec IterSpec BTreeModel BTreeInv BTreeLemmas BTreeSearch BTreeInsert BTreeRemove BTreeOps BTreeIterModel BTreeIterProofs
  BTreeBulkModel BTreeBorder BTreeSplit BTreeAppend BTreeClone BTreeWrites BTreeEntry BTreeRange BTreeCollect MergeSpec SpecFacts HistoryModel HistorySpec HistoryProofs
  LedgerModel LedgerSpec LedgerProofs LedgerBooks Properties_BTree Properties_BTree2.
Import ListNotations.
Set Implicit Arguments.

Section Steps.
  Variables (K V Q W : Type) (kw : K -> nat) (vw : V -> nat).
  Notation kv := (K * V)%type.
  Notation node := (node K V).
  Notation bmap := (bmap K V).
  Notation pw := (pw kw vw).
  Notation lw := (lw kw vw).
  Notation tw := (tw kw vw).
  Notation made := (made kw vw).
  Notation dropped := (dropped kw vw).
  Notation leaked := (leaked kw vw).
  Notation fates := (list (fate K V)).
  Notation one := (one kw vw).
  Implicit Types (w : W).
  Variables (nalloc : bool -> W -> option reserve_error * W) (kclone : K -> W -> outcome reserve_error K * W) (vclone : V -> W -> outcome reserve_error V * W).

  (** ** Clone *)
  Definition dw (d : list bmap) : nat := list_sum (map (fun m => tw (bnode m)) d).
  Lemma dw_app a b : dw (a ++ b) = dw a + dw b.
  Proof. unfold dw. now rewrite map_app, list_sum_app. Qed.
  Lemma dw_one m : dw [m] = tw (bnode m).
  Proof. unfold dw. cbn. lia. Qed.

  Definition cbook (o : outcome reserve_error (node * nat)) (before : nat) (d : list bmap) (t : fates) : Prop :=
    match o with
    | Ret (n, _) => no_leak t /\ tw n + dropped t = before + made t
    | Abort | UB => True
    | _ => no_leak t /\ dw d + dropped t = before + made t
    end.
  Lemma kv_clone_book x w : let '(o, t, _) := l_kv_clone kclone vclone x w in
    match o with Ret y => one t (pw y) 0 | Abort | UB => True | _ => no_leak t /\ made t = dropped t end.
  Proof.
    assert (G : forall k, no_leak [KMade (V := V) k; KDrop k] /\ made [KMade (V := V) k; KDrop k] = dropped [KMade (V := V) k; KDrop k]).
    { intros k. split; [intros n [H|[H|[]]]; discriminate|]. unfold LedgerSpec.made, LedgerSpec.dropped. cbn. lia. }
    unfold l_kv_clone. destruct (kclone (fst x) w) as [[k| | | |] w1]; auto; try (split; [apply no_leak_nil|reflexivity]).
    destruct (vclone (snd x) w1) as [[v| | | |] w2]; auto. split; [|split].
    - unfold LedgerSpec.made, LedgerSpec.pw. cbn. lia.
    - reflexivity.
    - intros n [H|[H|[]]]; discriminate.
  Qed.
  Lemma clone_leaf_book xs : forall o l w, let '(r, d, t, _) := l_clone_leaf kclone vclone xs o l w in cbook r (tw o) d t.
  Proof.
    induction xs as [|x xs IH]; intros o l w; cbn [l_clone_leaf]; [split; [apply no_leak_nil|cbn; lia]|].
    pose proof (kv_clone_book x w) as HK. destruct (l_kv_clone kclone vclone x w) as [[[y|e| | |] t] w1]; auto; try (destruct HK as [Hn HK]; split; auto; rewrite dw_one; cbn [bnode]; lia).
    cbn [push]. specialize (IH (Node (kvs o ++ [y]) (edges o)) (l + 1) w1).
    destruct (l_clone_leaf kclone vclone xs _ (l + 1) w1) as [[[r d] t'] w']. destruct HK as (K1 & K2 & K3). rewrite tw_eq in IH. cbn [kvs edges] in IH. rewrite lw_app, lw_cons, lw_nil in IH.
    rewrite (tw_eq kw vw o). destruct r as [[n' l']| | | |]; auto; destruct IH as [In IH]; (split; [now apply no_leak_app|]); rewrite dropped_app, made_app; lia.
  Qed.
  Lemma clone_internal_book sub h : (forall e w, let '(r, d, t, _) := sub e w in cbook r 0 d t) ->
    forall xs es o l w, let '(r, d, t, _) := l_clone_internal kclone vclone sub h xs es o l w in length (edges o) = S (nlen o) -> cbook r (tw o) d t.
  Proof.
    intros HS. induction xs as [|x xs IH]; intros es o l w; cbn [l_clone_internal].
    { intros _. split; [apply no_leak_nil|cbn; lia]. }
    destruct es as [|e es]; [intros _; exact I|].
    pose proof (kv_clone_book x w) as HK. destruct (l_kv_clone kclone vclone x w) as [[[y|er| | |] t] w1]; try (intros _; exact I); try (intros _; destruct HK as [Hn HK]; split; auto; rewrite dw_one; cbn [bnode]; lia).
    specialize (HS e w1). destruct HK as (K1 & K2 & K3). destruct (one_kv kw vw (fst y) (snd y)) as (D1 & D2 & D3). change (kw (fst y) + vw (snd y)) with (pw y) in D2.
    destruct (sub e w1) as [[[[[s sl]|er| | |] d] t2] w2]; try (intros _; exact I).
    - cbn [push]. specialize (IH es (Node (kvs o ++ [y]) (firstn (nlen o + 1) (edges o) ++ [s])) (l + (1 + sl)) w2). destruct HS as [Sn HS].
      destruct (l_clone_internal kclone vclone sub h xs es _ (l + (1 + sl)) w2) as [[[r d3] t3] w3]. intros He.
      rewrite tw_eq in IH. cbn [kvs edges] in IH. rewrite firstn_all2 in IH by lia. rewrite lw_app, lw_cons, lw_nil, te_app, te_cons, te_nil in IH. rewrite (tw_eq kw vw o).
      assert (He' : length (edges o ++ [s]) = S (nlen (Node (kvs o ++ [y]) (edges o ++ [s])))) by (unfold nlen in *; cbn [kvs]; rewrite !app_length; cbn [length]; lia).
      specialize (IH He'). destruct r as [[n' l']| | | |]; auto; destruct IH as [In IH]; (split; [auto using no_leak_app|]); rewrite !dropped_app, !made_app; lia.
    - intros _. destruct HS as [Sn HS]. split; [auto using no_leak_app|]. rewrite dw_app, dw_one, !dropped_app, !made_app. cbn [bnode]. lia.
    - intros _. destruct HS as [Sn HS]. split; [auto using no_leak_app|]. rewrite dw_app, dw_one, !dropped_app, !made_app. cbn [bnode]. lia.
  Qed.
  Lemma clone_subtree_book h : forall n w, let '(r, d, t, _) := l_clone_subtree nalloc kclone vclone h n w in cbook r 0 d t.
  Proof.
    induction h as [|h IH]; intros n w; cbn [l_clone_subtree].
    - unfold new_leaf. destruct (nalloc false w) as [[e|] w1]; [split; [apply no_leak_nil|reflexivity]|].
      pose proof (clone_leaf_book (kvs n) (@empty_leaf K V) 0 w1) as HL. destruct (l_clone_leaf kclone vclone (kvs n) _ 0 w1) as [[[r d] t] w2]. exact HL.
    - destruct (edges n) as [|e0 es]; [exact I|]. pose proof (IH e0 w) as H0. destruct (l_clone_subtree nalloc kclone vclone h e0 w) as [[[[[o l]|e| | |] d] t] w1]; auto.
      unfold push_level. destruct H0 as [Hn H0]. destruct (nalloc true w1) as [[e|] w2]; [split; auto; rewrite dw_one; cbn [bnode]; lia|].
      pose proof (clone_internal_book _ h IH (kvs n) es (Node [] [o]) l w2) as HI. destruct (l_clone_internal kclone vclone _ h (kvs n) es _ l w2) as [[[r d2] t2] w3].
      specialize (HI eq_refl). rewrite tw_eq in HI. cbn [kvs edges] in HI. rewrite lw_nil, te_cons, te_nil in HI.
      destruct r as [[n' l']| | | |]; auto; destruct HI as [In HI]; (split; [now apply no_leak_app|]); rewrite !dropped_app, !made_app; lia.
  Qed.

  (** ** Dropping *)
  Lemma l_drop_all_book (l : list bmap) : Forall (@droppable K V) l -> exists t, l_drop_all l = (Ret tt, t) /\ one t 0 (dw l).
  Proof.
    induction 1 as [|m l Hm H (t & E & I1 & I2 & I3)]; [exists []; split; auto; apply one_nil|]. cbn [l_drop_all]. unfold l_drop.
    destruct (C30_drop Hm) as (fr & -> & _). rewrite E. exists (drops (entries m) ++ t). split; auto.
    replace (dw (m :: l)) with (lw (entries m) + dw l).
    - apply (one_app (one_drops kw vw (entries m)) (conj I1 (conj I2 I3))).
    - change (dw (m :: l)) with (tw (bnode m) + dw l). f_equal. apply (tw_inorder kw vw (bheight m)). exact (proj1 Hm).
  Qed.

  Variable cmp : K -> K -> comparison.
  Hypothesis laws : ord_laws cmp.
  Lemma l_drop_one_book (m : bmap) : valid cmp m -> exists t, l_drop_all [m] = (Ret tt, t) /\ one t 0 (lw (entries m)).
  Proof.
    intros H. destruct (@l_drop_all_book [m]) as (t & E & Ht); [constructor; [eapply valid_droppable; eauto|constructor]|]. exists t. split; auto.
    rewrite dw_one, (sound_tw kw vw (proj1 H)) in Ht. exact Ht.
  Qed.
  Lemma l_try_clone_book (m : bmap) w : valid cmp m -> let '(o, d, t, _) := l_try_clone nalloc kclone vclone m w in
    match o with
    | Ret m' => no_leak t /\ lw (entries m') + dropped t = made t
    | Abort | UB => exists td, l_drop_all d = (Ret tt, td)
    | _ => exists td, l_drop_all d = (Ret tt, td) /\ no_leak (t ++ td) /\ dropped (t ++ td) = made (t ++ td)
    end.
  Proof.
    intros Hm. pose proof (@try_clone_ok K V W nalloc kclone vclone m w (proj1 Hm)) as HC. rewrite <- l_try_clone_erase in HC.
    unfold l_try_clone in *. destruct (len m =? 0); [split; [apply no_leak_nil|reflexivity]|].
    pose proof (clone_subtree_book (bheight m) (bnode m) w) as HB.
    destruct (l_clone_subtree nalloc kclone vclone (bheight m) (bnode m) w) as [[[[[n l]|e| | |] d] t] w1]; auto; cbn [no_t cbook] in *; destruct HC as [Hd HC].
    - destruct HC as (_ & Hs & _). rewrite <- (sound_tw kw vw Hs). exact HB.
    - destruct (l_drop_all_book Hd) as (td & E & T1 & T2 & T3). exists td. split; auto. destruct HB as [Hn HB]. split; [now apply no_leak_app|]. rewrite dropped_app, made_app. lia.
    - destruct (l_drop_all_book Hd) as (td & E & T1 & T2 & T3). exists td. split; auto. destruct HB as [Hn HB]. split; [now apply no_leak_app|]. rewrite dropped_app, made_app. lia.
    - destruct (l_drop_all_book Hd) as (td & E & _). now exists td.
    - destruct (l_drop_all_book Hd) as (td & E & _). now exists td.
  Qed.

  (** ** Writes through references *)
  Lemma l_write_book (m : bmap) a x f : sound m -> placed m a x ->
    exists m', update_at a (write_val f) m = Some m' /\ no_leak (l_write (bnode m) a f) /\
      lw (entries m) + made (l_write (bnode m) a f) = lw (entries m') + dropped (l_write (bnode m) a f).
  Proof.
    intros Hm Hp. destruct (update_at_ok (write_val f) Hm Hp) as (m' & l & r & E & _ & E1 & E2 & _). exists m'. split; auto.
    unfold l_write. destruct Hp as [Hk _]. rewrite Hk. destruct (one_write kw vw (snd x) (f (snd x))) as (-> & -> & Hn). split; auto.
    rewrite E1, E2, !lw_app, !lw_cons. unfold LedgerSpec.pw, write_val. cbn [fst snd]. lia.
  Qed.
  Lemma l_write_all_book (ws : list (addr * (K * (V -> V)))) : forall m : bmap, valid cmp m -> Forall (fun p : addr * (K * (V -> V)) => place_of m (fst p) (fst (snd p))) ws ->
    exists m' t, l_write_all (map (fun p : addr * (K * (V -> V)) => (fst p, snd (snd p))) ws) m = (Some m', t) /\ no_leak t /\ lw (entries m) + made t = lw (entries m') + dropped t.
  Proof.
    induction ws as [|[a [k f]] ws IH]; intros m Hm HF; cbn [map l_write_all fst snd].
    - exists m, []. split; auto. split; [apply no_leak_nil|reflexivity].
    - inversion HF as [|? ? Hp HF']; subst. cbn [fst snd] in Hp. destruct (place_placed Hp) as [v Hpl]. destruct Hm as [Hm Hs].
      destruct (l_write_book f Hm Hpl) as (m1 & E & Hn & HB). destruct (write_ok laws f Hm Hs Hpl) as (m1' & E' & Hm1 & Ee & _ & Hh). rewrite E in E'. inversion E'; subst m1'.
      rewrite E. assert (Hv : valid cmp m1) by (split; auto; rewrite Ee; now apply s_update_sorted).
      destruct (IH m1 Hv) as (m2 & t & -> & Hn2 & HB2).
      { eapply Forall_impl; [|exact HF']. intros p [Hw1 Hw2]. split; [|rewrite Hh; exact Hw2]. rewrite <- Hw1.
        unfold update_at in E. destruct (update_node (fst a) (snd a) (write_val f) (bnode m)) as [n'|] eqn:Eu; [|discriminate]. inversion E; subst m1. cbn [bnode].
        now apply (update_node_keys _ _ _ _ Eu). }
      exists m2, (l_write (bnode m) a f ++ t). split; auto. split; [now apply no_leak_app|]. rewrite made_app, dropped_app. lia.
  Qed.

  (** ** The trees that a refused split_off discards are empty *)
  Lemma split_off_discards q (m : bmap) w : let '(o, _, ds, _) := split_off nalloc q m w in
    match o with Err _ => Forall (fun d => entries d = []) ds | _ => True end.
  Proof.
    unfold split_off. destruct (is_empty m); [exact I|]. unfold new_leaf. destruct (nalloc false w) as [[er|] w1]; [repeat constructor|].
    pose proof (@push_levels_ok K V W nalloc (bheight m) (@empty_leaf K V) 0 w1 eq_refl) as HP.
    destruct (push_levels nalloc (bheight m) (@empty_leaf K V) 0 w1) as [[o [n' h']] w2]. destruct HP as [Hch HP]. destruct o as [c|e| | |]; try contradiction.
    - destruct (split_loop q (bheight m) (bnode m) c) as [[l r]|]; [|exact I].
      destruct (fix_right_border l (bheight m)) as [[l' hl]|]; [|exact I]. destruct (fix_left_border r (bheight m)) as [[r' hr]|]; [|exact I].
      destruct (hl <? hr); exact I.
    - destruct (chain_kids _ _ Hch) as (_ & _ & K3). repeat constructor. exact K3.
  Qed.
  Lemma empties_dw (ds : list bmap) : Forall (@droppable K V) ds -> Forall (fun d => entries d = []) ds -> dw ds = 0.
  Proof.
    induction ds as [|d ds IH]; intros H1 H2; [reflexivity|]. inversion H1 as [|? ? D1 D2]; inversion H2 as [|? ? F1 F2]; subst. change (dw (d :: ds)) with (tw (bnode d) + dw ds). rewrite IH by auto.
    rewrite <- (tw_inorder kw vw (bheight d)) by (apply (proj1 D1)). change (inorder (bnode d)) with (entries d). rewrite F1. reflexivity.
  Qed.

  (** ** The variables *)
  Lemma held_upd N (s : regs K V) r (m : bmap) : r < N -> held kw vw N (upd s r m) + lw (entries (s r)) = held kw vw N s + lw (entries m).
  Proof.
    intros H. unfold held. replace N with (r + S (N - S r)) by lia. rewrite seq_app, !map_app, !list_sum_app. cbn [seq map Nat.add].
    assert (G : forall l, ~ In r l -> map (fun i => lw (entries (upd s r m i))) l = map (fun i => lw (entries (s i))) l).
    { intros l Hl. apply map_ext_in. intros i Hi. unfold upd. destruct (Nat.eqb_spec i r) as [->|]; [contradiction|reflexivity]. }
    rewrite !G by (rewrite in_seq; lia). unfold upd. rewrite Nat.eqb_refl. unfold list_sum. cbn [fold_right]. lia.
  Qed.
  Lemma held_keep N (s : regs K V) r : held kw vw N (upd s r (s r)) = held kw vw N s.
  Proof. unfold held. f_equal. apply map_ext. intros i. unfold upd. destruct (Nat.eqb_spec i r) as [->|]; reflexivity. Qed.
End Steps.
