(** * LedgerRun: the books of every operation and of whole programs *)
From Coq Require Import List Arith Lia Bool Sorted Permutation.
From Verif Require Import Base MapSpec IterSpec BTreeModel BTreeInv BTreeLemmas BTreeSearch BTreeInsert BTreeRemove BTreeOps BTreeIterModel BTreeIterProofs
  BTreeBulkModel BTreeBorder BTreeSplit BTreeAppend BTreeClone BTreeWrites BTreeEntry BTreeRange BTreeCollect MergeSpec SpecFacts HistoryModel HistorySpec HistoryProofs
  LedgerModel LedgerSpec LedgerProofs LedgerBooks LedgerSteps Properties_BTree Properties_BTree2.
Import ListNotations.
Set Implicit Arguments.

Section Run.
  Variables (K V Q W : Type) (kw : K -> nat) (vw : V -> nat).
  Notation kv := (K * V)%type.
  Notation bmap := (bmap K V).
  Notation pw := (pw kw vw).
  Notation lw := (lw kw vw).
  Notation made := (made kw vw).
  Notation dropped := (dropped kw vw).
  Notation leaked := (leaked kw vw).
  Notation held := (held kw vw).
  Implicit Types (w : W).
  Variables (nalloc : bool -> W -> option reserve_error * W) (kclone : K -> W -> outcome reserve_error K * W) (vclone : V -> W -> outcome reserve_error V * W).
  Variables (cmp : K -> K -> comparison) (qcmp : Q -> Q -> comparison) (borrow : K -> Q).
  Hypothesis laws : ord_laws cmp.
  Hypothesis blaws : borrow_laws cmp qcmp borrow.
  Hypothesis kclone_same : forall k w k' w', kclone k w = (Ret k', w') -> cmp k k' = Eq.
  Variables (eqb : kv -> kv -> bool) (pcmp : kv -> kv -> option comparison).
  Notation lstep := (lstep nalloc cmp kclone vclone qcmp borrow eqb pcmp).
  Notation rep := (rep cmp).
  Notation gave_up := (gave_up cmp (no_memory nalloc)).

  Definition fine (N : nat) (c : op K V Q) (s : regs K V) (S : nat -> list kv) (res : outcome reserve_error (obs K V) * regs K V * list (fate K V) * W) : Prop :=
    let '(o, s', t, _) := res in
    o = Abort \/ o = UB \/ (balance kw vw N s c o s' t /\ (no_leak t \/ gave_up c S o)).

  Lemma remove_book q (m : bmap) : sound m -> cutq q (entries m) -> lw (entries m) = lw (s_remove q (entries m)) + ow pw (s_get q (entries m)).
  Proof.
    intros Hm Hq. pose proof (search_ok Hm Hq) as Hs. destruct (search q m) as [[hd|hd]|]; [| |contradiction].
    - destruct Hs as (_ & y & l & r & _ & Hy & -> & Hl & Hr). rewrite s_get_some, s_remove_some by auto. cbn [ow]. rewrite !lw_app, lw_cons. lia.
    - destruct Hs as (_ & _ & _ & l & r & _ & _ & -> & Hl & Hr). rewrite s_get_none, s_remove_none by auto. cbn [ow]. lia.
  Qed.

  Lemma quiet N c s S w o : taken kw vw c = 0 -> given kw vw c o = 0 -> fine N c s S (o, s, [], w).
  Proof.
    intros H1 H2. right. right. split; [|left; apply no_leak_nil]. unfold balance. rewrite H1, H2. cbn. lia.
  Qed.

  Lemma keep1 N c s S w o m t r : r < N ->
    lw (entries (s r)) + taken kw vw c + made t = lw (entries m) + given kw vw c o + dropped t + leaked t ->
    no_leak t \/ gave_up c S o -> fine N c s S (o, upd s r m, t, w).
  Proof.
    intros Hr HB Hn. right. right. split; auto. unfold balance. pose proof (held_upd kw vw s m Hr). lia.
  Qed.
  Lemma keep0 N c s S w o m r : r < N ->
    lw (entries (s r)) + taken kw vw c = lw (entries m) + given kw vw c o -> fine N c s S (o, upd s r m, [], w).
  Proof. intros Hr HB. apply keep1; [auto| |left; intros n []]. change (made []) with 0. change (dropped []) with 0. change (leaked []) with 0. lia. Qed.
  Lemma clean t : no_leak t -> leaked t = 0.
  Proof. apply no_leak_0. Qed.
  Lemma good_of c s S w : legal c -> rep s S -> good cmp qcmp borrow nalloc kclone vclone eqb pcmp c S (no_t (lstep c s w)).
  Proof using laws blaws kclone_same. intros H1 H2. rewrite lstep_erase. now apply step_good. Qed.

  Theorem step_books N c s S w : legal c -> rep s S -> within N c -> fine N c s S (lstep c s w).
  Proof using laws blaws kclone_same.
    intros Hleg Hrep Hin.
    destruct c as [r|r k v|r k v|r x|r x|r x|r x|r x|r x|r x f|r|r|r|r t|r x t|r t|r t|r l|r cs|r lo hi cs|r cs ws|r lo hi cs ws|r cs|r k f v|r k|r t|r t];
      try (now apply quiet); cbn [legal within] in Hleg, Hin; destruct (Hrep r) as [Hv Er].
    - (* New *) cbn [LedgerModel.lstep]. unfold l_assign. destruct (l_drop_one_book kw vw Hv) as (t & -> & T1 & T2 & T3). cbn [after app]. apply keep1; auto.
      rewrite T1, T2, (clean T3). change (entries (@new K V)) with (@nil kv). cbn [taken given]. rewrite lw_nil. lia.
    - (* Insert *) pose proof (good_of (Insert r k v) w I Hrep) as HG. cbn [LedgerModel.lstep] in *.
      pose proof (@try_insert_books K V kw vw W nalloc cmp laws k v (s r) w Hv) as HB.
      destruct (l_try_insert nalloc cmp k v (s r) w) as [[[o m] t] w']. cbn [no_t] in HG. destruct o as [old|e| | |]; try contradiction; cbn [booked fmap omap] in *.
      + apply keep1; auto; [|left; apply HB]. destruct HB as [Hn HB]. rewrite (clean Hn). cbn [taken given]. lia.
      + destruct HB as [Hn HB]. apply keep1; auto; [cbn [taken given]; lia|]. destruct Hn as [Hn|Hbig]; auto. right.
        destruct HG as [(S' & [[HG _]|(e' & HG & H1 & H2 & _)] & _)|HG]; [discriminate| |exact HG].
        exfalso. rewrite Er, H2 in Hbig. cbv in Hbig. lia.
    - (* Replace *) pose proof (good_of (Replace r k v) w I Hrep) as HG. cbn [LedgerModel.lstep] in *.
      pose proof (@replace_books K V kw vw W nalloc cmp laws k v (s r) w Hv) as HB.
      destruct (l_replace_key nalloc cmp k v (s r) w) as [[[o m] t] w']. cbn [no_t] in HG. destruct o as [old|e| | |]; try contradiction; cbn [booked fmap omap] in *.
      + apply keep1; auto; [|left; apply HB]. destruct HB as [Hn HB]. rewrite (clean Hn). cbn [taken given]. lia.
      + destruct HB as [Hn HB]. apply keep1; auto; [cbn [taken given]; lia|]. destruct Hn as [Hn|Hbig]; auto. right.
        destruct HG as [(S' & [[HG _]|(e' & HG & H1 & H2 & _)] & _)|HG]; [discriminate| |exact HG].
        exfalso. rewrite Er, H2 in Hbig. cbv in Hbig. lia.
    - (* Remove *) cbn [LedgerModel.lstep]. unfold l_remove. destruct Hv as [Hm Hs]. pose proof (cutq_sorted x blaws Hs) as Hq. pose proof (remove_entry_ok Hm Hq) as HR.
      unfold look. destruct (remove_entry (fun k => qcmp x (borrow k)) (s r)) as [o m]. destruct HR as (-> & _ & E & _). cbn [cast fmap omap].
      pose proof (remove_book Hm Hq) as HB. rewrite <- E in HB. destruct (s_get (fun k => qcmp x (borrow k)) (entries (s r))) as [y|]; cbn [option_map ow] in *.
      + destruct (one_k kw vw (fst y)) as (T1 & T2 & T3). apply keep1; auto. rewrite T1, T2, (clean T3). cbn [taken given ow]. unfold LedgerSpec.pw in HB. lia.
      + apply keep0; auto. cbn [taken given ow]. lia.
    - (* Take *) cbn [LedgerModel.lstep HistoryModel.step]. destruct Hv as [Hm Hs]. pose proof (cutq_sorted x blaws Hs) as Hq. pose proof (remove_entry_ok Hm Hq) as HR.
      unfold look. destruct (remove_entry (fun k => qcmp x (borrow k)) (s r)) as [o m]. destruct HR as (-> & _ & E & _). cbn [cast fmap omap].
      pose proof (remove_book Hm Hq) as HB. rewrite <- E in HB. apply keep0; auto. cbn [taken given ow]. lia.
    - (* GetMut *) cbn [LedgerModel.lstep]. pose proof Hv as [Hm Hs]. pose proof (cutq_sorted x blaws Hs) as Hq. pose proof (get_mut_ok Hm Hq) as HG. unfold look.
      destruct (s_get (fun k => qcmp x (borrow k)) (entries (s r))) as [y|].
      + destruct HG as (a & -> & Hp). cbn [cast]. destruct (l_write_book kw vw f Hm Hp) as (m' & -> & Hn & HB). apply keep1; auto. rewrite (clean Hn). cbn [taken given]. lia.
      + rewrite HG. cbn [cast]. apply quiet; reflexivity.
    - (* Clear *) cbn [LedgerModel.lstep]. unfold l_assign. destruct (l_drop_one_book kw vw Hv) as (t & -> & T1 & T2 & T3). cbn [after app]. apply keep1; auto.
      rewrite T1, T2, (clean T3). change (entries (clear (s r))) with (@nil kv). cbn [taken given]. rewrite lw_nil. lia.
    - (* Append *) cbn [LedgerModel.lstep]. destruct Hin as [Hin1 Hin2]. destruct (Hrep t) as [Hv2 _].
      pose proof (@l_append_books K V kw vw W nalloc cmp (s r) (s t) w (proj1 Hv) (proj1 Hv2)) as HB.
      destruct (l_append nalloc cmp (s r) (s t) w) as [[[[[o m] m2] mi] w'] hand].
      pose proof (held_upd kw vw s m Hin1) as H1. pose proof (held_upd kw vw (upd s r m) m2 Hin2) as H2.
      assert (Et : upd s r m t = s t) by (unfold upd; destruct (Nat.eqb_spec t r); congruence). rewrite Et in H2.
      assert (G : forall l o', lw (entries (s r)) + lw (entries (s t)) = lw (entries m) + lw (entries m2) + lw l ->
        fine N (Append r t) s S (o', upd (upd s r m) t m2, drops l, w')).
      { intros l o' Hl. destruct (drops_sum kw vw l) as (T1 & T2 & T3). right. right. split; [|left; apply no_leak_drops].
        unfold balance. rewrite T1, T2, T3. cbn [taken given]. lia. }
      destruct o; try contradiction.
      + destruct mi as [mi|].
        * destruct HB as (f1 & f2 & -> & -> & HB). apply G. rewrite !lw_app, !lw_nil. lia.
        * apply (G []). rewrite lw_nil. lia.
      + destruct HB as (mi' & l' & r' & f1 & f2 & -> & -> & -> & HB). apply G. rewrite !lw_app. lia.
    - (* SplitOff *) cbn [LedgerModel.lstep]. destruct Hin as [Hin1 Hin2]. destruct (Hrep t) as [Hv2 _]. destruct Hv as [Hm Hs].
      pose proof (cutq_sorted x blaws Hs) as Hq. pose proof (@split_off_ok K V W nalloc _ (s r) w Hm Hq) as HS. unfold look.
      destruct (split_off nalloc (fun k => qcmp x (borrow k)) (s r) w) as [[[o m] ds] w'] eqn:ES. destruct HS as [Hd HS]. destruct o as [m2|e| | |]; try contradiction.
      + destruct HS as (-> & _ & _ & Ee & _). destruct (l_drop_one_book kw vw Hv2) as (td & -> & T1 & T2 & T3). cbn [after].
        pose proof (held_upd kw vw s m Hin1) as H1. pose proof (held_upd kw vw (upd s r m) m2 Hin2) as H2.
        assert (Et : upd s r m t = s t) by (unfold upd; destruct (Nat.eqb_spec t r); congruence). rewrite Et in H2.
        right. right. split; [|now left]. unfold balance. rewrite T1, T2, (clean T3). cbn [taken given]. rewrite Ee, lw_app in H1. lia.
      + destruct HS as (-> & _). destruct (@l_drop_all_book K V kw vw ds Hd) as (td & -> & T1 & T2 & T3). cbn [after fmap omap].
        pose proof (@split_off_discards K V W nalloc (fun k => qcmp x (borrow k)) (s r) w) as HE. rewrite ES in HE. rewrite (empties_dw kw vw Hd HE) in T2.
        apply keep1; auto. rewrite T1, T2, (clean T3). cbn [taken given]. lia.
    - (* TryClone *) cbn [LedgerModel.lstep]. destruct Hin as [_ Hin]. destruct (Hrep t) as [Hv2 _].
      pose proof (@l_try_clone_book K V W kw vw nalloc kclone vclone cmp (s r) w Hv) as HB.
      destruct (l_try_clone nalloc kclone vclone (s r) w) as [[[o ds] tr] w']. destruct o as [m'|e| | |].
      + destruct HB as [Hn HB]. unfold l_assign. destruct (l_drop_one_book kw vw Hv2) as (td & -> & T1 & T2 & T3). cbn [after].
        apply keep1; auto; [|left; now apply no_leak_app]. rewrite made_app, dropped_app, leaked_app, T1, T2, (clean T3), (clean Hn). cbn [taken given]. lia.
      + destruct HB as (td & -> & Hn & HB). cbn [after fmap omap]. right. right. split; [|now left]. unfold balance. rewrite HB, (clean Hn). cbn [taken given]. lia.
      + destruct HB as (td & -> & Hn & HB). cbn [after fmap omap]. right. right. split; [|now left]. unfold balance. rewrite HB, (clean Hn). cbn [taken given]. lia.
      + destruct HB as (td & ->). now left.
      + destruct HB as (td & ->). right. now left.
    - (* Clone *) cbn [LedgerModel.lstep]. destruct Hin as [_ Hin]. destruct (Hrep t) as [Hv2 _].
      pose proof (@l_try_clone_book K V W kw vw nalloc kclone vclone cmp (s r) w Hv) as HB. unfold l_clone.
      destruct (l_try_clone nalloc kclone vclone (s r) w) as [[[o ds] tr] w']. destruct o as [m'|e| | |].
      + destruct HB as [Hn HB]. unfold l_assign. destruct (l_drop_one_book kw vw Hv2) as (td & -> & T1 & T2 & T3). cbn [after].
        apply keep1; auto; [|left; now apply no_leak_app]. rewrite made_app, dropped_app, leaked_app, T1, T2, (clean T3), (clean Hn). cbn [taken given]. lia.
      + destruct HB as (td & -> & Hn & HB). cbn [after fmap cast omap]. right. right. split; [|now left]. unfold balance. rewrite HB, (clean Hn). cbn [taken given]. lia.
      + destruct HB as (td & -> & Hn & HB). cbn [after fmap cast omap]. right. right. split; [|now left]. unfold balance. rewrite HB, (clean Hn). cbn [taken given]. lia.
      + destruct HB as (td & ->). now left.
      + destruct HB as (td & ->). right. now left.
    - (* Extend *) pose proof (good_of (Extend r l) w I Hrep) as HG. cbn [LedgerModel.lstep] in *.
      pose proof (@extend_books K V kw vw W nalloc cmp laws l (s r) w Hv) as HB.
      destruct (l_extend nalloc cmp l (s r) w) as [[[o m] t] w']. cbn [no_t] in HG. destruct o; try contradiction; cbn [cast fmap omap] in *.
      + destruct HB as [Hn HB]. apply keep1; auto. rewrite (clean Hn). cbn [taken given]. lia.
      + apply keep1; auto; [cbn [taken given]; lia|]. right. destruct HG as [(S' & [HG _] & _)|HG]; [discriminate|exact HG].
    - (* IterMut *) cbn [LedgerModel.lstep]. pose proof Hv as [((Hb1 & Hb2) & Hss & Hl) Hs]. pose proof (kids_shape _ _ _ Hb2) as Hsh.
      destruct (map_iter_ok (s r) Hsh Hl) as (it & -> & Hok). destruct (iter_calls cs Hok) as (outs & it' & a & b & -> & _ & _ & Hpt). cbn [cast].
      rewrite pairs_chosen. destruct (@l_write_all_book K V kw vw cmp laws (pairs_of outs ws) (s r) Hv (pairs_place (s r) outs ws Hpt)) as (m' & t & -> & Hn & HB).
      apply keep1; auto. rewrite (clean Hn). cbn [taken given]. lia.
    - (* RangeMut *) cbn [LedgerModel.lstep]. pose proof Hv as [((Hb1 & Hb2) & Hss & Hl) Hs]. pose proof (kids_shape _ _ _ Hb2) as Hsh.
      destruct (map_range_ok blaws lo hi (s r) Hsh Hs) as [R1 R2]. destruct (bad_dec qcmp lo hi) as [Hb|Hb].
      + rewrite (R1 Hb). cbn [cast fmap omap]. apply quiet; reflexivity.
      + destruct (R2 Hb) as (it & a & b & -> & Hbt & Es). destruct (range_calls cs Hbt) as (outs & r' & a' & b' & -> & _ & _ & Hpt). cbn [cast].
        rewrite pairs_chosen. destruct (@l_write_all_book K V kw vw cmp laws (pairs_of outs ws) (s r) Hv (pairs_place (s r) outs ws Hpt)) as (m' & t & -> & Hn & HB).
        apply keep1; auto. rewrite (clean Hn). cbn [taken given]. lia.
    - (* IntoIter *) cbn [LedgerModel.lstep]. destruct (C30_into_iter cs Hv) as (it & outs & it' & dr & fr & -> & -> & Ed & _ & HP & _). cbn [cast]. rewrite Ed.
      destruct (drops_sum kw vw dr) as (T1 & T2 & T3). apply keep1; [auto| |left; apply no_leak_drops]. rewrite T1, T2, T3.
      apply (lw_perm kw vw) in HP. rewrite lw_app in HP. change (entries (@new K V)) with (@nil kv). cbn [taken given]. rewrite lw_nil.
      assert (G : list_sum (map (ow pw) outs) = lw (somes outs)).
      { clear. induction outs as [|[x|] outs IH]; [reflexivity|..]; [change (pw x + list_sum (map (ow pw) outs) = pw x + lw (somes outs)); lia|exact IH]. }
      lia.
    - (* EntryOr *) pose proof (good_of (EntryOr r k f v) w I Hrep) as HG. cbn [LedgerModel.lstep] in *. 
      pose proof (try_entry_stands laws nalloc k w Hv) as HE. rewrite <- l_entry_erase in HE. pose proof (entry_trace nalloc cmp k (s r) w) as HT.
      destruct (l_try_entry nalloc cmp k (s r) w) as [[[o m1] t] w1]. cbn [no_t] in HE. destruct o as [[hd|k' hd]|e| | |]; try contradiction.
      + destruct HE as (_ & Hst & _ & _ & -> & ->). subst t. destruct (@occupied_books K V kw vw cmp (s r) k hd (write_val f) Hv Hst) as (x & m' & E1 & E2 & E3 & E4).
        assert (G : forall y, fine N (EntryOr r k f v) s S (Ret (OVal K y), upd s r m', [KDrop k] ++ l_write (bnode (s r)) (haddr hd) f ++ [VDrop v], w)).
        { intros y. unfold l_write. rewrite E2. destruct (one_app (one_k kw vw k) (one_app (one_write kw vw (snd x) (f (snd x))) (one_v kw vw v))) as (T1 & T2 & T3).
          apply keep1; auto. rewrite T1, T2, (clean T3). cbn [taken given]. unfold LedgerSpec.pw, write_val in E4. cbn [fst snd] in E4. lia. }
        destruct (@and_modify_stands K V cmp laws (s r) k (Occupied hd) f Hv Hst) as (en' & m2 & Ea & Hv2 & Hst2 & E5 & _ & Hen). rewrite Ea. rewrite Ea in HG.
        assert (Em : m2 = m').
        { unfold and_modify in Ea. rewrite E3 in Ea. destruct (pick (hi hd) (kvs (hn hd))) as [[[a y] z]|]; [|discriminate]. now inversion Ea. }
        subst m2. destruct en' as [hd'|]; [|contradiction]. destruct Hst2 as (Hok2 & x2 & Ex2 & _). cbn [or_try_insert_with]. rewrite Ex2.
        destruct (hok_placed m' Hok2 Ex2) as [-> _]. apply G.
      + destruct HT as [-> ->]. destruct HE as (Hv1 & Hst & E & _). pose proof (@vacant_books K V kw vw W nalloc cmp laws m1 k hd v w1 Hv1 Hst) as HB.
        destruct (l_vacant_insert nalloc m1 k hd v w1) as [[[o3 m3] t3] w3]. rewrite E in HB. cbn [app no_t] in *. destruct o3 as [a|e| | |]; try contradiction.
        * destruct HB as [-> HB]. destruct (kv_at (bnode m3) a); [|right; now left]. apply keep0; auto. cbn [taken given]. lia.
        * destruct HB as (Hbig & T1 & HB). cbn [fmap omap] in *. apply keep1; auto; [rewrite T1; cbn [taken given]; lia|]. right.
          destruct HG as [(S' & HG & _)|HG]; [|exact HG]. cbn [HistorySpec.spec] in HG. destruct (s_get (cmp k) (S r)) eqn:Eg; [destruct HG; discriminate|].
          destruct HG as [[HG _]|(e' & HG & Hm & _)]; [discriminate|]. exists e'. split; [exact HG|]. split; [exact Hm|]. split; [exact Eg|]. rewrite <- Er. exact Hbig.
      + subst t. destruct HE as (_ & -> & _). destruct (one_kv kw vw k v) as (T1 & T2 & T3). cbn [app]. apply keep1; [auto| |now left]. rewrite T1, T2, (clean T3). cbn [taken given]. lia.
    - (* EntryRemove *) cbn [LedgerModel.lstep] in *. 
      pose proof (try_entry_stands laws nalloc k w Hv) as HE. rewrite <- l_entry_erase in HE. pose proof (entry_trace nalloc cmp k (s r) w) as HT.
      destruct (l_try_entry nalloc cmp k (s r) w) as [[[o m1] t] w1]. cbn [no_t] in HE. destruct (one_k kw vw k) as (T1 & T2 & T3). destruct o as [[hd|k' hd]|e| | |]; try contradiction.
      + destruct HE as (_ & Hst & _ & _ & -> & ->). subst t. destruct (remove_at_stands laws Hv Hst) as (x & m' & Eg & -> & _ & E2 & _). cbn [cast fmap omap].
        apply keep1; auto. rewrite T1, T2, (clean T3). cbn [taken given ow]. rewrite E2.
        assert (Hq : cutq (cmp k) (entries (s r))) by (apply cutq_key; auto; apply Hv).
        pose proof (remove_book (proj1 Hv) Hq) as HB. rewrite Eg in HB. cbn [ow] in HB. lia.
      + destruct HT as [-> ->]. destruct HE as (_ & _ & E & _). cbn [app]. apply keep1; auto. rewrite T1, T2, (clean T3), E. cbn [taken given ow]. lia.
      + subst t. destruct HE as (_ & -> & _). cbn [fmap omap]. apply keep1; [auto| |now left]. rewrite T1, T2, (clean T3). cbn [taken given ow]. lia.
  Qed.

  Lemma gave_up_refused (c : op K V Q) S o : gave_up c S o -> refused_op (no_memory nalloc) c o.
  Proof.
    destruct c; cbn [HistorySpec.gave_up refused_op]; auto; intros (e & H1 & H2 & _); exists e; auto.
  Qed.
  Notation lrun := (lrun nalloc cmp kclone vclone qcmp borrow eqb pcmp).
  Theorem run_books N ops : forall s S w, Forall (@legal K V Q) ops -> Forall (within N) ops -> rep s S -> kept kw vw (no_memory nalloc) N s ops (lrun ops s w).
  Proof using laws blaws kclone_same.
    induction ops as [|c l IH]; intros s S w HL HN H; cbn [LedgerModel.lrun]; [constructor|].
    inversion HL as [|? ? Hc HL']; subst. inversion HN as [|? ? Hn HN']; subst. pose proof (@good_of c s S w Hc H) as HG. pose proof (@step_books N c s S w Hc H Hn) as HB.
    destruct (lstep c s w) as [[[o s'] t] w']. cbn [no_t good fine] in *. destruct HB as [->|[->|[HB Hleak]]]; [apply Kept_dead; auto..|].
    destruct HG as [(S' & _ & Hr)|HG]; [|apply Kept_refused; eauto using gave_up_refused].
    destruct Hleak as [Hnl|HG]; [|apply Kept_refused; eauto using gave_up_refused].
    destruct o; try (apply Kept_step; auto; try discriminate; now apply (IH s' S')); apply Kept_dead; auto.
  Qed.

  (** sums over a whole run *)
  Definition sum_made (tr : list (outcome reserve_error (obs K V) * regs K V * list (fate K V))) : nat := list_sum (map (fun r => made (snd r)) tr).
  Definition sum_dropped (tr : list (outcome reserve_error (obs K V) * regs K V * list (fate K V))) : nat := list_sum (map (fun r => dropped (snd r)) tr).
  Definition sum_given (ops : list (op K V Q)) (tr : list (outcome reserve_error (obs K V) * regs K V * list (fate K V))) : nat :=
    list_sum (map (fun p => given kw vw (fst p) (fst (fst (snd p)))) (combine ops tr)).
  Definition last_regs (s : regs K V) (tr : list (outcome reserve_error (obs K V) * regs K V * list (fate K V))) : regs K V :=
    fold_left (fun _ r => snd (fst r)) tr s.

  Lemma kept_sum N s ops tr : kept kw vw (no_memory nalloc) N s ops tr -> Forall (@undisturbed K V Q) (combine ops tr) ->
    length tr = length ops /\ Forall (fun r => no_leak (snd r)) tr /\
    held N s + list_sum (map (taken kw vw) ops) + sum_made tr = held N (last_regs s tr) + sum_given ops tr + sum_dropped tr.
  Proof.
    unfold sum_made, sum_dropped, sum_given, last_regs.
    induction 1 as [s|s c l o s' t rest HB Hn Ha Hu HK IH|s c l o s' t Hd|s c l o s' t rest HR HB]; intros HU.
    - repeat split; auto; cbn; lia.
    - cbn [combine] in HU. inversion HU as [|? ? _ HU']; subst. destruct (IH HU') as (I1 & I2 & I3). cbn [length combine map list_sum fold_right fold_left fst snd]. unfold balance in HB.
      rewrite (clean Hn) in HB. split; [lia|]. split; [now constructor|]. unfold list_sum in *. lia.
    - cbn [combine] in HU. inversion HU as [|? ? U _]; subst; destruct U as (U1 & U2 & _). destruct Hd; contradiction.
    - cbn [combine] in HU. inversion HU as [|? ? U _]; subst; destruct U as (U1 & U2 & U3). exfalso.
      destruct c; cbn [refused_op] in HR; try contradiction; try (destruct HR as (e & HR & _); exact (U3 _ HR)); destruct HR as [HR _]; contradiction.
  Qed.
  Notation trace := (list (outcome reserve_error (obs K V) * regs K V * list (fate K V))).
  Lemma lrun_app a b : forall s w, Forall (@undisturbed K V Q) (combine (a ++ b) (lrun (a ++ b) s w)) ->
    exists w' : W, lrun (a ++ b) s w = lrun a s w ++ lrun b (last_regs s (lrun a s w)) w' /\ length (lrun a s w) = length a.
  Proof.
    induction a as [|c a IH]; intros s w HU; [exists w; auto|]. cbn [app LedgerModel.lrun length] in *.
    destruct (lstep c s w) as [[[o s'] t] w']. cbn [combine] in HU. inversion HU as [|? ? U HU']; subst; destruct U as (U1 & U2 & _).
    assert (E : forall A (x y : A), match o with Abort | UB => x | _ => y end = y) by (intros; destruct o; congruence).
    rewrite E in HU'. rewrite !E. destruct (IH s' w' HU') as (w'' & -> & El). exists w''. split; [reflexivity|]. cbn [length]. now rewrite El.
  Qed.
  Lemma news_clear l : forall s w i, Forall (@undisturbed K V Q) (combine (map (@New K V Q) l) (lrun (map (@New K V Q) l) s w)) -> In i l \/ entries (s i) = [] ->
    entries (last_regs s (lrun (map (@New K V Q) l) s w) i) = [].
  Proof.
    induction l as [|r l IH]; intros s w i HU Hi; [destruct Hi as [[]|Hi]; exact Hi|]. cbn [map LedgerModel.lrun LedgerModel.lstep] in *. unfold l_assign in *.
    destruct (l_drop_all [s r]) as [o d]. cbn [combine] in HU. inversion HU as [|? ? U HU']; subst; destruct U as (U1 & U2 & _).
    assert (E : forall A (x y : A), match after o (Ret (@OUnit K V)) with Abort | UB => x | _ => y end = y) by (intros; destruct (after o (Ret OUnit)); congruence).
    rewrite E in *. cbn [last_regs fold_left fst snd]. apply IH; auto. unfold upd. destruct (Nat.eqb_spec i r) as [->|Hne]; [now right|].
    destruct Hi as [[Hi|Hi]|Hi]; [congruence|now left|now right].
  Qed.
  Lemma last_app (s : regs K V) (a b : trace) : last_regs s (a ++ b) = last_regs (last_regs s a) b.
  Proof. unfold last_regs. apply fold_left_app. Qed.
  Lemma ends_empty N ops s w : Forall (@undisturbed K V Q) (combine (to_the_end N ops) (lrun (to_the_end N ops) s w)) ->
    forall i, i < N -> entries (last_regs s (lrun (to_the_end N ops) s w) i) = [].
  Proof.
    unfold to_the_end. intros HU i Hi. destruct (lrun_app _ _ _ _ HU) as (w' & E & El). rewrite E in *. rewrite last_app.
    apply news_clear; [|left; apply in_seq; lia].
    clear - HU El. revert HU. generalize (lrun (map (@New K V Q) (seq 0 N)) (last_regs s (lrun ops s w)) w'). revert El. generalize (lrun ops s w).
    induction ops as [|c l IH]; intros a El b HU; destruct a as [|x a]; try discriminate; cbn [app combine] in *; auto. inversion HU; subst. apply (IH a); auto.
  Qed.
  Lemma held_0 N (s : regs K V) : (forall i, i < N -> entries (s i) = []) -> held N s = 0.
  Proof.
    intros H. unfold LedgerSpec.held. assert (E : map (fun r => lw (entries (s r))) (seq 0 N) = map (fun _ => 0) (seq 0 N)).
    { apply map_ext_in. intros i Hi. apply in_seq in Hi. rewrite H by lia. reflexivity. }
    rewrite E. clear. induction (seq 0 N); cbn; auto.
  Qed.
  Theorem exactly_once N ops w : Forall (@legal K V Q) ops -> Forall (within N) ops ->
    Forall (@undisturbed K V Q) (combine (to_the_end N ops) (lrun (to_the_end N ops) (fun _ => new) w)) ->
    length (lrun (to_the_end N ops) (fun _ => new) w) = length (to_the_end N ops) /\
    Forall (fun r => no_leak (snd r)) (lrun (to_the_end N ops) (fun _ => new) w) /\
    list_sum (map (taken kw vw) (to_the_end N ops)) + sum_made (lrun (to_the_end N ops) (fun _ => new) w) =
    sum_given (to_the_end N ops) (lrun (to_the_end N ops) (fun _ => new) w) + sum_dropped (lrun (to_the_end N ops) (fun _ => new) w).
  Proof using laws blaws kclone_same.
    intros HL HN HU.
    assert (HL' : Forall (@legal K V Q) (to_the_end N ops)).
    { apply Forall_app. split; auto. apply Forall_forall. intros c Hc. apply in_map_iff in Hc. destruct Hc as (r & <- & _). exact I. }
    assert (HN' : Forall (within N) (to_the_end N ops)).
    { apply Forall_app. split; auto. apply Forall_forall. intros c Hc. apply in_map_iff in Hc. destruct Hc as (r & <- & Hr). apply in_seq in Hr. cbn. lia. }
    assert (HR : rep (fun _ => new) (fun _ : nat => @nil kv)) by (intros r; apply new_ok).
    destruct (kept_sum (@run_books N (to_the_end N ops) (fun _ => new) (fun _ => []) w HL' HN' HR) HU) as (H1 & H2 & H3).
    split; auto. split; auto. pose proof (@held_0 N _ (@ends_empty N ops _ w HU)) as E1. pose proof (@held_0 N (fun _ => new) (fun _ _ => eq_refl)) as E2. lia.
  Qed.
End Run.

(** ** With lists instead of weights *)
Section Counting.
  Variables (K V Q : Type).
  Variables (kdec : forall a b : K, {a = b} + {a <> b}) (vdec : forall a b : V, {a = b} + {a <> b}).
  Definition kind (k k' : K) : nat := if kdec k' k then 1 else 0.
  Definition vind (v v' : V) : nat := if vdec v' v then 1 else 0.
  Definition zero {A} (a : A) : nat := 0.

  Lemma count_sum A (dec : forall a b : A, {a = b} + {a <> b}) l x : count_occ dec l x = list_sum (map (fun a => if dec a x then 1 else 0) l).
  Proof. induction l as [|a l IH]; [reflexivity|]. cbn [count_occ map]. unfold list_sum in *. cbn [fold_right]. destruct (dec a x); rewrite IH; reflexivity. Qed.
  Lemma lw_k k (l : list (K * V)) : lw (kind k) zero l = count_occ kdec (map fst l) k.
  Proof. rewrite count_sum, map_map. unfold lw, pw, kind, zero. f_equal. apply map_ext. intros x. apply Nat.add_0_r. Qed.
  Lemma lw_v v (l : list (K * V)) : lw zero (vind v) l = count_occ vdec (map snd l) v.
  Proof. rewrite count_sum, map_map. unfold lw, pw, vind, zero. f_equal. Qed.
  Lemma count_flat A B (dec : forall a b : A, {a = b} + {a <> b}) (f : B -> list A) l x : count_occ dec (flat_map f l) x = list_sum (map (fun b => count_occ dec (f b) x) l).
  Proof. induction l as [|a l IH]; [reflexivity|]. cbn [flat_map map]. rewrite count_occ_app, IH. reflexivity. Qed.
  Lemma made_k k (t : list (fate K V)) : made (kind k) zero t = count_occ kdec (k_made t) k.
  Proof. unfold k_made. rewrite count_flat. unfold made. f_equal. apply map_ext. intros []; cbn; auto; unfold kind; now destruct (kdec _ _). Qed.
  Lemma made_v v (t : list (fate K V)) : made zero (vind v) t = count_occ vdec (v_made t) v.
  Proof. unfold v_made. rewrite count_flat. unfold made. f_equal. apply map_ext. intros []; cbn; auto; unfold vind; now destruct (vdec _ _). Qed.
  Lemma dropped_k k (t : list (fate K V)) : dropped (kind k) zero t = count_occ kdec (k_dropped t) k.
  Proof. unfold k_dropped. rewrite count_flat. unfold dropped. f_equal. apply map_ext. intros []; cbn; auto; unfold kind; now destruct (kdec _ _). Qed.
  Lemma dropped_v v (t : list (fate K V)) : dropped zero (vind v) t = count_occ vdec (v_dropped t) v.
  Proof. unfold v_dropped. rewrite count_flat. unfold dropped. f_equal. apply map_ext. intros []; cbn; auto; unfold vind; now destruct (vdec _ _). Qed.
  Lemma taken_k k (c : op K V Q) : taken (kind k) zero c = count_occ kdec (fst (in_ c)) k.
  Proof. destruct c; cbn [taken in_ fst]; auto; try apply lw_k; cbn; unfold kind, zero; destruct (kdec _ _); reflexivity. Qed.
  Lemma taken_v v (c : op K V Q) : taken zero (vind v) c = count_occ vdec (snd (in_ c)) v.
  Proof. destruct c; cbn [taken in_ snd]; auto; try apply lw_v; cbn; unfold vind, zero; destruct (vdec _ _); reflexivity. Qed.
  Lemma outs_k k (l : list (option (K * V))) : list_sum (map (ow (pw (kind k) zero)) l) = count_occ kdec (map fst (somes l)) k.
  Proof. rewrite <- lw_k. unfold lw. induction l as [|[x|] l IH]; cbn [somes map ow]; auto. unfold list_sum in *. cbn [fold_right]. now rewrite IH. Qed.
  Lemma outs_v v (l : list (option (K * V))) : list_sum (map (ow (pw zero (vind v))) l) = count_occ vdec (map snd (somes l)) v.
  Proof. rewrite <- lw_v. unfold lw. induction l as [|[x|] l IH]; cbn [somes map ow]; auto. unfold list_sum in *. cbn [fold_right]. now rewrite IH. Qed.
  Lemma one_k' k (x : option (K * V)) : ow (pw (kind k) zero) x = count_occ kdec (map fst (one_of x)) k.
  Proof. destruct x as [x|]; cbn; auto; unfold pw, kind, zero; destruct (kdec _ _); reflexivity. Qed.
  Lemma one_v' v (x : option (K * V)) : ow (pw zero (vind v)) x = count_occ vdec (map snd (one_of x)) v.
  Proof. destruct x as [x|]; cbn; auto; unfold pw, vind, zero; destruct (vdec _ _); reflexivity. Qed.
  Lemma given_k k (c : op K V Q) o : given (kind k) zero c o = count_occ kdec (fst (out c o)) k.
  Proof.
    destruct c, o as [[]| | | |]; cbn [given out fst]; auto; try apply outs_k; try apply one_k'; try (destruct v0; reflexivity); try (destruct v; reflexivity);
      destruct k1; cbn; auto; unfold kind; destruct (kdec _ _); reflexivity.
  Qed.
  Lemma given_v v (c : op K V Q) o : given zero (vind v) c o = count_occ vdec (snd (out c o)) v.
  Proof.
    destruct c, o as [[]| | | |]; cbn [given out snd]; auto; try apply outs_v; try apply one_v'; 
      match goal with |- context [ow _ ?x] => destruct x end; cbn; auto; unfold vind; destruct (vdec _ _); reflexivity.
  Qed.
End Counting.
