(** * BTreeSplit: split_off *)
From Coq Require Import List Arith Lia Bool Sorted.
From Verif Require Import Base MapSpec BTreeModel BTreeIterModel BTreeBulkModel BTreeInv BTreeLemmas BTreeSearch BTreeSurgery BTreeIter BTreeBorder.
Import ListNotations.
Set Implicit Arguments.

Section Split.
  Variables (K V : Type).
  Notation node := (node K V).
  Notation frame := (frame K V).
  Notation bmap := (bmap K V).
  Implicit Types (n l r e : node) (q : K -> comparison) (m : bmap).

  (** a path of nodes without pairs above an empty leaf *)
  Fixpoint chain (h : nat) (n : node) : Prop :=
    match h with
    | 0 => n = empty_leaf
    | S h' => exists e, n = Node [] [e] /\ chain h' e
    end.
  Lemma chain_kids h : forall n, chain h n -> kids any h n /\ nlen n = 0 /\ inorder n = [].
  Proof.
    induction h as [|h IH]; intros n H.
    - cbn [chain] in H. subst. repeat split.
    - destruct H as (e & -> & He). destruct (IH e He) as (H1 & H2 & H3). split; [|split; [reflexivity|]].
      + rewrite kids_S. cbn [edges]. split; [reflexivity|]. constructor; [|constructor]. split; [exact I|auto].
      + rewrite inorder_eq. simpl. now rewrite H3.
  Qed.
  Lemma chain_rb P h : forall n, chain h n -> rb P h n.
  Proof.
    induction h as [|h IH]; intros n H; cbn [chain rb] in *.
    - now subst.
    - destruct H as (e & -> & He). exists [], e. cbn [edges app]. destruct (chain_kids h e He) as (_ & Hn & _).
      split; auto. split; auto. split; [constructor|]. split; [lia|auto].
  Qed.

  Section Alloc.
    Variable W : Type.
    Variable nalloc : bool -> W -> option reserve_error * W.

    Lemma push_levels_ok h : forall n hn w, chain hn n ->
      let '(o, (n', h'), w') := push_levels nalloc h n hn w in
      chain h' n' /\
      match o with
      | Ret c => chain (hn + h) c
      | Err e => exists i w0, nalloc i w0 = (Some e, w')
      | Panic => False | Abort => False | UB => False
      end.
    Proof.
      induction h as [|h IH]; intros n hn w Hc; cbn [push_levels].
      - rewrite Nat.add_0_r. auto.
      - unfold push_level. destruct (nalloc true w) as [[er|] w'] eqn:E.
        + split; auto. exists true, w. auto.
        + specialize (IH (Node [] [n]) (S hn) w'). replace (hn + S h) with (S hn + h) by lia. apply IH.
          cbn [chain]. eauto.
    Qed.
  End Alloc.

  Definition notgt q (l : list (K * V)) : Prop := Forall (fun x => q (fst x) <> Gt) l.

  Lemma cutq_app q (l1 l2 : list (K * V)) : cutq q (l1 ++ l2) -> cutq q l1 /\ cutq q l2.
  Proof. intros H. apply StronglySorted_app in H. tauto. Qed.

  Lemma wr_notgt q ks (es : list (list (K * V))) : cutq q (wr ks es) -> length ks = length es ->
    (ks = [] \/ exists x z, ks = x :: z /\ q (fst x) <> Gt) -> notgt q (wr ks es).
  Proof.
    intros Hc Hl [->|(x & z & -> & Hx)]; [constructor|]. destruct es as [|e es]; [constructor|]. cbn [wr] in *.
    constructor; auto. apply (@cutq_lt K V q [] x) in Hc; auto. eapply Forall_impl; [|exact Hc]. simpl. congruence.
  Qed.
  Lemma wl_gt q (es : list (list (K * V))) ks : cutq q (wl es ks) -> allq q Gt ks -> length es = length ks -> allq q Gt (wl es ks).
  Proof.
    revert ks. induction es as [|e es IH]; intros [|k ks] Hc Hk Hl; try discriminate; [constructor|]. cbn [wl] in *.
    inversion Hk; subst. apply allq_app. split.
    - eapply cutq_gt; [exact Hc|congruence].
    - constructor; auto. apply IH; auto. apply StronglySorted_app in Hc. destruct Hc as (_ & Hc & _). now inversion Hc.
  Qed.

  Lemma search_linear_cut q (l : list (K * V)) : exists a z, l = a ++ z /\ length a = fst (search_linear q l) /\ allq q Gt a /\
    (z = [] \/ exists x z', z = x :: z' /\ q (fst x) <> Gt).
  Proof.
    destruct (search_linear q l) as [i b] eqn:E. apply search_linear_ok in E. destruct E as (a & z & -> & Hl & Ha & Hb).
    exists a, z. split; auto. split; auto. split; auto. destruct b.
    - destruct Hb as (x & z' & -> & Hx). right. exists x, z'. split; auto. congruence.
    - destruct Hb as [->|(x & z' & -> & Hx)]; auto. right. exists x, z'. split; auto. congruence.
  Qed.

  Lemma split_loop_ok q h : forall l r, kids fair h l -> nlen l <= CAPACITY -> chain h r -> cutq q (inorder l) ->
    exists l' r', split_loop q h l r = Some (l', r') /\
      rb fair h l' /\ nlen l' <= CAPACITY /\ lb fair h r' /\ nlen r' <= CAPACITY /\
      inorder l = inorder l' ++ inorder r' /\ allq q Gt (inorder l') /\ notgt q (inorder r').
  Proof.
    induction h as [|h IH]; intros l r Hk Hcap Hch Hq.
    - cbn [chain] in Hch. subst r. cbn [kids] in Hk. rewrite inorder_eq, Hk in Hq. cbn [map weave] in Hq.
      destruct (search_linear_cut q (kvs l)) as (a & z & Ekv & Hl & Ha & Hz).
      cbn [split_loop]. rewrite <- Hl. unfold move_suffix. change (nlen empty_leaf) with 0. cbn [Nat.eqb negb].
      unfold nlen in *. rewrite Ekv, app_length in *.
      destruct (Nat.ltb_spec (length a + length z) (length a)) as [Hlt|_]; [lia|]. cbn [orb].
      rewrite Hk, firstn_nil, skipn_nil, firstn_app_len, skipn_app_len by auto. cbn [edges empty_leaf firstn app].
      exists (Node a []), (Node z []). split; auto. cbn [rb lb edges kvs]. rewrite !inorder_leaf.
      split; auto. split; [lia|]. split; auto. split; [lia|].
      split; [rewrite inorder_eq, Hk, Ekv; reflexivity|]. split; auto.
      destruct Hz as [->|(x & z' & -> & Hx)]; [constructor|]. constructor; auto.
      apply (@cutq_lt K V q a x z') in Hq; auto. eapply Forall_impl; [|exact Hq]. simpl. congruence.
    - destruct Hch as (e0 & -> & Hch). pose proof Hk as Hk0. rewrite kids_S in Hk. destruct Hk as [Hle Hfe].
      destruct (search_linear_cut q (kvs l)) as (a & z & Ekv & Hl & Ha & Hz).
      cbn [split_loop]. rewrite <- Hl. unfold move_suffix. change (nlen (Node [] [e0])) with 0. cbn [Nat.eqb negb].
      unfold nlen in *. rewrite Ekv, app_length in *.
      destruct (Nat.ltb_spec (length a + length z) (length a)) as [Hlt|_]; [lia|]. cbn [orb].
      destruct (@pick_lt _ (length a) (edges l)) as (es1 & e & es2 & Ep); [lia|].
      apply pick_some in Ep. destruct Ep as [Ee Hes1]. rewrite Ee in *. rewrite app_length in Hle. cbn [length] in Hle.
      assert (Hf1 : firstn (length a + 1) (es1 ++ e :: es2) = es1 ++ [e]).
      { change (e :: es2) with ([e] ++ es2). rewrite app_assoc. apply firstn_app_len. rewrite app_length. simpl. lia. }
      assert (Hf2 : skipn (length a + 1) (es1 ++ e :: es2) = es2).
      { change (e :: es2) with ([e] ++ es2). rewrite app_assoc. apply skipn_app_len. rewrite app_length. simpl. lia. }
      rewrite Hf1, Hf2, firstn_app_len, skipn_app_len by auto. cbn [edges firstn app].
      assert (Hd1 : descend (Node a (es1 ++ [e])) (length a) = Some (e, Frame a es1 [])).
      { unfold descend. cbn [edges kvs]. rewrite pick_app' by auto. reflexivity. }
      assert (Hd2 : descend (Node z (e0 :: es2)) 0 = Some (e0, Frame z [] es2)) by reflexivity.
      rewrite Hd1, Hd2.
      apply Forall_app in Hfe. destruct Hfe as [Hs1 Hs2]. inversion Hs2 as [|? ? [He1 He2] Hs3]; subst.
      assert (Ei : inorder l = wl (map (@inorder K V) es1) a ++ inorder e ++ wr z (map (@inorder K V) es2)).
      { rewrite inorder_eq, Ekv, Ee, map_app. cbn [map]. apply weave_split; rewrite map_length; lia. }
      rewrite Ei in Hq. destruct (cutq_app _ _ Hq) as [Hq1 Hq']. destruct (cutq_app _ _ Hq') as [Hq2 Hq3].
      destruct (IH e e0 He2) as (l' & r' & E & R1 & C1 & R2 & C2 & I1 & G1 & G2); auto; [apply fair_cap; auto|].
      rewrite E. eexists _, _. split; [reflexivity|].
      assert (F1 : frame_ok (Frame a es1 [])) by (unfold frame_ok; cbn [fk fl fr length]; lia).
      assert (F2 : frame_ok (Frame z [] es2)) by (unfold frame_ok; cbn [fk fl fr length]; lia).
      rewrite !inorder_fill by auto. unfold before, after, fidx. cbn [fk fl fr length firstn skipn map wl].
      rewrite firstn_all2 by lia. rewrite skipn_all2 by lia. cbn [wr]. rewrite app_nil_r. cbn [app].
      split; [|split; [|split; [|split; [|split; [|split]]]]].
      + cbn [rb]. exists es1, l'. unfold fill, nlen. cbn [edges kvs fk fl fr]. repeat (split; auto).
      + unfold fill. cbn [kvs fk]. lia.
      + cbn [lb]. exists r', es2. unfold fill, nlen. cbn [edges kvs fk fl fr app]. repeat (split; auto).
      + unfold fill. cbn [kvs fk]. lia.
      + rewrite Ei, I1, <- !app_assoc. reflexivity.
      + apply allq_app. split; auto. apply wl_gt; auto. rewrite map_length. lia.
      + apply Forall_app. split; auto. apply wr_notgt; auto. rewrite map_length. lia.
  Qed.

  Lemma below_from q (l1 l2 : list (K * V)) : allq q Gt l1 -> notgt q l2 ->
    s_below q (l1 ++ l2) = l1 /\ s_from q (l1 ++ l2) = l2.
  Proof.
    intros H1 H2. unfold s_below, s_from. rewrite !filter_app.
    assert (E1 : Forall (fun x => smaller q x = true) l1).
    { eapply Forall_impl; [|exact H1]. unfold smaller. simpl. intros e ->. reflexivity. }
    assert (E2 : Forall (fun x => smaller q x = false) l2).
    { eapply Forall_impl; [|exact H2]. unfold smaller. simpl. intros e He. destruct (q (fst e)); congruence. }
    rewrite (filter_all _ E1), (filter_nothing _ E2).
    rewrite (@filter_nothing _ (fun x => negb (smaller q x)) l1), (@filter_all _ (fun x => negb (smaller q x)) l2).
    - rewrite app_nil_r. auto.
    - eapply Forall_impl; [|exact E2]. simpl. intros e ->. reflexivity.
    - eapply Forall_impl; [|exact E1]. simpl. intros e ->. reflexivity.
  Qed.

  Section Alloc2.
    Variable W : Type.
    Variable nalloc : bool -> W -> option reserve_error * W.

    (** the discarded maps are well shaped and their length is exact: their
        destructor is safe *)
    Definition droppable m : Prop :=
      shape (bheight m) (bnode m) /\ blen m = length (entries m) /\ (bshared m = true -> bnode m = empty_leaf /\ bheight m = 0).

    Lemma new_droppable : droppable new.
    Proof. split; [reflexivity|]. split; [reflexivity|]. auto. Qed.
    Lemma new_sound : sound (@new K V).
    Proof.
      split; [|split; [auto|reflexivity]]. split; [|reflexivity]. split; [apply Nat.le_0_l|]. cbn [bheight new]. lia.
    Qed.

    Lemma split_off_ok q m w : sound m -> cutq q (entries m) ->
      let '(o, m', ds, w') := split_off nalloc q m w in
      Forall droppable ds /\
      match o with
      | Ret m2 => ds = [] /\ sound m' /\ sound m2 /\ entries m = entries m' ++ entries m2 /\
                  allq q Gt (entries m') /\ notgt q (entries m2)
      | Err e => m' = m /\ exists i w0, nalloc i w0 = (Some e, w')
      | Panic => False | Abort => False | UB => False
      end.
    Proof.
      intros (Hbal & Hsh & Hlen) Hq. unfold split_off, is_empty, len.
      destruct (Nat.eqb_spec (blen m) 0) as [H0|H0].
      - assert (He : entries m = []) by (destruct (entries m); auto; simpl in Hlen; lia).
        split; [constructor|]. split; auto. split; [repeat (split; auto)|]. split; [apply new_sound|].
        rewrite He. repeat split; constructor.
      - assert (Hs : bshared m = false).
        { destruct (bshared m); auto. destruct Hsh as [E _]; auto. exfalso. apply H0. rewrite Hlen. unfold entries. now rewrite E. }
        unfold new_leaf. destruct (nalloc false w) as [[er|] w1] eqn:E1.
        { split; [constructor; [apply new_droppable|constructor]|]. split; auto. exists false, w. auto. }
        pose proof (@push_levels_ok _ nalloc (bheight m) (@empty_leaf K V) 0 w1 eq_refl) as HP.
        destruct (push_levels nalloc (bheight m) (@empty_leaf K V) 0 w1) as [[o [n' h']] w2] eqn:E2.
        destruct HP as [Hch HP]. destruct o as [c|e| | |]; try contradiction.
        + destruct Hbal as [[Hcap Hone] Hk].
          destruct (@split_loop_ok q (bheight m) (bnode m) c Hk Hcap HP Hq) as (l & r & E & R1 & C1 & R2 & C2 & I1 & G1 & G2).
          cbn [Nat.add] in E. rewrite E.
          destruct (@fix_right_border_ok K V (bheight m) l R1 C1) as (l' & hl & F1 & B1 & J1 & _). rewrite F1.
          destruct (@fix_left_border_ok K V (bheight m) r R2 C2) as (r' & hr & F2 & B2 & J2 & _). rewrite F2.
          assert (Hdl : dfs hl l' = length (inorder l')) by (apply dfs_ok; eapply kids_shape; exact (proj2 B1)).
          assert (Hdr : dfs hr r' = length (inorder r')) by (apply dfs_ok; eapply kids_shape; exact (proj2 B2)).
          assert (Hn : blen m = length (inorder l') + length (inorder r')) by (rewrite Hlen; unfold entries; rewrite I1, app_length, J1, J2; auto).
          assert (HG : entries m = inorder l' ++ inorder r') by (unfold entries; congruence).
          destruct (hl <? hr); (split; [constructor|]); (split; [reflexivity|]);
            unfold sound, entries in *; cbn [bheight bnode bshared blen]; rewrite Hs, ?J1, ?J2, ?Hdl, ?Hdr in *;
            (split; [split; [auto|split; [discriminate|rewrite ?J1, ?J2 in *; lia]]|]);
            (split; [split; [auto|split; [discriminate|rewrite ?J1, ?J2 in *; lia]]|]);
            (split; [congruence|]); auto.
        + destruct (chain_kids _ _ Hch) as (K1 & K2 & K3). split.
          * constructor; [|constructor]. split; [exact K1|]. split; [|discriminate]. unfold entries. cbn [blen bnode]. now rewrite K3.
          * split; auto.
    Qed.
  End Alloc2.
End Split.
