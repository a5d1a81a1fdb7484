(** * BTreeRemove: removal and rebalancing *)
From Coq Require Import List Arith Lia Bool Sorted.
From Verif Require Import Base MapSpec BTreeModel BTreeInv BTreeLemmas BTreeSearch BTreeSurgery.
Import ListNotations.
Set Implicit Arguments.

Section Remove.
  Variables (K V : Type).
  Notation node := (node K V).
  Notation frame := (frame K V).
  Notation ctx := (ctx K V).
  Notation handle := (handle K V).
  Notation bmap := (bmap K V).
  Implicit Types (n : node) (c : ctx) (f : frame) (hd : handle) (m : bmap).

  (** a node that just lost one entry *)
  Definition hole (k : nat) : Prop := REAL_MIN - 1 <= k <= CAPACITY.

  (** the parent of a hole, seen at one of its pairs *)
  Lemma fill_view h f n j : frame_ok f -> Forall (sub fair h) (fl f) -> Forall (sub fair h) (fr f) ->
    kids fair h n -> j < length (fk f) -> (fidx f = j \/ fidx f = S j) ->
    exists pa x pz a l r z, fill f n = at_kv pa x pz a l r z /\ length pa = j /\ length a = j /\
      length z = length pz /\ Forall (sub fair h) a /\ Forall (sub fair h) z /\
      ((fidx f = j /\ l = n /\ sub fair h r) \/ (fidx f = S j /\ r = n /\ sub fair h l)).
  Proof.
    intros Hf Hl Hr Hk Hj Hi. unfold frame_ok in Hf.
    destruct (@pick_lt _ j (fk f) Hj) as (pa & x & pz & Hp). apply pick_some in Hp. destruct Hp as [Ek Hpa].
    destruct Hi as [Hi|Hi].
    - unfold fidx in Hi. destruct (fr f) as [|r z] eqn:Er; [simpl in Hf; lia|].
      inversion Hr; subst.
      exists pa, x, pz, (fl f), n, r, z. unfold fill, at_kv. rewrite Er, <- Ek. repeat (split; auto).
      rewrite Ek, app_length in Hf. simpl in Hf. lia.
    - unfold fidx in Hi. destruct (fl f) as [|l a] eqn:El using rev_ind; [discriminate|]. clear IHa.
      apply Forall_app in Hl. destruct Hl as [Hl1 Hl2]. inversion Hl2; subst. rewrite app_length in Hi. simpl in Hi.
      exists pa, x, pz, a, l, n, (fr f). unfold fill, at_kv. rewrite El, <- app_assoc, <- Ek. cbn [app].
      repeat (split; auto); try lia.
      + rewrite Ek, !app_length in Hf. simpl in Hf. lia.
      + right. unfold fidx. rewrite El, app_length. simpl. repeat split; auto; lia || apply H1.
  Qed.

  Lemma fix_underflow_ok c : forall h n, kids fair h n -> cok fair root_fair h c ->
    bound hole root_fair h c (nlen n) ->
    exists n' H', fix_underflow (h + length c) h n c = Ret (n', H') /\ balanced H' n' /\
      inorder n' = cbefore c ++ inorder n ++ cafter c /\ H' <= h + length c.
  Proof.
    induction c as [|f c IH]; intros h n Hk Hc Hb.
    - cbn [fix_underflow length bound cbefore cafter plug handle_underfull_node] in *. rewrite Nat.add_0_r, app_nil_r.
      exists n, h. split; [destruct (nlen n <? CAPACITY / 2); reflexivity|]. repeat split; auto; apply Hb.
    - destruct Hc as (Hf & Hfl & Hfr & Hbf & Hc'). cbn [bound] in Hb.
      replace (h + length (f :: c)) with (S h + length c) by (simpl; lia).
      cbn [fix_underflow]. change (CAPACITY / 2) with 5.
      destruct (Nat.ltb_spec (nlen n) 5) as [Hlt|Hge].
      2:{ (* not underfull *)
        exists (plug (fill f n) c), (S h + length c). split; [reflexivity|]. split; [|split; [|lia]].
        - apply (proj1 (plug_ok fair root_fair c (S h) (fill f n))). rewrite nlen_fill. split; [exact Hbf|].
          split; auto. apply fill_kids. repeat (split; auto); unfold hole in Hb; nlia.
        - rewrite inorder_plug, inorder_fill by (auto; eapply cok_frames; eauto).
          cbn [cbefore cafter]. now rewrite <- !app_assoc. }
      (* underfull *)
      cbn [handle_underfull_node].
      assert (Hfk : 1 <= length (fk f) <= CAPACITY) by (destruct c; simpl in Hbf; nlia).
      assert (Hch : exists il j, (if 0 <? fidx f then Some (true, fidx f - 1)
                      else if fidx f <? nlen (fill f n) then Some (false, fidx f) else None) = Some (il, j) /\
                    j < length (fk f) /\ (il = false /\ fidx f = j \/ il = true /\ fidx f = S j)).
      { destruct (Nat.ltb_spec 0 (fidx f)).
        - exists true, (fidx f - 1). split; auto. unfold frame_ok in Hf. unfold fidx in *. split; [lia|]. right. split; auto; lia.
        - exists false, (fidx f). rewrite nlen_fill. destruct (Nat.ltb_spec (fidx f) (length (fk f))); [|lia].
          split; auto. }
      destruct Hch as (il & j & -> & Hj & Hil).
      destruct (@fill_view h f n j Hf Hfl Hfr Hk Hj) as (pa & x & pz & a & l & r & z & Ev & Hpa & Ha & Hz & Hsa & Hsz & Hlr); [tauto|].
      assert (Hview : before f ++ inorder n ++ after f =
        wl (map (@inorder K V) a) pa ++ (inorder l ++ x :: inorder r) ++ wr pz (map (@inorder K V) z)).
      { rewrite <- inorder_fill by auto. rewrite Ev. apply at_kv_inorder; lia. }
      assert (Hfkl : length (fk f) = j + S (length pz)).
      { rewrite <- (nlen_fill f n), Ev, at_kv_nlen. lia. }
      assert (Hkl : kids fair h l) by (destruct Hlr as [(_ & -> & _)|(_ & _ & ?)]; auto; apply H).
      assert (Hkr : kids fair h r) by (destruct Hlr as [(_ & _ & ?)|(_ & -> & _)]; auto; apply H).
      assert (Hlr2 : (hole (nlen l) /\ nlen l < 5 /\ fair (nlen r) /\ il = false) \/
                     (hole (nlen r) /\ nlen r < 5 /\ fair (nlen l) /\ il = true)).
      { destruct Hlr as [(E & -> & [? _])|(E & -> & [? _])]; [left|right]; repeat (split; auto);
          destruct Hil as [[? ?]|[? ?]]; auto; lia. }
      rewrite Ev. rewrite <- Ha in *. rewrite can_merge_eq by auto.
      destruct (Nat.leb_spec (nlen l + nlen r + 1) CAPACITY) as [Hm|Hm].
      + (* merge *)
        rewrite merge_eq by auto. set (p' := Node (pa ++ pz) (a ++ joined l x r :: z)).
        assert (Hjf : fair (nlen (joined l x r))) by (rewrite joined_nlen; unfold hole in Hlr2; nlia).
        assert (Hjk : kids fair h (joined l x r)) by now apply joined_kids.
        assert (Hpk : kids fair (S h) p') by (apply at_one_kids; auto; split; auto).
        assert (Hpn : nlen p' = length (fk f) - 1) by (unfold nlen, p'; cbn [kvs]; rewrite app_length; lia).
        assert (Hpi : inorder p' = before f ++ inorder n ++ after f).
        { unfold p'. rewrite at_one_inorder by lia. rewrite (@joined_inorder K V fair h) by auto. now rewrite Hview. }
        destruct (Nat.eqb_spec (nlen p') 0) as [E0|E0].
        * (* the root is used up *)
          assert (Ec : c = []). { destruct c; auto. exfalso. simpl in Hbf. nlia. } subst c.
          cbn [plug]. unfold pop_level.
          assert (pa = [] /\ pz = []) as [-> ->].
          { unfold nlen, p' in E0. cbn [kvs] in E0. rewrite app_length in E0.
            destruct pa, pz; simpl in E0; try lia; auto. }
          destruct a; [|discriminate]. destruct z; [|discriminate]. unfold p'. cbn [edges app nth_error length].
          exists (joined l x r), h. replace (S h + 0 - 1) with h by lia. split; [reflexivity|].
          split; [split; [|exact Hjk]|].
          { split; [apply Hjf|intros; nlia]. }
          split; [|lia]. cbn [cbefore cafter app]. rewrite app_nil_r. rewrite <- Hpi.
          unfold p'. rewrite inorder_eq. cbn. now rewrite app_nil_r.
        * specialize (IH (S h) p' Hpk Hc'). destruct IH as (n' & H' & E & Hbal & Hin & HH).
          { rewrite Hpn in *. unfold hole. destruct c; simpl in Hbf |- *; nlia. }
          exists n', H'. split; [exact E|]. split; auto. split; auto. rewrite Hin, Hpi. cbn [cbefore cafter].
          now rewrite <- !app_assoc.
      + (* steal *)
        assert (Hst : exists y l' r', (if il then steal_left h (at_kv pa x pz a l r z) (length a)
                                       else steal_right h (at_kv pa x pz a l r z) (length a)) = Some (at_kv pa y pz a l' r' z) /\
                  fair (nlen l') /\ fair (nlen r') /\ kids fair h l' /\ kids fair h r' /\
                  inorder l' ++ y :: inorder r' = inorder l ++ x :: inorder r).
        { unfold hole in Hlr2. destruct Hlr2 as [(H1 & H2 & H3 & ->)|(H1 & H2 & H3 & ->)].
          - destruct (@steal_right_eq K V fair h pa x pz a l r z Hpa Hkl Hkr ltac:(nlia)) as (y & l' & r' & E & ? & ? & ? & ? & ?).
            exists y, l', r'. split; auto. repeat (split; [nlia|]). auto.
          - destruct (@steal_left_eq K V fair h pa x pz a l r z Hpa Hkl Hkr ltac:(nlia)) as (y & l' & r' & E & ? & ? & ? & ? & ?).
            exists y, l', r'. split; auto. repeat (split; [nlia|]). auto. }
        destruct Hst as (y & l' & r' & -> & Hfl' & Hfr' & Hkl' & Hkr' & Hin).
        exists (plug (at_kv pa y pz a l' r' z) c), (S h + length c). split; [reflexivity|]. split; [|split; [|lia]].
        * apply (proj1 (plug_ok fair root_fair c (S h) _)). rewrite at_kv_nlen.
          replace (length pa + S (length pz)) with (length (fk f)) by lia. split; [exact Hbf|]. split; auto.
          apply at_kv_kids; auto; split; auto.
        * rewrite inorder_plug by (eapply cok_frames; eauto). rewrite at_kv_inorder by lia. rewrite Hin, <- Hview.
          cbn [cbefore cafter]. now rewrite <- !app_assoc.
  Qed.

  (** the leftmost leaf below a node *)
  Lemma first_leaf_ok P R h : forall n c, bound P R h c (nlen n) -> kids P h n -> cok P R h c ->
    exists c1 lf, first_leaf_edge h n c = Some lf /\ hc lf = c1 ++ c /\ length c1 = h /\ hi lf = 0 /\ hh lf = 0 /\
      plug (hn lf) c1 = n /\ hok P R (h + length c) (plug n c) lf /\ cbefore c1 = [] /\
      cbefore (hc lf) = cbefore c.
  Proof.
    induction h as [|h IH]; intros n c Hb Hk Hc.
    - exists [], (Handle n 0 c 0). cbn. repeat (split; auto).
    - cbn [first_leaf_edge]. destruct (@descend_ok K V P h n 0 Hk ltac:(lia)) as (e & f & Hd). rewrite Hd.
      destruct (@cok_descend K V P R h n 0 e f c Hb Hk Hc Hd) as (Hb' & Hk' & Hc' & Hp').
      destruct (@descend_kids K V P R h n 0 e f Hk Hd) as (En & Hfi & Hfo & _).
      destruct (IH e (f :: c) Hb' Hk' Hc') as (c1 & lf & E & Ec & Hl & Hi & Hh & Hpl & Hok & Hcb1 & Hcb).
      assert (Hbf : before f = []).
      { unfold before. rewrite Hfi. destruct (fl f) eqn:El; [reflexivity|]. unfold fidx in Hfi. rewrite El in Hfi. discriminate. }
      exists (c1 ++ [f]), lf. split; [exact E|]. rewrite Ec, <- app_assoc. split; [reflexivity|].
      rewrite app_length. cbn [length]. split; [lia|]. split; auto. split; auto. split; [|split; [|split]].
      + rewrite plug_app. cbn [plug]. now rewrite Hpl.
      + rewrite <- Hp'. replace (S h + length c) with (h + length (f :: c)) by (simpl; lia). exact Hok.
      + rewrite cbefore_app. cbn [cbefore]. now rewrite Hbf, Hcb1.
      + rewrite Ec in Hcb. rewrite Hcb. cbn [cbefore]. rewrite Hbf. apply app_nil_r.
  Qed.

  (** swapping the pairs of a frame deep in a context *)
  Lemma cok_swap P R c1 : forall h f f' c, fl f' = fl f -> fr f' = fr f -> length (fk f') = length (fk f) ->
    cok P R h (c1 ++ f :: c) -> cok P R h (c1 ++ f' :: c).
  Proof.
    induction c1 as [|g c1 IH]; intros h f f' c E1 E2 E3 Hc.
    - cbn [app cok] in *. unfold frame_ok. rewrite E1, E2, E3. exact Hc.
    - cbn [app cok] in *. destruct Hc as (H1 & H2 & H3 & H4 & H5). repeat (split; auto).
      + destruct c1; exact H4.
      + eapply IH; eauto.
  Qed.

  Lemma remove_kv_ok H T hd x : hok fair root_fair H T hd -> into_kv hd = Some x ->
    exists n' H', remove_kv H hd = Ret (x, (n', H')) /\ balanced H' n' /\ H' <= H /\
      inorder n' = (cbefore (hc hd) ++ nleft (hn hd) (hi hd)) ++ (nright (hn hd) (hi hd) ++ cafter (hc hd)).
  Proof.
    intros (Hp & HH & Hb & Hk & Hc) Hx. unfold remove_kv, into_kv in *.
    assert (Hi : hi hd < nlen (hn hd)) by (apply nth_error_Some; congruence).
    destruct (@pick_lt _ _ _ Hi) as (ka & x' & kz & Hpk).
    assert (x' = x) by (unfold pick in Hpk; rewrite Hx in Hpk; congruence). subst x'.
    pose proof (pick_some _ _ Hpk) as [Ek Hka].
    destruct (hh hd) as [|h'] eqn:Eh.
    - unfold slice_remove. rewrite Hpk. cbn [Nat.add] in HH.
      destruct (@fix_underflow_ok (hc hd) 0 (Node (ka ++ kz) (edges (hn hd)))) as (n' & H' & E & Hbal & Hin & Hle).
      { exact Hk. } { exact Hc. }
      { unfold nlen in *. cbn [kvs]. rewrite Ek, app_length in Hb. rewrite app_length. simpl in Hb.
        unfold hole. destruct (hc hd); simpl in *; nlia. }
      cbn [Nat.add] in E, Hle. rewrite HH in E, Hle. rewrite E. exists n', H'. split; [reflexivity|]. split; auto. split; auto.
      rewrite Hin. unfold nleft, nright. cbn [kids] in Hk. rewrite Hk, firstn_nil, skipn_nil. cbn [map weave inorder].
      rewrite Ek, firstn_app_len by auto.
      replace (skipn (S (hi hd)) (ka ++ x :: kz)) with kz
        by (change (x :: kz) with ([x] ++ kz); rewrite app_assoc; symmetry; apply skipn_app_len; rewrite app_length; simpl; lia).
      now rewrite <- !app_assoc.
    - rewrite Hpk. destruct (@descend_ok K V fair h' (hn hd) (hi hd + 1) Hk ltac:(lia)) as (e & f & Hd). rewrite Hd.
      destruct (@cok_descend K V fair root_fair h' (hn hd) (hi hd + 1) e f (hc hd) Hb Hk Hc Hd) as (Hb' & Hk' & Hc' & Hp').
      destruct (@descend_kids K V fair root_fair h' (hn hd) (hi hd + 1) e f Hk Hd) as (En & Hfi & Hfo & Hfl & Hse & Hfr & Hfk).
      (* the spine *)
      destruct (@first_leaf_ok fair (fun _ => fair) h' e [] (proj1 Hse) Hk' I) as (c1 & lf & E & Ec & Hl1 & Hi0 & Hh0 & Hpl & Hok & Hcb1 & _).
      rewrite E, Hi0. rewrite app_nil_r in Ec.
      destruct Hok as (_ & _ & Hbl & Hkl & Hcl). rewrite Hh0 in *. cbn [kids] in Hkl.
      assert (Hlf : fair (nlen (hn lf))) by (destruct (hc lf); exact Hbl).
      unfold slice_remove, pick. destruct (kvs (hn lf)) as [|y k0] eqn:Ey.
      { exfalso. unfold nlen in Hlf. rewrite Ey in Hlf. nlia. }
      cbn [nth_error firstn skipn app].
      set (f' := Frame (ka ++ y :: kz) (fl f) (fr f)).
      assert (Hcc : cok fair root_fair 0 (c1 ++ f :: hc hd)).
      { assert (Hg : forall c1 h, cok fair (fun _ => fair) h c1 -> cok fair root_fair (h + length c1) (f :: hc hd) ->
                 cok fair root_fair h (c1 ++ f :: hc hd)).
        { clear. induction c1 as [|g c1 IH]; intros h H1 H2; [rewrite Nat.add_0_r in H2; exact H2|].
          cbn [app cok length] in *. destruct H1 as (A1 & A2 & A3 & A4 & A5). repeat (split; auto).
          - destruct c1; exact A4.
          - apply IH; auto. now replace (S h + length c1) with (h + S (length c1)) by lia. }
        apply Hg; [rewrite <- Ec; exact Hcl|]. rewrite Hl1. exact Hc'. }
      assert (Hcc' : cok fair root_fair 0 (c1 ++ f' :: hc hd)).
      { eapply cok_swap; [| | |exact Hcc]; auto. unfold f'. cbn [fk]. rewrite Hfk, Ek, !app_length. reflexivity. }
      destruct (@fix_underflow_ok (hc lf ++ f' :: hc hd) 0 (Node k0 (edges (hn lf)))) as (n' & H' & E' & Hbal & Hin & Hle).
      { exact Hkl. } { rewrite Ec. exact Hcc'. }
      { unfold bound. destruct (hc lf ++ f' :: hc hd) eqn:E0; [now destruct (hc lf)|].
        unfold hole, nlen in *. cbn [kvs]. rewrite Ey in Hlf. simpl in Hlf. nlia. }
      cbn [Nat.add] in E', Hle.
      assert (EH : length (hc lf ++ f' :: hc hd) = H) by (rewrite app_length, Ec; simpl; lia).
      rewrite EH in E', Hle. rewrite E'. exists n', H'. split; [reflexivity|]. split; auto. split; auto.
      rewrite Hin, Ec, cbefore_app, cafter_app. cbn [cbefore cafter]. rewrite Hcb1, app_nil_r.
      assert (Hnl : nleft (hn hd) (hi hd) = weave (map (@inorder K V) (fl f)) ka).
      { unfold nleft. rewrite En at 1. cbn [fill edges]. rewrite firstn_app_len by (unfold fidx in Hfi; lia).
        rewrite Ek, firstn_app_len by auto. reflexivity. }
      assert (Hnr : nright (hn hd) (hi hd) = weave (inorder e :: map (@inorder K V) (fr f)) kz).
      { unfold nright. rewrite En at 1. cbn [fill edges]. rewrite skipn_app_len by (unfold fidx in Hfi; lia).
        rewrite Ek. cbn [map]. f_equal.
        change (x :: kz) with ([x] ++ kz). rewrite app_assoc. apply skipn_app_len. rewrite app_length; simpl; lia. }
      assert (Hlk : length kz = length (fr f)).
      { unfold frame_ok in Hfo. rewrite Hfk, Ek, app_length in Hfo. simpl in Hfo. unfold fidx in Hfi. lia. }
      rewrite Hnl, Hnr.
      assert (Hbf : before f' = weave (map (@inorder K V) (fl f)) ka ++ [y]).
      { unfold before, f', fidx. cbn [fl fk]. unfold fidx in Hfi. rewrite Hfi.
        replace (firstn (hi hd + 1) (ka ++ y :: kz)) with (ka ++ [y]).
        2:{ change (y :: kz) with ([y] ++ kz). rewrite app_assoc. symmetry. apply firstn_app_len. rewrite app_length; simpl; lia. }
        destruct (fl f) as [|el fle] eqn:Efl using rev_ind; [simpl in Hfi; lia|]. clear IHfle.
        rewrite map_app. cbn [map]. rewrite app_length in Hfi. simpl in Hfi.
        rewrite wl_app by (rewrite map_length; lia). rewrite <- (app_nil_r ka) at 2.
        rewrite weave_split by (rewrite ?map_length; simpl; auto; lia). cbn. rewrite app_nil_r. now rewrite <- app_assoc. }
      assert (Haf : after f' = wr kz (map (@inorder K V) (fr f))).
      { unfold after, f', fidx. cbn [fl fk fr]. unfold fidx in Hfi. rewrite Hfi. f_equal.
        change (y :: kz) with ([y] ++ kz). rewrite app_assoc. apply skipn_app_len. rewrite app_length; simpl; lia. }
      assert (Hwe : weave (inorder e :: map (@inorder K V) (fr f)) kz = inorder e ++ wr kz (map (@inorder K V) (fr f))).
      { pose proof (@weave_split _ [] (inorder e) (map (@inorder K V) (fr f)) [] kz eq_refl ltac:(rewrite map_length; lia)) as Hw.
        cbn [app wl] in Hw. exact Hw. }
      rewrite Hwe.
      assert (Hie : inorder e = (y :: k0) ++ cafter c1).
      { rewrite <- Hpl. rewrite inorder_plug by (rewrite <- Ec; eapply cok_frames; eauto). rewrite Hcb1. cbn [app].
        rewrite inorder_eq, Hkl, Ey. reflexivity. }
      rewrite Hie, Hbf, Haf. rewrite inorder_eq. cbn [kvs edges]. rewrite Hkl. cbn [map weave].
      rewrite <- !app_assoc. cbn [app]. reflexivity.
  Qed.

  (** ** The map operations *)
  Lemma remove_entry_ok q m : sound m -> cutq q (entries m) ->
    let '(o, m') := remove_entry q m in
    o = Ret (s_get q (entries m)) /\ sound m' /\ entries m' = s_remove q (entries m) /\
    (s_get q (entries m) = None -> m' = m) /\ bshared m' = bshared m.
  Proof.
    intros ([Hb1 Hb2] & Hsh & Hlen) Hq. unfold remove_entry, search.
    pose proof (@search_root_ok K V fair root_fair q (bheight m) (bnode m) Hb1 Hb2 Hq) as Hs.
    destruct (search_tree q (bheight m) (bnode m) []) as [[hd|hd]|]; [| |contradiction].
    - destruct Hs as (Hok & x & l & r & Hx & Hqx & -> & -> & Hin & Hl & Hr).
      unfold remove_entry_at. destruct (remove_kv_ok Hok Hx) as (n' & H' & E & Hbal & HH & Hin'). rewrite E. cbn [omap].
      unfold entries in *. rewrite Hin. rewrite s_get_some, s_remove_some by auto. cbn [bnode].
      split; auto. split; [|split; [exact Hin'|split; [discriminate|reflexivity]]].
      split; [exact Hbal|]. split.
      + intros Hs. destruct (Hsh Hs) as [En _]. exfalso. rewrite En in Hin. cbn in Hin.
        apply (f_equal (@length _)) in Hin. rewrite app_length in Hin. simpl in Hin. lia.
      + unfold entries. cbn [blen bnode]. rewrite Hlen, Hin', Hin, !app_length. cbn [length]. rewrite !app_length. lia.
    - destruct Hs as (Hok & H0 & Hi & l & r & _ & _ & Hin & Hl & Hr).
      unfold entries in *. rewrite Hin. rewrite s_get_none, s_remove_none by auto. repeat (split; auto).
  Qed.
End Remove.
