(** * BTreeSearch: search_tree finds the place of a query *)
From Coq Require Import List Arith Lia Bool Sorted.
From Verif Require Import Base MapSpec BTreeModel BTreeInv BTreeLemmas.
Import ListNotations.
Set Implicit Arguments.

Lemma StronglySorted_app A (r : A -> A -> Prop) l1 l2 :
  StronglySorted r (l1 ++ l2) <->
  StronglySorted r l1 /\ StronglySorted r l2 /\ Forall (fun a => Forall (r a) l2) l1.
Proof.
  induction l1 as [|a l1 IH]; simpl.
  - split; [intros; repeat split; auto; constructor|tauto].
  - split.
    + intros H. inversion H; subst. apply IH in H2. destruct H2 as (H4 & H5 & H6).
      apply Forall_app in H3. destruct H3 as [H7 H8]. repeat split; auto; constructor; auto.
    + intros (H1 & H2 & H3). inversion H1; subst. inversion H3; subst. constructor.
      * apply IH. auto.
      * apply Forall_app. auto.
Qed.
Lemma StronglySorted_mid A (r : A -> A -> Prop) l1 x l2 :
  StronglySorted r (l1 ++ x :: l2) ->
  Forall (fun a => r a x) l1 /\ Forall (r x) l2.
Proof.
  intros H. apply StronglySorted_app in H. destruct H as (_ & H2 & H3). inversion H2; subst.
  split; auto. eapply Forall_impl; [|exact H3]. intros a Ha. now inversion Ha.
Qed.

Section Search.
  Variables (K V : Type).
  Notation node := (node K V).
  Notation frame := (frame K V).
  Notation ctx := (ctx K V).
  Notation handle := (handle K V).
  Implicit Types (n : node) (c : ctx) (f : frame) (hd : handle) (q : K -> comparison).

  (** along the list the query answers Gt ... Gt [Eq] Lt ... Lt *)
  Definition cutq q (l : list (K * V)) : Prop :=
    StronglySorted (fun a b => q (fst a) = Gt \/ q (fst b) = Lt) l.
  Definition allq q o (l : list (K * V)) : Prop := Forall (fun e => q (fst e) = o) l.

  Lemma cutq_sorted (cmp : K -> K -> comparison) (Q : Type) (qcmp : Q -> Q -> comparison) (borrow : K -> Q) x l :
    borrow_laws cmp qcmp borrow -> sorted cmp l -> cutq (fun k => qcmp x (borrow k)) l.
  Proof.
    intros [L Hb] H. unfold sorted in H. unfold cutq.
    induction H as [|a l H IH Ha]; constructor; auto.
    eapply Forall_impl; [|exact Ha]. intros b Hab. simpl in Hab. rewrite <- Hb in Hab.
    destruct (qcmp x (borrow (fst a))) eqn:E; [right|right|left; reflexivity].
    - rewrite (cmp_eq_l L _ _ _ E). exact Hab.
    - eapply (cmp_lt_trans L); eauto.
  Qed.
  Lemma id_borrow (cmp : K -> K -> comparison) : ord_laws cmp -> borrow_laws cmp cmp (fun k => k).
  Proof. intros; split; auto. Qed.
  Lemma cutq_key (cmp : K -> K -> comparison) k l : ord_laws cmp -> sorted cmp l -> cutq (cmp k) l.
  Proof. intros L H. exact (cutq_sorted k (id_borrow L) H). Qed.

  Lemma search_linear_ok q (l : list (K * V)) i b : search_linear q l = (i, b) ->
    exists a z, l = a ++ z /\ length a = i /\ allq q Gt a /\
      (if b then exists x z', z = x :: z' /\ q (fst x) = Eq
       else z = [] \/ exists x z', z = x :: z' /\ q (fst x) = Lt).
  Proof.
    revert i b. induction l as [|e l IH]; intros i b H; simpl in H.
    - injection H; intros; subst. exists [], []. repeat split; auto. constructor.
    - destruct (q (fst e)) eqn:E.
      + injection H; intros; subst. exists [], (e :: l). repeat split; eauto. constructor.
      + injection H; intros; subst. exists [], (e :: l). repeat split; eauto. constructor.
      + destruct (search_linear q l) as [i' b'] eqn:Es. injection H; intros; subst.
        destruct (IH _ _ eq_refl) as (a & z & -> & Hl & Ha & Hb).
        exists (e :: a), z. repeat split; simpl; auto. constructor; auto.
  Qed.

  (** items of a node left / right of its pair [i] *)
  Definition nleft n i := weave (map (@inorder K V) (firstn (S i) (edges n))) (firstn i (kvs n)).
  Definition nright n i := weave (map (@inorder K V) (skipn (S i) (edges n))) (skipn (S i) (kvs n)).
  Lemma kv_split P h n i a x z : kids P h n -> pick i (kvs n) = Some (a, x, z) ->
    inorder n = nleft n i ++ x :: nright n i.
  Proof.
    intros Hk Hp. unfold nleft, nright. rewrite inorder_eq. apply pick_some in Hp. destruct Hp as [Hn Hl].
    rewrite Hn, firstn_app_len by auto.
    replace (skipn (S i) (a ++ x :: z)) with z
      by (change (x :: z) with ([x] ++ z); rewrite app_assoc; symmetry; apply skipn_app_len; rewrite app_length; simpl; lia).
    destruct h; simpl in Hk.
    - rewrite Hk. reflexivity.
    - destruct Hk as [He _]. unfold nlen in He. rewrite Hn, app_length in He. simpl in He.
      rewrite <- (firstn_skipn (S i) (edges n)) at 1. rewrite map_app.
      apply weave_cut. rewrite map_length, firstn_length. lia.
  Qed.

  Lemma allq_app q o l1 l2 : allq q o (l1 ++ l2) <-> allq q o l1 /\ allq q o l2.
  Proof. apply Forall_app. Qed.

  (** a list cut at a place whose neighbours are known is known on both sides *)
  Lemma cutq_gt q l x r : cutq q (l ++ x :: r) -> q (fst x) <> Lt -> allq q Gt l.
  Proof.
    intros H Hx. apply StronglySorted_mid in H. destruct H as [H _].
    eapply Forall_impl; [|exact H]. simpl. intros a [?|?]; tauto.
  Qed.
  Lemma cutq_lt q l x r : cutq q (l ++ x :: r) -> q (fst x) <> Gt -> allq q Lt r.
  Proof.
    intros H Hx. apply StronglySorted_mid in H. destruct H as [_ H].
    eapply Forall_impl; [|exact H]. simpl. intros a [?|?]; tauto.
  Qed.

  (** before/after of the frame left by a descent at the searched index *)
  Lemma before_gt q f : frame_ok f -> cutq q (before f) -> allq q Gt (firstn (fidx f) (fk f)) -> allq q Gt (before f).
  Proof.
    intros Hf Hc Hk. unfold before in *. assert (Hl : length (map (@inorder K V) (fl f)) = length (firstn (fidx f) (fk f))).
    { rewrite map_length, firstn_length. unfold fidx, frame_ok in *. lia. }
    revert Hc Hk Hl. generalize (firstn (fidx f) (fk f)) as ks. generalize (map (@inorder K V) (fl f)) as es.
    induction es as [|e es IH]; intros [|k ks] Hc Hk Hl; simpl in *; try discriminate; [constructor|].
    inversion Hk; subst. apply allq_app. split.
    - eapply cutq_gt; [exact Hc|congruence].
    - constructor; auto. apply IH; auto.
      apply StronglySorted_app in Hc. destruct Hc as (_ & Hc & _). now inversion Hc.
  Qed.
  Lemma after_lt q f : frame_ok f -> cutq q (after f) ->
    (skipn (fidx f) (fk f) = [] \/ exists x z, skipn (fidx f) (fk f) = x :: z /\ q (fst x) = Lt) -> allq q Lt (after f).
  Proof.
    intros Hf Hc Hk. unfold after in *. destruct Hk as [->|(x & z & E & Hx)]; [constructor|].
    rewrite E in *. destruct (map (@inorder K V) (fr f)) as [|e es]; simpl in *; [constructor|].
    constructor; auto. apply (@cutq_lt q [] x); auto. congruence.
  Qed.

  Section Bounds.
    Variables (P : nat -> Prop) (R : nat -> nat -> Prop).

    (** [hd] is a handle into the tree [T] of height [H] *)
    Definition hok (H : nat) (T : node) (hd : handle) : Prop :=
      plug (hn hd) (hc hd) = T /\ hh hd + length (hc hd) = H /\
      bound P R (hh hd) (hc hd) (nlen (hn hd)) /\ kids P (hh hd) (hn hd) /\ cok P R (hh hd) (hc hd).

    Lemma search_tree_ok q h : forall n c,
      bound P R h c (nlen n) -> kids P h n -> cok P R h c ->
      cutq q (inorder (plug n c)) -> allq q Gt (cbefore c) -> allq q Lt (cafter c) ->
      match search_tree q h n c with
      | Some (Found hd) => hok (h + length c) (plug n c) hd /\
          exists a x z, pick (hi hd) (kvs (hn hd)) = Some (a, x, z) /\ q (fst x) = Eq /\
            allq q Gt (cbefore (hc hd) ++ nleft (hn hd) (hi hd)) /\
            allq q Lt (nright (hn hd) (hi hd) ++ cafter (hc hd))
      | Some (GoDown hd) => hok (h + length c) (plug n c) hd /\ hh hd = 0 /\ hi hd <= nlen (hn hd) /\
            allq q Gt (cbefore (hc hd) ++ firstn (hi hd) (kvs (hn hd))) /\
            allq q Lt (skipn (hi hd) (kvs (hn hd)) ++ cafter (hc hd))
      | None => False
      end.
    Proof.
      induction h as [|h IH]; intros n c Hb Hk Hc Hq Hg Hl.
      - simpl. destruct (search_linear q (kvs n)) as [i b] eqn:Es.
        destruct (search_linear_ok _ _ Es) as (a & z & En & Hi & Ha & Hz).
        assert (Hn : inorder n = kvs n) by (rewrite inorder_eq; simpl in Hk; now rewrite Hk).
        rewrite inorder_plug, Hn in Hq by (eapply cok_frames; eauto).
        destruct b.
        + destruct Hz as (x & z' & -> & Hx). split; [unfold hok; cbn [hn hh hc hi]; auto|].
          exists a, x, z'. cbn [hn hi hc]. rewrite En, pick_app' by auto.
          unfold nleft, nright. simpl in Hk. rewrite Hk, firstn_nil, skipn_nil. cbn [map weave].
          rewrite En, firstn_app_len by auto.
          replace (skipn (S i) (a ++ x :: z')) with z'
            by (change (x :: z') with ([x] ++ z'); rewrite app_assoc; symmetry; apply skipn_app_len; rewrite app_length; simpl; lia).
          rewrite !allq_app. repeat split; auto.
          rewrite En in Hq. apply StronglySorted_app in Hq. destruct Hq as (_ & Hq & _).
          rewrite <- app_assoc in Hq. simpl in Hq.
          assert (Hx' : allq q Lt (z' ++ cafter c)) by (eapply cutq_lt; [exact Hq|congruence]).
          apply allq_app in Hx'. tauto.
        + cbn [hn hi hc hh]. split; [unfold hok; cbn [hn hh hc hi]; auto|].
          rewrite En, firstn_app_len, skipn_app_len by auto. unfold nlen. rewrite En, app_length.
          rewrite !allq_app. repeat split; auto; [lia|].
          destruct Hz as [->|(x & z' & -> & Hx)]; [constructor|]. constructor; auto.
          rewrite En in Hq. apply StronglySorted_app in Hq. destruct Hq as (_ & Hq & _).
          rewrite <- app_assoc in Hq. simpl in Hq.
          assert (Hx' : allq q Lt (z' ++ cafter c)) by (eapply cutq_lt; [exact Hq|congruence]).
          apply allq_app in Hx'. tauto.
      - simpl search_tree. destruct (search_linear q (kvs n)) as [i b] eqn:Es.
        destruct (search_linear_ok _ _ Es) as (a & z & En & Hi & Ha & Hz).
        destruct b.
        + destruct Hz as (x & z' & -> & Hx). split; [unfold hok; cbn [hn hh hc hi]; auto|].
          exists a, x, z'. cbn [hn hi hc]. assert (Hp : pick i (kvs n) = Some (a, x, z')) by (rewrite En; now apply pick_app').
          rewrite Hp. split; auto. split; auto.
          rewrite inorder_plug in Hq by (eapply cok_frames; eauto). rewrite (@kv_split P (S h) n i a x z' Hk Hp) in Hq.
          replace (cbefore c ++ (nleft n i ++ x :: nright n i) ++ cafter c)
            with ((cbefore c ++ nleft n i) ++ x :: (nright n i ++ cafter c)) in Hq by (rewrite <- !app_assoc; reflexivity).
          split; [eapply cutq_gt; [exact Hq|congruence]|eapply cutq_lt; [exact Hq|congruence]].
        + assert (Hin : i <= nlen n) by (unfold nlen; rewrite En, app_length; lia).
          destruct (@descend_ok K V P h n i Hk Hin) as (e & f & Hd). rewrite Hd.
          destruct (@cok_descend K V P R h n i e f c Hb Hk Hc Hd) as (Hb' & Hk' & Hc' & Hp').
          destruct (@descend_kids K V P R h n i e f Hk Hd) as (En' & Hfi & Hfo & _ & _ & _ & Hfk).
          specialize (IH e (f :: c) Hb' Hk' Hc').
          rewrite Hp' in IH. replace (S h + length c) with (h + length (f :: c)) by (simpl; lia).
          apply IH; auto.
          * rewrite inorder_plug in Hq by (eapply cok_frames; eauto). rewrite En', inorder_fill in Hq by auto.
            apply StronglySorted_app in Hq. destruct Hq as (_ & Hq & _).
            apply StronglySorted_app in Hq. destruct Hq as (Hq & _ & _).
            apply StronglySorted_app in Hq. destruct Hq as (Hq & _ & _).
            simpl. apply allq_app. split; auto. apply before_gt; auto.
            rewrite Hfk, Hfi, En, firstn_app_len; auto.
          * rewrite inorder_plug in Hq by (eapply cok_frames; eauto). rewrite En', inorder_fill in Hq by auto.
            apply StronglySorted_app in Hq. destruct Hq as (_ & Hq & _).
            apply StronglySorted_app in Hq. destruct Hq as (Hq & _ & _).
            apply StronglySorted_app in Hq. destruct Hq as (_ & Hq & _).
            apply StronglySorted_app in Hq. destruct Hq as (_ & Hq & _).
            simpl. apply allq_app. split; auto. apply after_lt; auto.
            rewrite Hfk, Hfi, En, skipn_app_len; auto.
    Qed.

    (** the root-level statement *)
    Lemma search_root_ok q H T : R H (nlen T) -> kids P H T -> cutq q (inorder T) ->
      match search_tree q H T [] with
      | Some (Found hd) => hok H T hd /\ exists x l r, into_kv hd = Some x /\ q (fst x) = Eq /\
            l = cbefore (hc hd) ++ nleft (hn hd) (hi hd) /\ r = nright (hn hd) (hi hd) ++ cafter (hc hd) /\
            inorder T = l ++ x :: r /\ allq q Gt l /\ allq q Lt r
      | Some (GoDown hd) => hok H T hd /\ hh hd = 0 /\ hi hd <= nlen (hn hd) /\
            exists l r, l = cbefore (hc hd) ++ firstn (hi hd) (kvs (hn hd)) /\
              r = skipn (hi hd) (kvs (hn hd)) ++ cafter (hc hd) /\
              inorder T = l ++ r /\ allq q Gt l /\ allq q Lt r
      | None => False
      end.
    Proof.
      intros Hb Hk Hq. pose proof (@search_tree_ok q H T [] Hb Hk I Hq ltac:(constructor) ltac:(constructor)) as Hs.
      simpl length in Hs. rewrite Nat.add_0_r in Hs. simpl plug in Hs.
      destruct (search_tree q H T []) as [[hd|hd]|]; auto.
      - destruct Hs as (Hh & a & x & z & Hp & Hx & Hg & Hl). split; auto.
        exists x. do 2 eexists. repeat (split; [try reflexivity|]); eauto.
        + unfold into_kv. unfold pick in Hp. destruct (nth_error (kvs (hn hd)) (hi hd)); [congruence|discriminate].
        + destruct Hh as (Ep & _ & _ & Hk' & Hc'). rewrite <- Ep, inorder_plug by (eapply cok_frames; eauto).
          rewrite (@kv_split P _ _ _ _ _ _ Hk' Hp). now rewrite <- !app_assoc.
      - destruct Hs as (Hh & H0 & Hi & Hg & Hl). repeat (split; auto).
        do 2 eexists. repeat (split; [try reflexivity|]); auto.
        destruct Hh as (Ep & _ & _ & Hk' & Hc'). rewrite <- Ep, inorder_plug by (eapply cok_frames; eauto).
        rewrite H0 in Hk'. simpl in Hk'. rewrite inorder_eq, Hk'. simpl.
        rewrite <- (firstn_skipn (hi hd) (kvs (hn hd))) at 1. now rewrite <- !app_assoc.
    Qed.
  End Bounds.

  (** ** The list specification at a cut *)
  Lemma s_get_none q l r : allq q Gt l -> allq q Lt r -> s_get q (l ++ r) = None.
  Proof.
    unfold s_get. intros Hl Hr. induction Hl as [|a l Ha Hl IH]; simpl.
    - induction Hr as [|b r Hb Hr IH]; simpl; auto. unfold hit at 1. now rewrite Hb.
    - unfold hit at 1. now rewrite Ha.
  Qed.
  Lemma s_get_some q l x r : allq q Gt l -> q (fst x) = Eq -> s_get q (l ++ x :: r) = Some x.
  Proof.
    unfold s_get. intros Hl Hx. induction Hl as [|a l Ha Hl IH]; simpl.
    - unfold hit. now rewrite Hx.
    - unfold hit at 1. now rewrite Ha.
  Qed.
  Lemma filter_all A (p : A -> bool) l : Forall (fun a => p a = true) l -> filter p l = l.
  Proof. induction 1; simpl; auto. now rewrite H, IHForall. Qed.
  Lemma filter_nothing A (p : A -> bool) l : Forall (fun a => p a = false) l -> filter p l = [].
  Proof. induction 1; simpl; auto. now rewrite H, IHForall. Qed.
  Lemma s_remove_none q l r : allq q Gt l -> allq q Lt r -> s_remove q (l ++ r) = l ++ r.
  Proof.
    intros Hl Hr. unfold s_remove. apply filter_all. apply Forall_app. split; (eapply Forall_impl; [|eassumption]);
      intros a Ha; unfold hit; now rewrite Ha.
  Qed.
  Lemma s_remove_some q l x r : allq q Gt l -> q (fst x) = Eq -> allq q Lt r -> s_remove q (l ++ x :: r) = l ++ r.
  Proof.
    intros Hl Hx Hr. unfold s_remove. rewrite filter_app. simpl. unfold hit at 2. rewrite Hx. simpl.
    f_equal; apply filter_all; (eapply Forall_impl; [|eassumption]); intros a Ha; unfold hit; now rewrite Ha.
  Qed.
  Lemma s_update_some q (g : V -> V) l x r : allq q Gt l -> q (fst x) = Eq -> allq q Lt r ->
    s_update q g (l ++ x :: r) = l ++ (fst x, g (snd x)) :: r.
  Proof.
    intros Hl Hx Hr. unfold s_update. rewrite map_app. simpl. unfold hit at 2. rewrite Hx. f_equal; [|f_equal].
    - induction Hl as [|a l Ha Hl IH]; simpl; auto. unfold hit at 1. now rewrite Ha, IH.
    - induction Hr as [|a r Ha Hr IH]; simpl; auto. unfold hit at 1. now rewrite Ha, IH.
  Qed.
  Lemma s_update_none q (g : V -> V) l r : allq q Gt l -> allq q Lt r -> s_update q g (l ++ r) = l ++ r.
  Proof.
    intros Hl Hr. unfold s_update. rewrite map_app. f_equal.
    - induction Hl as [|a l Ha Hl IH]; simpl; auto. unfold hit at 1. now rewrite Ha, IH.
    - induction Hr as [|a r Ha Hr IH]; simpl; auto. unfold hit at 1. now rewrite Ha, IH.
  Qed.
  Lemma s_rekey_some q k l x r : allq q Gt l -> q (fst x) = Eq -> allq q Lt r ->
    s_rekey q k (l ++ x :: r) = l ++ (k, snd x) :: r.
  Proof.
    intros Hl Hx Hr. unfold s_rekey. rewrite map_app. simpl. unfold hit at 2. rewrite Hx. f_equal; [|f_equal].
    - induction Hl as [|a l Ha Hl IH]; simpl; auto. unfold hit at 1. now rewrite Ha, IH.
    - induction Hr as [|a r Ha Hr IH]; simpl; auto. unfold hit at 1. now rewrite Ha, IH.
  Qed.
  Lemma s_insert_none cmp k v l r : allq (cmp k) Gt l -> allq (cmp k) Lt r ->
    s_insert cmp k v (l ++ r) = l ++ (k, v) :: r.
  Proof.
    intros Hl Hr. induction Hl as [|[a1 a2] l Ha Hl IH]; simpl in *.
    - destruct Hr as [|[b1 b2] r Hb Hr]; simpl in *; auto. now rewrite Hb.
    - now rewrite Ha, IH.
  Qed.
  Lemma s_insert_some cmp k v l x r : allq (cmp k) Gt l -> cmp k (fst x) = Eq ->
    s_insert cmp k v (l ++ x :: r) = l ++ (fst x, v) :: r.
  Proof.
    intros Hl Hx. induction Hl as [|[a1 a2] l Ha Hl IH]; simpl in *.
    - destruct x. simpl in *. now rewrite Hx.
    - now rewrite Ha, IH.
  Qed.
End Search.
