(** * BTreeInsert: insertion, addresses, updates *)
From Coq Require Import List Arith Lia Bool Sorted.
From Verif Require Import Base MapSpec BTreeModel BTreeInv BTreeLemmas BTreeSearch.
Import ListNotations.
Set Implicit Arguments.

(** ** slice_insert *)
Section SI.
  Context {A : Type}.
  Implicit Types (l : list A) (x : A).
  Lemma skipn_skipn_ a b l : skipn a (skipn b l) = skipn (b + a) l.
  Proof.
    revert l. induction b as [|b IH]; intros l; [reflexivity|].
    destruct l as [|y l]; [now rewrite !skipn_nil|]. simpl. apply IH.
  Qed.
  Lemma si_firstn_le i m x l : i <= m -> m <= length l ->
    firstn (S m) (slice_insert i x l) = slice_insert i x (firstn m l).
  Proof.
    intros Hi Hm. unfold slice_insert. rewrite firstn_app, firstn_length.
    rewrite firstn_firstn. replace (min (S m) i) with i by lia.
    replace (S m - min i (length l)) with (S (m - i)) by lia.
    rewrite firstn_cons, firstn_firstn. replace (min i m) with i by lia.
    f_equal. f_equal. rewrite firstn_skipn_comm. now replace (i + (m - i)) with m by lia.
  Qed.
  Lemma si_skipn_le i m x l : i <= m -> m <= length l ->
    skipn (S m) (slice_insert i x l) = skipn m l.
  Proof.
    intros Hi Hm. unfold slice_insert. rewrite skipn_app, firstn_length.
    replace (S m - min i (length l)) with (S (m - i)) by lia.
    rewrite skipn_all2 by (rewrite firstn_length; lia). simpl.
    rewrite skipn_skipn_. f_equal. lia.
  Qed.
  Lemma si_firstn_ge i m x l : m <= i -> i <= length l ->
    firstn m (slice_insert i x l) = firstn m l.
  Proof.
    intros Hi Hm. unfold slice_insert. rewrite firstn_app, firstn_length.
    replace (m - min i (length l)) with 0 by lia. rewrite firstn_O, app_nil_r, firstn_firstn.
    f_equal. lia.
  Qed.
  Lemma si_skipn_ge i m x l : m <= i -> i <= length l ->
    skipn m (slice_insert i x l) = slice_insert (i - m) x (skipn m l).
  Proof.
    intros Hi Hm. unfold slice_insert. rewrite skipn_app, firstn_length.
    replace (m - min i (length l)) with 0 by lia. rewrite skipn_O.
    rewrite skipn_firstn_comm. f_equal. f_equal. rewrite skipn_skipn_. f_equal. lia.
  Qed.
  Lemma si_nth_lt i j x l : j < i -> i <= length l -> nth_error (slice_insert i x l) j = nth_error l j.
  Proof.
    intros H1 H2. unfold slice_insert. rewrite nth_error_app1 by (rewrite firstn_length; lia).
    rewrite <- (firstn_skipn i l) at 2. rewrite nth_error_app1; auto. rewrite firstn_length; lia.
  Qed.
  Lemma si_nth_gt i j x l : i < j -> i <= length l -> nth_error (slice_insert i x l) j = nth_error l (j - 1).
  Proof.
    intros H1 H2. unfold slice_insert. rewrite nth_error_app2 by (rewrite firstn_length; lia).
    rewrite firstn_length. replace (j - min i (length l)) with (S (j - 1 - i)) by lia. simpl.
    rewrite <- (firstn_skipn i l) at 2. rewrite nth_error_app2; rewrite firstn_length; [|lia]. f_equal; lia.
  Qed.
  Lemma si_nth_eq i x l : i <= length l -> nth_error (slice_insert i x l) i = Some x.
  Proof.
    intros H. unfold slice_insert. rewrite nth_error_app2 by (rewrite firstn_length; lia).
    rewrite firstn_length. replace (i - min i (length l)) with 0 by lia. reflexivity.
  Qed.
  Lemma nth_error_firstn l m j : j < m -> nth_error (firstn m l) j = nth_error l j.
  Proof.
    revert m j. induction l as [|a l IH]; intros m j H; [now rewrite firstn_nil|].
    destruct m; [lia|]. simpl. destruct j; simpl; auto. apply IH. lia.
  Qed.
  Lemma nth_error_skipn l m j : nth_error (skipn m l) j = nth_error l (m + j).
  Proof.
    revert m j. induction l as [|a l IH]; intros m j; [rewrite skipn_nil; now destruct j, m|].
    destruct m; simpl; auto.
  Qed.
End SI.

Section Insert.
  Variables (K V : Type).
  Notation node := (node K V).
  Notation frame := (frame K V).
  Notation ctx := (ctx K V).
  Notation handle := (handle K V).
  Notation bmap := (bmap K V).
  Implicit Types (n : node) (c : ctx) (f : frame) (hd : handle) (m : bmap).

  (** ** Addresses *)
  Fixpoint node_at n (p : list nat) : option node :=
    match p with
    | [] => Some n
    | j :: p' => match nth_error (edges n) j with Some e => node_at e p' | None => None end
    end.
  Definition kv_at n (a : addr) : option (K * V) :=
    match node_at n (fst a) with Some e => nth_error (kvs e) (snd a) | None => None end.

  Lemma kv_at_nil n i : kv_at n ([], i) = nth_error (kvs n) i.
  Proof. reflexivity. Qed.
  Lemma kv_at_cons n j p i e : nth_error (edges n) j = Some e -> kv_at n (j :: p, i) = kv_at e (p, i).
  Proof. intros H. unfold kv_at. simpl. now rewrite H. Qed.
  Lemma kv_at_fill f n p i : kv_at (fill f n) (fidx f :: p, i) = kv_at n (p, i).
  Proof.
    apply kv_at_cons. unfold fill, fidx. cbn [edges]. rewrite nth_error_app2, Nat.sub_diag by lia. reflexivity.
  Qed.
  Lemma kv_at_plug c : forall n p i, kv_at (plug n c) (cpath c ++ p, i) = kv_at n (p, i).
  Proof.
    induction c as [|f c IH]; intros n p i; [reflexivity|].
    rewrite cpath_cons, <- app_assoc. simpl. rewrite IH. apply kv_at_fill.
  Qed.

  (** ** Writing through an address *)
  Lemma update_node_ok P h : forall n p i g x, kids P h n -> kv_at n (p, i) = Some x -> length p <= h ->
    exists n' l r, update_node p i g n = Some n' /\ inorder n = l ++ x :: r /\ inorder n' = l ++ g x :: r /\
      nlen n' = nlen n /\ kids P h n' /\ kv_at n' (p, i) = Some (g x).
  Proof.
    intros n p. revert h n. induction p as [|j p IH]; intros h n i g x Hk Ha Hp.
    - rewrite kv_at_nil in Ha. simpl. destruct (@pick_lt _ i (kvs n)) as (a & y & z & Hpk).
      { apply nth_error_Some. congruence. }
      rewrite Hpk. pose proof (@kv_split K V P h n i a y z Hk Hpk) as Hin.
      assert (y = x) by (unfold pick in Hpk; rewrite Ha in Hpk; congruence). subst y.
      pose proof (pick_some _ _ Hpk) as [En Hl].
      set (n' := Node (a ++ g x :: z) (edges n)).
      assert (Hk' : kids P h n').
      { destruct h; simpl in *; auto. unfold nlen in *. simpl. rewrite En in Hk.
        rewrite !app_length in *. simpl in *. auto. }
      assert (Hpk' : pick i (kvs n') = Some (a, g x, z)) by (apply pick_app'; auto).
      pose proof (@kv_split K V P h n' i _ _ _ Hk' Hpk') as Hin'.
      exists n', (nleft n i), (nright n i). repeat split; auto.
      + rewrite Hin'. unfold nleft, nright, n'. cbn [edges kvs]. rewrite En.
        rewrite !firstn_app_len by auto.
        replace (skipn (S i) (a ++ g x :: z)) with z
            by (change (g x :: z) with ([g x] ++ z); rewrite app_assoc; symmetry; apply skipn_app_len; rewrite app_length; simpl; lia).
        replace (skipn (S i) (a ++ x :: z)) with z
            by (change (x :: z) with ([x] ++ z); rewrite app_assoc; symmetry; apply skipn_app_len; rewrite app_length; simpl; lia).
        reflexivity.
      + unfold nlen, n'. simpl. rewrite En, !app_length. reflexivity.
      + rewrite kv_at_nil. unfold pick in Hpk'. destruct (nth_error (kvs n') i); congruence.
    - destruct h; simpl in Hp; [lia|].
      destruct (nth_error (edges n) j) as [e|] eqn:Ej; [|unfold kv_at in Ha; simpl in Ha; rewrite Ej in Ha; discriminate].
      rewrite (kv_at_cons _ _ _ _ Ej) in Ha.
      assert (Hj : j < length (edges n)) by (apply nth_error_Some; congruence).
      destruct (pick_lt _ Hj) as (a & e' & z & Hpk). simpl. rewrite Hpk.
      assert (e' = e) by (unfold pick in Hpk; rewrite Ej in Hpk; congruence). subst e'.
      pose proof (pick_some _ _ Hpk) as [En Hl].
      pose proof Hk as [Hlen Hall].
      rewrite En in Hall. apply Forall_app in Hall. destruct Hall as [Hall1 Hall2]. inversion Hall2; subst.
      destruct H1 as [HPe Hke].
      destruct (IH h e i g x Hke Ha ltac:(lia)) as (e' & l & r & Hu & Hi & Hi' & Hn & Hk' & Ha').
      rewrite Hu. set (f := Frame (kvs n) a z).
      assert (Hf : frame_ok f).
      { unfold frame_ok, f. simpl. rewrite En in Hlen. rewrite app_length in Hlen. simpl in Hlen. unfold nlen in Hlen. lia. }
      assert (E1 : n = fill f e) by (unfold fill, f; cbn [fk fl fr]; rewrite <- En; apply node_eta).
      exists (fill f e'), (before f ++ l), (r ++ after f).
      split; [reflexivity|]. rewrite E1 at 1. rewrite !inorder_fill, Hi, Hi' by auto.
      split; [now rewrite <- !app_assoc|]. split; [now rewrite <- !app_assoc|].
      split; [rewrite E1; reflexivity|]. split.
      + apply (@fill_kids K V P h f e'). unfold f at 2 3; cbn [fl fr]. repeat split; auto. now rewrite Hn.
      + change (length a) with (fidx f). now rewrite kv_at_fill.
  Qed.

  (** ** Splitting one node *)
  Lemma split_node_ok P h n i : kids P h n -> i < nlen n ->
    exists l y r, split_node n i = Some (l, y, r) /\ inorder n = inorder l ++ y :: inorder r /\
      kids P h l /\ kids P h r /\ nlen l = i /\ nlen r = nlen n - i - 1 /\
      edges l = firstn (i + 1) (edges n) /\ edges r = skipn (i + 1) (edges n) /\
      kvs l = firstn i (kvs n) /\ kvs r = skipn (i + 1) (kvs n) /\ nth_error (kvs n) i = Some y.
  Proof.
    intros Hk Hi. unfold split_node. destruct (@pick_lt _ i (kvs n) Hi) as (a & x & z & Hp). rewrite Hp.
    do 3 eexists. split; [reflexivity|]. pose proof (@kv_split K V P h n i a x z Hk Hp) as Hin.
    pose proof (pick_some _ _ Hp) as [En Hl]. unfold nleft, nright in Hin.
    assert (Hz : skipn (S i) (kvs n) = z).
    { rewrite En. change (x :: z) with ([x] ++ z). rewrite app_assoc. apply skipn_app_len. rewrite app_length. simpl. lia. }
    assert (Hfa : firstn i (kvs n) = a) by (rewrite En; now apply firstn_app_len).
    rewrite Hz, Hfa in Hin. replace (i + 1) with (S i) by lia. rewrite Hz, Hfa.
    split. { rewrite Hin. rewrite !inorder_eq. reflexivity. }
    assert (Hnl : nlen n = i + 1 + length z) by (unfold nlen; rewrite En, app_length; simpl; lia).
    assert (Hk2 : kids P h (Node a (firstn (S i) (edges n))) /\ kids P h (Node z (skipn (S i) (edges n)))).
    { destruct h.
      - cbn [kids edges] in *. rewrite Hk. auto.
      - rewrite !kids_S in *. destruct Hk as [Hel Hall]. unfold nlen in *. cbn [kvs edges].
        rewrite firstn_length, skipn_length.
        rewrite <- (firstn_skipn (S i)), Forall_app in Hall.
        assert (length a = i) by auto. split; split; try tauto; lia. }
    unfold nlen in *. cbn [kvs edges]. destruct Hk2. repeat split; auto; try lia.
    unfold pick in Hp. destruct (nth_error (kvs n) i); congruence.
  Qed.

  (** ** Inserting into one node = inserting, then splitting the overfull node *)
  Definition fit (h i : nat) (x : K * V) (e : option node) n : node :=
    match e with None => leaf_insert_fit i x n | Some e => internal_insert_fit i x e n end.

  Lemma split_fit_eq (eo : option node) n i x l y r :
    nlen n = CAPACITY -> i <= CAPACITY ->
    (match eo with None => edges n = [] | Some _ => length (edges n) = S CAPACITY end) ->
    split_node n B_ = Some (l, y, r) ->
    (if i <=? B_ then Some (fit 0 i x eo l, y, r) else Some (l, y, fit 0 (i - (B_ + 1)) x eo r)) =
    split_node (fit 0 i x eo n) (if i <=? B_ then B_ + 1 else B_).
  Proof.
    intros Hn Hi He Hs. unfold split_node in *. unfold nlen in Hn.
    assert (Hk : kvs (fit 0 i x eo n) = slice_insert i x (kvs n)) by (destruct eo; reflexivity).
    rewrite Hk. unfold pick in *.
    destruct (nth_error (kvs n) B_) as [y'|] eqn:E6; [|discriminate]. injection Hs; intros; subst l y r; clear Hs.
    destruct (Nat.leb_spec i B_) as [Hle|Hgt].
    - rewrite si_nth_gt by nlia. replace (B_ + 1 - 1) with B_ by lia. rewrite E6.
      replace (B_ + 1) with (S B_) by lia. rewrite si_firstn_le, si_skipn_le by nlia.
      destruct eo; cbn [fit leaf_insert_fit internal_insert_fit edges kvs].
      + unfold internal_insert_fit. cbn [edges kvs].
        replace (S B_ + 1) with (S (S B_)) by lia.
        rewrite si_firstn_le, si_skipn_le by nlia. reflexivity.
      + unfold leaf_insert_fit. cbn [edges kvs]. rewrite He, !firstn_nil, !skipn_nil. reflexivity.
    - rewrite si_nth_lt by nlia. rewrite E6.
      rewrite si_firstn_ge by nlia. replace (B_ + 1) with (S B_) by lia. rewrite (@si_skipn_ge _ i (S B_)) by nlia.
      destruct eo; cbn [fit].
      + unfold internal_insert_fit. cbn [edges kvs].
        rewrite si_firstn_ge, si_skipn_ge by nlia.
        replace (i + 1 - S B_) with (i - S B_ + 1) by nlia. reflexivity.
      + unfold leaf_insert_fit. cbn [edges kvs]. rewrite He, !firstn_nil, !skipn_nil. reflexivity.
  Qed.

  (** the overfull (or fitting) node after an internal insertion *)
  Lemma internal_fit_ok P h f l r x : frame_ok f -> Forall (sub P h) (fl f) -> Forall (sub P h) (fr f) ->
    sub P h l -> sub P h r ->
    let n := internal_insert_fit (fidx f) x r (fill f l) in
    kids P (S h) n /\ nlen n = S (length (fk f)) /\
    inorder n = before f ++ inorder l ++ x :: inorder r ++ after f /\
    nth_error (edges n) (fidx f) = Some l /\ nth_error (edges n) (fidx f + 1) = Some r.
  Proof.
    intros Hf Hl Hr Hsl Hsr n. unfold frame_ok in Hf.
    destruct (@split_at _ (fk f) (fidx f)) as (k1 & k2 & Ek & Hk1); [unfold fidx; lia|].
    assert (Hk2 : length k2 = length (fr f)).
    { rewrite Ek, app_length in Hf. unfold fidx in Hk1. lia. }
    assert (Ekn : kvs n = k1 ++ x :: k2).
    { unfold n, internal_insert_fit, fill. cbn [kvs]. rewrite Ek. now apply slice_insert_app. }
    assert (Een : edges n = fl f ++ l :: r :: fr f).
    { unfold n, internal_insert_fit, fill. cbn [edges]. change (fl f ++ l :: fr f) with (fl f ++ [l] ++ fr f).
      rewrite app_assoc, slice_insert_app by (rewrite app_length; simpl; unfold fidx; lia).
      now rewrite <- app_assoc. }
    split; [|split; [|split; [|split]]].
    - apply kids_S. unfold nlen. rewrite Ekn, Een, !app_length. cbn [length]. unfold fidx in Hk1. split; [lia|].
      apply Forall_app. split; auto.
    - unfold nlen. rewrite Ekn, Ek, !app_length. simpl. lia.
    - rewrite inorder_eq, Ekn, Een. unfold before, after. rewrite Ek, firstn_app_len, skipn_app_len by auto.
      rewrite map_app. cbn [map]. change (inorder l :: inorder r :: map (@inorder K V) (fr f))
        with ([inorder l] ++ inorder r :: map (@inorder K V) (fr f)).
      rewrite app_assoc, weave_cut by (rewrite app_length, map_length; simpl; unfold fidx in Hk1; lia).
      replace k1 with (k1 ++ []) at 1 by apply app_nil_r.
      rewrite weave_split by (rewrite ?map_length; unfold fidx in Hk1; simpl; lia).
      rewrite <- (app_nil_l k2) at 1. change (inorder r :: map (@inorder K V) (fr f)) with ([] ++ inorder r :: map (@inorder K V) (fr f)).
      rewrite weave_split by (rewrite ?map_length; auto). simpl. rewrite app_nil_r. now rewrite <- !app_assoc.
    - rewrite Een. rewrite nth_error_app2, Nat.sub_diag by (unfold fidx; lia). reflexivity.
    - rewrite Een, nth_error_app2 by (unfold fidx; lia). unfold fidx. replace (length (fl f) + 1 - length (fl f)) with 1 by lia. reflexivity.
  Qed.

  Section Alloc.
    Variable W : Type.
    Variable nalloc : bool -> W -> option reserve_error * W.
    Implicit Types w : W.

    (** a refused request: the world saw a request that was not granted *)
    Definition refused (e : reserve_error) : Prop := exists b w w', nalloc b w = (Some e, w').

    Notation cokf := (cok fair root_fair).

    Lemma insert_up_ok (c : ctx) : forall h (l : node) (x : K * V) (r : node) (right : bool) (a : addr) w (x0 : K * V),
      sub fair h l -> sub fair h r -> cokf h c ->
      kv_at (if right then r else l) a = Some x0 -> length (fst a) <= h ->
      let '(o, (n, H'), w') := insert_up nalloc (h + length c) l x r right a c w in
      let whole := cbefore c ++ inorder l ++ x :: inorder r ++ cafter c in
      match o with
      | Ret a' => balanced H' n /\ inorder n = whole /\ kv_at n a' = Some x0 /\ length (fst a') <= H'
      | Err e => refused e /\ balanced H' n /\ H' = h + length c /\
                 exists L lost Rr, whole = L ++ lost ++ Rr /\ inorder n = L ++ Rr /\ lost <> []
      | _ => False
      end.
    Proof.
      induction c as [|f c IH]; intros h l x r right a w x0 Hl Hr Hc Ha Hp.
      - cbn [length plug insert_up cbefore cafter]. rewrite Nat.add_0_r, app_nil_r. unfold push_level.
        destruct (nalloc true w) as [[e|] w'] eqn:Ew.
        + destruct Hl as [Hl1 Hl2]. split; [exists true, w, w'; auto|]. split; [split; auto; nlia|]. split; [auto|].
          exists (inorder l), (x :: inorder r), []. rewrite !app_nil_r. repeat split; auto; discriminate.
        + simpl push. replace (h + 1) with (S h) by lia. split; [|split; [|split]].
          * split; [unfold nlen; cbn [kvs]; nlia|]. apply kids_S. simpl. split; auto.
          * simpl. rewrite app_nil_r. reflexivity.
          * destruct a as [p i]. destruct right; simpl; apply kv_at_cons with (e := if right then r else l) || idtac;
              unfold kv_at in *; simpl in *; exact Ha.
          * simpl. lia.
      - destruct Hc as (Hf & Hfl & Hfr & Hb & Hc').
        pose proof (@internal_fit_ok fair h f l r x Hf Hfl Hfr Hl Hr) as Hfit. cbv zeta in Hfit.
        set (big := internal_insert_fit (fidx f) x r (fill f l)) in *.
        destruct Hfit as (Hbk & Hbn & Hbi & Hbl & Hbr).
        set (j := if right then fidx f + 1 else fidx f).
        assert (Hj : nth_error (edges big) j = Some (if right then r else l)) by (destruct right; auto).
        assert (Hju : j <= fidx f + 1 /\ fidx f <= j) by (unfold j; destruct right; lia).
        assert (Hfi : fidx f <= length (fk f)) by (unfold frame_ok in Hf; unfold fidx; lia).
        assert (Hcap : length (fk f) <= CAPACITY).
        { destruct c; simpl in Hb; [destruct Hb|unfold fair in Hb]; nlia. }
        assert (Hlow : fair (length (fk f)) \/ c = []).
        { destruct c; auto. }
        cbn [insert_up]. unfold internal_insert. fold j. rewrite nlen_fill.
        destruct (Nat.ltb_spec (length (fk f)) CAPACITY) as [Hlt|Hge].
        + (* fits *)
          fold big. replace (h + length (f :: c)) with (S h + length c) by (simpl; lia).
          assert (Hbal : balanced (S h + length c) (plug big c)).
          { apply (proj1 (plug_ok fair root_fair c (S h) big)). split; [|split; auto].
            rewrite Hbn. destruct c; simpl in *; nlia. }
          split; [exact Hbal|]. split; [|split].
          * rewrite inorder_plug by (eapply cok_frames; eauto). rewrite Hbi. cbn [cbefore cafter].
            rewrite <- !app_assoc. cbn [app]. now rewrite <- !app_assoc.
          * destruct a as [p i]. cbn [fst snd]. rewrite kv_at_plug. rewrite (kv_at_cons _ _ _ _ Hj). exact Ha.
          * cbn [fst]. rewrite app_length. unfold cpath. rewrite rev_length, map_length. simpl. destruct a; simpl in *. lia.
        + (* full *)
          destruct (nalloc true w) as [[e|] w'] eqn:Ew.
          * split; [exists true, w, w'; auto|].
            replace (h + length (f :: c)) with (S h + length c) by (simpl; lia).
            split; [|split; auto].
            -- apply (proj1 (plug_ok fair root_fair c (S h) (fill f l))). split; [|split; auto].
               ++ rewrite nlen_fill. exact Hb.
               ++ apply fill_kids; auto.
            -- exists (cbefore (f :: c) ++ inorder l), (x :: inorder r), (cafter (f :: c)).
               rewrite inorder_plug by (eapply cok_frames; eauto). rewrite inorder_fill by auto.
               cbn [cbefore cafter]. rewrite <- !app_assoc. cbn [app]. repeat split; auto. discriminate.
          * assert (Hfk : kids fair (S h) (fill f l)) by (apply fill_kids; auto).
            destruct (@split_node_ok fair (S h) (fill f l) B_ Hfk) as (l0 & y0 & r0 & Hs0 & _); [rewrite nlen_fill; nlia|].
            rewrite Hs0.
            pose proof (@split_fit_eq (Some r) (fill f l) (fidx f) x l0 y0 r0) as Heq.
            rewrite nlen_fill in Heq.
            specialize (Heq ltac:(lia) ltac:(lia)
              ltac:(destruct Hfk as [Hfe _]; rewrite Hfe, nlen_fill; f_equal; lia) Hs0).
            cbn [fit] in Heq. fold big in Heq.
            destruct (Nat.leb_spec (fidx f) B_) as [Hle|Hgt].
            -- destruct (@split_node_ok fair (S h) big (B_ + 1) Hbk) as (l' & y & r' & Hs & Hin & Hkl & Hkr & Hnl & Hnr & Hel & _); [nlia|].
               rewrite Hs in Heq. replace (internal_insert_fit (fidx f) x r l0) with l' by congruence; replace y0 with y by congruence; replace r0 with r' by congruence.
               replace (h + length (f :: c)) with (S h + length c) by (simpl; lia).
               pose proof (IH (S h) l' y r' false (j :: fst a, snd a) w' x0) as HI.
               destruct (insert_up nalloc (S h + length c) l' y r' false (j :: fst a, snd a) c w') as [[o [n H']] w''].
               cbv zeta in *.
               assert (Ew2 : cbefore (f :: c) ++ inorder l ++ x :: inorder r ++ cafter (f :: c) =
                             cbefore c ++ inorder l' ++ y :: inorder r' ++ cafter c).
               { cbn [cbefore cafter]. transitivity (cbefore c ++ inorder big ++ cafter c).
                 - rewrite Hbi. rewrite <- !app_assoc. cbn [app]. now rewrite <- !app_assoc.
                 - rewrite Hin. rewrite <- !app_assoc. reflexivity. }
               rewrite Ew2. apply HI; auto.
               ++ split; auto. nlia.
               ++ split; auto. rewrite Hnr, Hbn. nlia.
               ++ destruct a as [p i]. cbn [fst snd]. rewrite (kv_at_cons l' j p i (e := if right then r else l)); auto.
                  rewrite Hel, nth_error_firstn by nlia. exact Hj.
               ++ cbn [fst length]. lia.
            -- destruct (@split_node_ok fair (S h) big B_ Hbk) as (l' & y & r' & Hs & Hin & Hkl & Hkr & Hnl & Hnr & _ & Her & _); [nlia|].
               rewrite Hs in Heq. replace (internal_insert_fit (fidx f - (B_ + 1)) x r r0) with r' by congruence; replace y0 with y by congruence; replace l0 with l' by congruence.
               replace (h + length (f :: c)) with (S h + length c) by (simpl; lia).
               pose proof (IH (S h) l' y r' true (j - (B_ + 1) :: fst a, snd a) w' x0) as HI.
               destruct (insert_up nalloc (S h + length c) l' y r' true (j - (B_ + 1) :: fst a, snd a) c w') as [[o [n H']] w''].
               cbv zeta in *.
               assert (Ew2 : cbefore (f :: c) ++ inorder l ++ x :: inorder r ++ cafter (f :: c) =
                             cbefore c ++ inorder l' ++ y :: inorder r' ++ cafter c).
               { cbn [cbefore cafter]. transitivity (cbefore c ++ inorder big ++ cafter c).
                 - rewrite Hbi. rewrite <- !app_assoc. cbn [app]. now rewrite <- !app_assoc.
                 - rewrite Hin. rewrite <- !app_assoc. reflexivity. }
               rewrite Ew2. apply HI; auto.
               ++ split; auto. nlia.
               ++ split; auto. rewrite Hnr, Hbn. nlia.
               ++ destruct a as [p i]. cbn [fst snd]. rewrite (kv_at_cons r' (j - (B_ + 1)) p i (e := if right then r else l)); auto.
                  rewrite Her, nth_error_skipn. replace (B_ + 1 + (j - (B_ + 1))) with j by nlia. exact Hj.
               ++ cbn [fst length]. lia.
    Qed.

    (** ** vacant_insert *)
    Lemma vacant_insert_ok m k hd v w :
      balanced (bheight m) (bnode m) -> hok fair root_fair (bheight m) (bnode m) hd -> hh hd = 0 -> hi hd <= nlen (hn hd) ->
      let L := cbefore (hc hd) ++ firstn (hi hd) (kvs (hn hd)) in
      let Rr := skipn (hi hd) (kvs (hn hd)) ++ cafter (hc hd) in
      let '(o, m', w') := vacant_insert nalloc m k hd v w in
      bshared m' = bshared m /\ blen m' = blen m + 1 /\ balanced (bheight m') (bnode m') /\
      match o with
      | Ret a => entries m' = L ++ (k, v) :: Rr /\ kv_at (bnode m') a = Some (k, v) /\ length (fst a) <= bheight m'
      | Err e => refused e /\
                 exists L1 lost R1, L ++ (k, v) :: Rr = L1 ++ lost ++ R1 /\ entries m' = L1 ++ R1 /\ lost <> []
      | _ => False
      end.
    Proof.
      intros Hbal (Hp & HH & Hb & Hk & Hc) H0 Hi L Rr. unfold vacant_insert, leaf_insert.
      rewrite H0 in *. cbn [Nat.add] in HH. simpl in Hk.
      destruct (@split_at _ (kvs (hn hd)) (hi hd) Hi) as (k1 & k2 & Ek & Hk1).
      assert (EL : L = cbefore (hc hd) ++ k1) by (unfold L; now rewrite Ek, firstn_app_len).
      assert (ER : Rr = k2 ++ cafter (hc hd)) by (unfold Rr; now rewrite Ek, skipn_app_len).
      assert (Ebig : leaf_insert_fit (hi hd) (k, v) (hn hd) = Node (k1 ++ (k, v) :: k2) []).
      { unfold leaf_insert_fit. now rewrite Hk, Ek, slice_insert_app. }
      assert (Hcap : nlen (hn hd) <= CAPACITY).
      { destruct (hc hd); simpl in Hb; [destruct Hb|unfold fair in Hb]; nlia. }
      destruct (Nat.ltb_spec (nlen (hn hd)) CAPACITY) as [Hlt|Hge].
      - rewrite Ebig. cbn [bshared blen bheight bnode]. split; auto. split; auto.
        assert (Hb' : balanced (bheight m) (plug (Node (k1 ++ (k, v) :: k2) []) (hc hd))).
        { rewrite <- HH. apply (proj1 (plug_ok fair root_fair (hc hd) 0 _)). split; [|split; [reflexivity|auto]].
          unfold nlen in *. rewrite Ek, app_length in Hlt. simpl. rewrite app_length. simpl.
          unfold nlen in Hb. rewrite Ek, app_length in Hb. destruct (hc hd); simpl in *; nlia. }
        split; [exact Hb'|]. unfold entries. cbn [bnode]. split; [|split].
        + rewrite inorder_plug by (eapply cok_frames; eauto). rewrite inorder_leaf, EL, ER. now rewrite <- !app_assoc.
        + unfold hpath. rewrite <- (app_nil_r (cpath (hc hd))), kv_at_plug, kv_at_nil. cbn [kvs].
          rewrite nth_error_app2, Hk1, Nat.sub_diag by lia. reflexivity.
        + cbn [fst]. unfold hpath, cpath. rewrite rev_length, map_length. lia.
      - destruct (nalloc false w) as [[e|] w'] eqn:Ew.
        + cbn [bshared blen bheight bnode]. repeat split; auto; try apply Hbal.
          * exists false, w, w'; auto.
          * exists L, [(k, v)], Rr. repeat split; [|discriminate]. unfold entries. cbn [bnode].
            rewrite <- Hp. rewrite inorder_plug by (eapply cok_frames; eauto).
            rewrite inorder_eq, Hk, EL, ER, Ek. simpl. now rewrite <- !app_assoc.
        + assert (Hkn : kids fair 0 (hn hd)) by exact Hk.
          destruct (@split_node_ok fair 0 (hn hd) B_ Hkn) as (l0 & y0 & r0 & Hs0 & _); [nlia|].
          rewrite Hs0.
          pose proof (@split_fit_eq None (hn hd) (hi hd) (k, v) l0 y0 r0 ltac:(lia) ltac:(lia) Hk Hs0) as Heq.
          cbn [fit] in Heq.
          set (big := leaf_insert_fit (hi hd) (k, v) (hn hd)) in *.
          assert (Hbk : kids fair 0 big) by (rewrite Ebig; reflexivity).
          assert (Hbn : nlen big = S CAPACITY).
          { rewrite Ebig. unfold nlen. simpl. rewrite app_length. simpl. unfold nlen in *. rewrite Ek, app_length in *. nlia. }
          assert (Hbi : inorder big = k1 ++ (k, v) :: k2) by (rewrite Ebig; reflexivity).
          assert (Hbx : nth_error (kvs big) (hi hd) = Some (k, v)).
          { rewrite Ebig. simpl. rewrite nth_error_app2, Hk1, Nat.sub_diag by lia. reflexivity. }
          destruct (Nat.leb_spec (hi hd) B_) as [Hle|Hgt].
          * destruct (@split_node_ok fair 0 big (B_ + 1) Hbk) as (l' & y & r' & Hs & Hin & Hkl & Hkr & Hnl & Hnr & _ & _ & Hkvl & _); [nlia|].
            rewrite Hs in Heq. replace (leaf_insert_fit (hi hd) (k, v) l0) with l' by congruence; replace y0 with y by congruence; replace r0 with r' by congruence.
            pose proof (@insert_up_ok (hc hd) 0 l' y r' false ([], hi hd) w' (k, v)) as HI.
            cbn [Nat.add] in HI. rewrite HH in HI.
            destruct (insert_up nalloc (bheight m) l' y r' false ([], hi hd) (hc hd) w') as [[o [n H']] w''].
            cbv zeta in HI.
            assert (Ew2 : L ++ (k, v) :: Rr = cbefore (hc hd) ++ inorder l' ++ y :: inorder r' ++ cafter (hc hd)).
            { rewrite EL, ER. transitivity (cbefore (hc hd) ++ inorder big ++ cafter (hc hd)).
              - rewrite Hbi. now rewrite <- !app_assoc.
              - rewrite Hin. now rewrite <- !app_assoc. }
            rewrite <- Ew2 in HI. cbn [bshared blen bheight bnode]. unfold entries. cbn [bnode].
            specialize (HI ltac:(split; auto; nlia) ltac:(split; auto; nlia) Hc
              ltac:(rewrite kv_at_nil, Hkvl, nth_error_firstn by nlia; exact Hbx) ltac:(simpl; lia)).
            destruct o; try contradiction; tauto.
          * destruct (@split_node_ok fair 0 big B_ Hbk) as (l' & y & r' & Hs & Hin & Hkl & Hkr & Hnl & Hnr & _ & _ & _ & Hkvr & _); [nlia|].
            rewrite Hs in Heq. replace (leaf_insert_fit (hi hd - (B_ + 1)) (k, v) r0) with r' by congruence; replace y0 with y by congruence; replace l0 with l' by congruence.
            pose proof (@insert_up_ok (hc hd) 0 l' y r' true ([], hi hd - (B_ + 1)) w' (k, v)) as HI.
            cbn [Nat.add] in HI. rewrite HH in HI.
            destruct (insert_up nalloc (bheight m) l' y r' true ([], hi hd - (B_ + 1)) (hc hd) w') as [[o [n H']] w''].
            cbv zeta in HI.
            assert (Ew2 : L ++ (k, v) :: Rr = cbefore (hc hd) ++ inorder l' ++ y :: inorder r' ++ cafter (hc hd)).
            { rewrite EL, ER. transitivity (cbefore (hc hd) ++ inorder big ++ cafter (hc hd)).
              - rewrite Hbi. now rewrite <- !app_assoc.
              - rewrite Hin. now rewrite <- !app_assoc. }
            rewrite <- Ew2 in HI. cbn [bshared blen bheight bnode]. unfold entries. cbn [bnode].
            specialize (HI ltac:(split; auto; nlia) ltac:(split; auto; nlia) Hc
              ltac:(rewrite kv_at_nil, Hkvr, nth_error_skipn; replace (B_ + 1 + (hi hd - (B_ + 1))) with (hi hd) by nlia; exact Hbx)
              ltac:(simpl; lia)).
            destruct o; try contradiction; tauto.
    Qed.
  End Alloc.
End Insert.
