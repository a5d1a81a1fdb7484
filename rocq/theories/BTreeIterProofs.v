(** * BTreeIterProofs: all sequences of iterator calls; drop *)
From Coq Require Import List Arith Lia Bool Sorted Permutation.
From Verif Require Import Base MapSpec IterSpec BTreeModel BTreeIterModel BTreeInv BTreeLemmas BTreeSearch BTreeInsert BTreeIter BTreeStep.
Import ListNotations.
Set Implicit Arguments.

Section IterProofs.
  Variables (K V : Type).
  Notation node := (node K V).
  Notation frame := (frame K V).
  Notation ctx := (ctx K V).
  Notation handle := (handle K V).
  Notation bmap := (bmap K V).
  Notation item := (item K V).
  Implicit Types (n T : node) (c : ctx) (f : frame) (hd : handle).

  (** an item points at the place in the tree that holds its pair *)
  Definition points H T (it : item) : Prop := kv_at T (snd it) = Some (fst it) /\ length (fst (snd it)) <= H.

  Definition between H T (a b : nat) (r : range K V) : Prop :=
    leaf_edge H T (rfront r) /\ leaf_edge H T (rback r) /\ pos (rfront r) = a /\ pos (rback r) = b /\ a <= b.

  Lemma between_bound H T a b r : between H T a b r -> a <= b <= length (inorder T).
  Proof. intros (H1 & H2 & <- & <- & Hle). split; auto. eapply pos_le; eauto. Qed.

  (** ** Range *)
  Lemma range_next_ok H T a b r : between H T a b r ->
    if a =? b then exists r', range_next r = Ret (None, r') /\ between H T a b r'
    else exists x r', range_next r = Ret (Some x, r') /\ nth_error (inorder T) a = Some (fst x) /\ points H T x /\ between H T (S a) b r'.
  Proof.
    intros Hb. pose proof (between_bound Hb) as Hn. destruct Hb as (H1 & H2 & E1 & E2 & Hle). unfold range_next. rewrite (handle_eqb_pos H1 H2), E1, E2.
    destruct (Nat.eqb_spec a b) as [E|E].
    - exists r. repeat (split; auto).
    - destruct (next_unchecked_ok H1) as (s & k & Es & Hl & Hp & Hnth & Hkv & Hlen & _); [lia|]. rewrite Es.
      exists (s_kv s, s_addr s), (Range (s_edge s) (rback r)). split; [reflexivity|]. rewrite E1 in *. cbn [fst snd].
      split; auto. split; [split; auto|]. unfold between. cbn [rfront rback]. split; auto. split; auto. split; [lia|]. split; auto. lia.
  Qed.
  Lemma range_next_back_ok H T a b r : between H T a b r ->
    if a =? b then exists r', range_next_back r = Ret (None, r') /\ between H T a b r'
    else exists x r', range_next_back r = Ret (Some x, r') /\ nth_error (inorder T) (b - 1) = Some (fst x) /\ points H T x /\ between H T a (b - 1) r'.
  Proof.
    intros Hb. pose proof (between_bound Hb) as Hn. destruct Hb as (H1 & H2 & E1 & E2 & Hle). unfold range_next_back. rewrite (handle_eqb_pos H1 H2), E1, E2.
    destruct (Nat.eqb_spec a b) as [E|E].
    - exists r. repeat (split; auto).
    - destruct (next_back_unchecked_ok H2) as (s & k & Es & Hl & Hp & Hnth & Hkv & Hlen & _); [lia|]. rewrite Es.
      exists (s_kv s, s_addr s), (Range (rfront r) (s_edge s)). split; [reflexivity|]. rewrite E2 in *. cbn [fst snd].
      split; auto. split; [split; auto|]. unfold between. cbn [rfront rback]. split; auto. split; auto. split; auto. split; lia.
  Qed.

  Lemma range_calls H T a b r ops : between H T a b r ->
    exists outs r' a' b', calls (@range_next K V) (@range_next_back K V) ops r = Ret (outs, r') /\ between H T a' b' r' /\
      dq_run ops (seg (inorder T) a b) = (map (option_map fst) outs, seg (inorder T) a' b') /\ Forall (points H T) (somes outs).
  Proof.
    intros Hb. apply calls_sim with (I := between H T); auto.
    - intros; eapply between_bound; eauto.
    - intros; apply range_next_ok; auto.
    - intros; apply range_next_back_ok; auto.
  Qed.

  (** ** Iter *)
  Definition iter_ok H T (a b : nat) (it : iter K V) : Prop := between H T a b (irange it) /\ ilen it = b - a.

  Lemma iter_next_ok H T a b it : iter_ok H T a b it ->
    if a =? b then exists r', iter_next it = Ret (None, r') /\ iter_ok H T a b r'
    else exists x r', iter_next it = Ret (Some x, r') /\ nth_error (inorder T) a = Some (fst x) /\ points H T x /\ iter_ok H T (S a) b r'.
  Proof.
    intros (Hb & Hl). pose proof (between_bound Hb) as Hn. destruct Hb as (H1 & H2 & E1 & E2 & Hle). unfold iter_next. rewrite Hl.
    destruct (Nat.eqb_spec a b) as [E|E].
    - exists it. assert (b - a = 0) as -> by lia. cbn [Nat.eqb]. split; auto. split; [|lia]. repeat (split; auto).
    - destruct (Nat.eqb_spec (b - a) 0); [lia|].
      destruct (next_unchecked_ok H1) as (s & k & Es & Hle2 & Hp & Hnth & Hkv & Hlen & _); [lia|]. rewrite Es.
      eexists (s_kv s, s_addr s), _. split; [reflexivity|]. rewrite E1 in *. cbn [fst snd].
      split; auto. split; [split; auto|]. split; [|cbn [ilen]; lia]. cbn [irange]. unfold between. cbn [rfront rback].
      split; auto. split; auto. split; [lia|]. split; auto. lia.
  Qed.
  Lemma iter_next_back_ok H T a b it : iter_ok H T a b it ->
    if a =? b then exists r', iter_next_back it = Ret (None, r') /\ iter_ok H T a b r'
    else exists x r', iter_next_back it = Ret (Some x, r') /\ nth_error (inorder T) (b - 1) = Some (fst x) /\ points H T x /\ iter_ok H T a (b - 1) r'.
  Proof.
    intros (Hb & Hl). pose proof (between_bound Hb) as Hn. destruct Hb as (H1 & H2 & E1 & E2 & Hle). unfold iter_next_back. rewrite Hl.
    destruct (Nat.eqb_spec a b) as [E|E].
    - exists it. assert (b - a = 0) as -> by lia. cbn [Nat.eqb]. split; auto. split; [|lia]. repeat (split; auto).
    - destruct (Nat.eqb_spec (b - a) 0); [lia|].
      destruct (next_back_unchecked_ok H2) as (s & k & Es & Hle2 & Hp & Hnth & Hkv & Hlen & _); [lia|]. rewrite Es.
      eexists (s_kv s, s_addr s), _. split; [reflexivity|]. rewrite E2 in *. cbn [fst snd].
      split; auto. split; [split; auto|]. split; [|cbn [ilen]; lia]. cbn [irange]. unfold between. cbn [rfront rback].
      split; auto. split; auto. split; auto. split; lia.
  Qed.

  Lemma first_last_edges H T : kids any H T -> exists (f b : handle), first_leaf_edge H T [] = Some f /\ last_leaf_edge H T [] = Some b /\
    between H T 0 (length (inorder T)) (Range f b) /\ lpaths (hc f) = [] /\ rpaths (hc b) = [].
  Proof.
    intros Hk. destruct (@first_leaf K V H T [] Hk I) as (f & Ef & Hf & Hi & Hcb & Hlp).
    destruct (@last_leaf K V H T [] Hk I) as (b & Eb & Hb & Hi2 & Hps & Hrp).
    exists f, b. cbn [length plug lpaths rpaths] in *. rewrite Nat.add_0_r in *. split; auto. split; auto. split; auto.
    unfold between. cbn [rfront rback]. split; auto. split; auto. split; [unfold pos; rewrite Hcb, Hi; reflexivity|].
    split; [rewrite Hps; reflexivity|lia].
  Qed.

  Lemma map_iter_ok (m : bmap) : shape (bheight m) (bnode m) -> blen m = length (entries m) ->
    exists it, map_iter m = Ret it /\ iter_ok (bheight m) (bnode m) 0 (length (entries m)) it.
  Proof.
    intros Hs Hl. unfold map_iter. destruct (first_last_edges _ _ Hs) as (f & b & -> & -> & Hb & _).
    eexists. split; [reflexivity|]. split; auto. cbn [ilen]. rewrite Hl. unfold entries in *. lia.
  Qed.

  Lemma iter_calls H T a b it ops : iter_ok H T a b it ->
    exists outs it' a' b', calls (@iter_next K V) (@iter_next_back K V) ops it = Ret (outs, it') /\ iter_ok H T a' b' it' /\
      dq_run ops (seg (inorder T) a b) = (map (option_map fst) outs, seg (inorder T) a' b') /\ Forall (points H T) (somes outs).
  Proof.
    intros Hb. apply calls_sim with (I := iter_ok H T); auto.
    - intros ? ? ? [? _]; eapply between_bound; eauto.
    - intros; apply iter_next_ok; auto.
    - intros; apply iter_next_back_ok; auto.
  Qed.

  (** ** IntoIter *)
  Definition into_ok H T (sh : bool) (a b : nat) (it : into_iter K V) : Prop :=
    between H T a b (Range (nfront it) (nback it)) /\ nleft_ it = b - a /\ nshared it = sh /\ (sh = true -> H = 0) /\
    Permutation (nfreed it) (lpaths (hc (nfront it)) ++ rpaths (hc (nback it))).

  Lemma leaf0 T hd : leaf_edge 0 T hd -> hc hd = [].
  Proof. intros (Ho & Hh & _). rewrite hok_any in Ho. destruct Ho as (_ & HH & _). destruct (hc hd); auto. simpl in HH. lia. Qed.

  (** the nodes that an iterator still needs are not among those already left *)
  Lemma front_alive H T a b hd1 hd2 : between H T a b (Range hd1 hd2) ->
    forall q, In q (spine (hc hd1)) -> ~ In q (lpaths (hc hd1) ++ rpaths (hc hd2)).
  Proof.
    intros (H1 & H2 & E1 & E2 & Hle) q Hq Hin. cbn [rfront rback] in *. apply spine_prefix in Hq. destruct Hq as [s Es].
    apply in_app_or in Hin. destruct Hin as [Hin|Hin].
    - apply lpaths_dless in Hin. destruct (dless_not_prefix s Hin) as [_ Hx]. auto.
    - apply rpaths_dless in Hin. apply (dless_app_r s) in Hin. rewrite <- Es in Hin. pose proof (dless_pos H2 H1 Hin). lia.
  Qed.
  Lemma back_alive H T a b hd1 hd2 : between H T a b (Range hd1 hd2) ->
    forall q, In q (spine (hc hd2)) -> ~ In q (lpaths (hc hd1) ++ rpaths (hc hd2)).
  Proof.
    intros (H1 & H2 & E1 & E2 & Hle) q Hq Hin. cbn [rfront rback] in *. apply spine_prefix in Hq. destruct Hq as [s Es].
    apply in_app_or in Hin. destruct Hin as [Hin|Hin].
    - apply lpaths_dless in Hin. apply (dless_app_l s) in Hin. rewrite <- Es in Hin. pose proof (dless_pos H2 H1 Hin). lia.
    - apply rpaths_dless in Hin. destruct (dless_not_prefix s Hin) as [Hx _]. auto.
  Qed.
  Lemma firstn_NoDup A k (l : list A) : NoDup l -> NoDup (firstn k l).
  Proof.
    intros H. revert k. induction H as [|x l Hx Hn IH]; intros [|k]; simpl; constructor; auto.
    intros Hin. apply Hx. rewrite <- (firstn_skipn k l). apply in_or_app; auto.
  Qed.
  Lemma firstn_In_ A k (l : list A) x : In x (firstn k l) -> In x l.
  Proof. intros H. rewrite <- (firstn_skipn k l). apply in_or_app. auto. Qed.

  Lemma into_next_ok H T sh a b it : into_ok H T sh a b it ->
    if a =? b then exists it', into_next it = Ret (None, it') /\ into_ok H T sh a b it'
    else exists x it', into_next it = Ret (Some x, it') /\ nth_error (inorder T) a = Some x /\ True /\ into_ok H T sh (S a) b it'.
  Proof.
    intros (Hb & Hl & Hsh & HH & Hpm). pose proof (between_bound Hb) as Hn. pose proof Hb as (H1 & H2 & E1 & E2 & Hle).
    cbn [rfront rback] in *. unfold into_next. rewrite Hl.
    destruct (Nat.eqb_spec a b) as [E|E].
    - exists it. assert (b - a = 0) as -> by lia. cbn [Nat.eqb]. split; auto. unfold into_ok, between. cbn [rfront rback]. repeat (split; auto); lia.
    - destruct (Nat.eqb_spec (b - a) 0); [lia|].
      rewrite spine_alive_ok. 2:{ intros q Hq Hin. rewrite Hpm in Hin. exact (front_alive Hb _ Hq Hin). } cbn [negb].
      destruct (next_unchecked_ok H1) as (s & k & Es & Hle2 & Hp & Hnth & Hkv & Hlen & Hleft & Hlp); [lia|]. rewrite Es.
      assert (Hb' : between H T (S a) b (Range (s_edge s) (nback it))).
      { unfold between. cbn [rfront rback]. split; auto. split; auto. split; [lia|]. split; auto. lia. }
      assert (Hd : dealloc_all (nshared it) (s_left s) (nfreed it) = Some (rev (s_left s) ++ nfreed it)).
      { destruct (nshared it) eqn:Esh.
        - assert (Hs0 : s_left s = []).
          { subst sh. rewrite (HH eq_refl) in *. rewrite (leaf0 Hle2) in Hlp. cbn [lpaths] in Hlp.
            apply Permutation_nil in Hlp. apply app_eq_nil in Hlp. tauto. }
          rewrite Hs0. reflexivity.
        - apply dealloc_all_ok.
          + rewrite Hleft. apply firstn_NoDup, spine_NoDup.
          + intros q Hq Hin. rewrite Hleft in Hq. apply firstn_In_ in Hq. rewrite Hpm in Hin. exact (front_alive Hb _ Hq Hin). }
      rewrite Hd.
      assert (Hpm' : Permutation (rev (s_left s) ++ nfreed it) (lpaths (hc (s_edge s)) ++ rpaths (hc (nback it)))).
      { rewrite <- Permutation_rev, Hpm, Hlp. now rewrite app_assoc. }
      rewrite spine_alive_ok. 2:{ intros q Hq Hin. rewrite Hpm' in Hin. exact (front_alive Hb' _ Hq Hin). }
      eexists (s_kv s), _. split; [reflexivity|]. rewrite E1 in *. split; auto. split; auto.
      split; auto. cbn [nleft_ nshared nfreed nfront nback]. split; [lia|]. auto.
  Qed.
  Lemma into_next_back_ok H T sh a b it : into_ok H T sh a b it ->
    if a =? b then exists it', into_next_back it = Ret (None, it') /\ into_ok H T sh a b it'
    else exists x it', into_next_back it = Ret (Some x, it') /\ nth_error (inorder T) (b - 1) = Some x /\ True /\ into_ok H T sh a (b - 1) it'.
  Proof.
    intros (Hb & Hl & Hsh & HH & Hpm). pose proof (between_bound Hb) as Hn. pose proof Hb as (H1 & H2 & E1 & E2 & Hle).
    cbn [rfront rback] in *. unfold into_next_back. rewrite Hl.
    destruct (Nat.eqb_spec a b) as [E|E].
    - exists it. assert (b - a = 0) as -> by lia. cbn [Nat.eqb]. split; auto. unfold into_ok, between. cbn [rfront rback]. repeat (split; auto); lia.
    - destruct (Nat.eqb_spec (b - a) 0); [lia|].
      rewrite spine_alive_ok. 2:{ intros q Hq Hin. rewrite Hpm in Hin. exact (back_alive Hb _ Hq Hin). } cbn [negb].
      destruct (next_back_unchecked_ok H2) as (s & k & Es & Hle2 & Hp & Hnth & Hkv & Hlen & Hleft & Hlp); [lia|]. rewrite Es.
      assert (Hb' : between H T a (b - 1) (Range (nfront it) (s_edge s))).
      { unfold between. cbn [rfront rback]. split; auto. split; auto. split; auto. split; lia. }
      assert (Hd : dealloc_all (nshared it) (s_left s) (nfreed it) = Some (rev (s_left s) ++ nfreed it)).
      { destruct (nshared it) eqn:Esh.
        - assert (Hs0 : s_left s = []).
          { subst sh. rewrite (HH eq_refl) in *. rewrite (leaf0 Hle2) in Hlp. cbn [rpaths] in Hlp.
            apply Permutation_nil in Hlp. apply app_eq_nil in Hlp. tauto. }
          rewrite Hs0. reflexivity.
        - apply dealloc_all_ok.
          + rewrite Hleft. apply firstn_NoDup, spine_NoDup.
          + intros q Hq Hin. rewrite Hleft in Hq. apply firstn_In_ in Hq. rewrite Hpm in Hin. exact (back_alive Hb _ Hq Hin). }
      rewrite Hd.
      assert (Hpm' : Permutation (rev (s_left s) ++ nfreed it) (lpaths (hc (nfront it)) ++ rpaths (hc (s_edge s)))).
      { rewrite <- Permutation_rev, Hpm, Hlp. rewrite app_assoc. rewrite (Permutation_app_comm (s_left s)). now rewrite <- app_assoc. }
      rewrite spine_alive_ok. 2:{ intros q Hq Hin. rewrite Hpm' in Hin. exact (back_alive Hb' _ Hq Hin). }
      eexists (s_kv s), _. split; [reflexivity|]. rewrite E2 in *. split; auto. split; auto.
      split; auto. cbn [nleft_ nshared nfreed nfront nback]. split; [lia|]. auto.
  Qed.

  Lemma map_into_iter_ok (m : bmap) : shape (bheight m) (bnode m) -> blen m = length (entries m) ->
    (bshared m = true -> bheight m = 0) ->
    exists it, map_into_iter m = Ret it /\ into_ok (bheight m) (bnode m) (bshared m) 0 (length (entries m)) it.
  Proof.
    intros Hs Hl Hsh. unfold map_into_iter. destruct (first_last_edges _ _ Hs) as (f & b & -> & -> & Hb & Hlp & Hrp).
    eexists. split; [reflexivity|]. split; auto. cbn [nleft_ nshared nfreed nfront nback]. rewrite Hlp, Hrp.
    unfold entries in *. split; [lia|]. auto.
  Qed.

  Lemma into_calls H T sh a b it ops : into_ok H T sh a b it ->
    exists outs it' a' b', calls (@into_next K V) (@into_next_back K V) ops it = Ret (outs, it') /\ into_ok H T sh a' b' it' /\
      dq_run ops (seg (inorder T) a b) = (outs, seg (inorder T) a' b').
  Proof.
    intros Hb. destruct (@calls_sim _ _ _ (fun x : K * V => x) (fun _ => True) (inorder T) (@into_next K V) (@into_next_back K V) (into_ok H T sh)) with (ops := ops) (a := a) (b := b) (s := it)
      as (outs & it' & a' & b' & E1 & E2 & E3 & _); auto.
    - intros ? ? ? [? _]; eapply between_bound; eauto.
    - intros; apply into_next_ok; auto.
    - intros; apply into_next_back_ok; auto.
    - exists outs, it', a', b'. split; auto. split; auto. rewrite E3. f_equal.
      rewrite <- (map_id outs) at 2. apply map_ext. now intros [].
  Qed.

  Lemma drain_ok H T sh (n : nat) : forall a b it, into_ok H T sh a b it -> b - a <= n ->
    exists it', drain n it = Ret (seg (inorder T) a b, it') /\ into_ok H T sh b b it'.
  Proof.
    induction n as [|n IH]; intros a b it Hok Hn; pose proof (into_next_ok Hok) as Hs;
      (assert (Hbd : a <= b <= length (inorder T)) by (destruct Hok as [Hb _]; exact (between_bound Hb))).
    - assert (a = b) by lia. subst b. rewrite Nat.eqb_refl in Hs. destruct Hs as (it' & E & Hok'). cbn [drain]. rewrite E.
      exists it'. rewrite seg_nil. auto.
    - destruct (Nat.eqb_spec a b) as [->|Hne].
      + destruct Hs as (it' & E & Hok'). cbn [drain]. rewrite E. exists it'. rewrite seg_nil. auto.
      + destruct Hs as (x & it' & E & Hx & _ & Hok'). cbn [drain]. rewrite E.
        destruct (IH (S a) b it' Hok') as (it'' & E2 & Hok''); [lia|]. rewrite E2. exists it''. split; auto.
        rewrite (seg_front (inorder T) (a := a) (b := b) (x := x)); auto. lia.
  Qed.

  (** every node of the tree *)
  Lemma allpaths_In h : forall (n : node) pre q, kids any h n ->
    (In q (allpaths pre n) <-> exists p, q = pre ++ p /\ node_at n p <> None).
  Proof.
    assert (G : forall h, (forall (n : node) pre q, kids any h n -> (In q (allpaths pre n) <-> exists p, q = pre ++ p /\ node_at n p <> None)) ->
      forall (es : list node) pre i q, Forall (sub any h) es -> (In q (pathsfrom pre i es) <->
        exists j e p, nth_error es j = Some e /\ q = pre ++ (i + j) :: p /\ node_at e p <> None)).
    { intros h0 Hn. induction es as [|e es IH]; intros pre i q Hf; cbn [pathsfrom].
      - split; [contradiction|]. intros (j & e & p & Hj & _). now destruct j.
      - inversion Hf as [|? ? [_ He] Hf']; subst. rewrite in_app_iff, Hn, IH by auto. split.
        + intros [(p & -> & Hp)|(j & e' & p & Hj & -> & Hp)].
          * exists 0, e, p. rewrite <- app_assoc. cbn [app]. rewrite Nat.add_0_r. auto.
          * exists (S j), e', p. split; auto. split; auto. do 2 f_equal. lia.
        + intros ([|j] & e' & p & Hj & -> & Hp).
          * left. simpl in Hj. injection Hj; intros ->. exists p. rewrite <- app_assoc. cbn [app]. rewrite Nat.add_0_r. auto.
          * right. exists j, e', p. split; auto. split; auto. do 2 f_equal. lia. }
    induction h as [|h IH]; intros n pre q Hk; rewrite allpaths_eq; cbn [In].
    - cbn [kids] in Hk. rewrite Hk. cbn [pathsfrom In]. split.
      + intros [<-|[]]. exists []. rewrite app_nil_r. split; auto. discriminate.
      + intros ([|j p] & -> & Hp); [left; now rewrite app_nil_r|]. exfalso. apply Hp. cbn [node_at]. rewrite Hk. now destruct j.
    - rewrite kids_S in Hk. destruct Hk as [_ Hk]. rewrite (G h IH) by auto. split.
      + intros [<-|(j & e & p & Hj & -> & Hp)].
        * exists []. rewrite app_nil_r. split; auto. discriminate.
        * exists (j :: p). split; auto. cbn [node_at]. now rewrite Hj.
      + intros ([|j p] & -> & Hp); [left; now rewrite app_nil_r|]. right.
        cbn [node_at] in Hp. destruct (nth_error (edges n) j) as [e|] eqn:Ej; [|congruence].
        exists j, e, p. auto.
  Qed.
  Lemma NoDup_app_ A (l1 l2 : list A) : NoDup l1 -> NoDup l2 -> (forall x, In x l1 -> ~ In x l2) -> NoDup (l1 ++ l2).
  Proof.
    induction 1 as [|x l1 Hx Hn IH]; intros H2 Hd; simpl; auto. constructor.
    - rewrite in_app_iff. intros [?|?]; auto. apply (Hd x); simpl; auto.
    - apply IH; auto. intros y Hy. apply Hd. simpl; auto.
  Qed.
  Lemma allpaths_NoDup h : forall n pre, kids any h n -> NoDup (allpaths pre n).
  Proof.
    assert (G : forall h, (forall (n : node) pre, kids any h n -> NoDup (allpaths pre n)) ->
      forall (es : list node) pre i, Forall (sub any h) es -> NoDup (pathsfrom pre i es)).
    { intros h0 Hn. induction es as [|e es IH]; intros pre i Hf; cbn [pathsfrom]; [constructor|].
      inversion Hf as [|? ? [_ He] Hf']; subst. apply NoDup_app_; auto.
      intros q H1 H2. apply allpaths_prefix in H1. destruct H1 as [s ->]. apply pathsfrom_prefix in H2.
      destruct H2 as (j & t & Hj & E). rewrite <- app_assoc in E. apply app_inv_head in E. injection E. intros. lia. }
    induction h as [|h IH]; intros n pre Hk; rewrite allpaths_eq.
    - cbn [kids] in Hk. rewrite Hk. cbn [pathsfrom]. constructor; [intros []|constructor].
    - rewrite kids_S in Hk. destruct Hk as [_ Hk]. constructor; [|apply (G h IH); auto].
      intros Hin. apply pathsfrom_prefix in Hin. destruct Hin as (j & s & _ & E).
      rewrite <- (app_nil_r pre) in E at 1. apply app_inv_head in E. discriminate.
  Qed.

  (** dropping an iterator at any point *)
  Lemma drop_into_iter_ok H T sh a b it : kids any H T -> into_ok H T sh a b it ->
    exists fr, drop_into_iter it = Ret (seg (inorder T) a b, fr) /\
      if sh then fr = [] else Permutation fr (allpaths [] T).
  Proof.
    intros HkT Hok. assert (Hbd : nleft_ it = b - a) by (destruct Hok; tauto). unfold drop_into_iter.
    destruct (drain_ok (n := nleft_ it) Hok) as (it' & E & Hok'); [lia|]. rewrite E.
    destruct Hok' as (Hb & Hl & Hsh & HH & Hpm). rewrite Hsh. pose proof Hb as (H1 & H2 & E1 & E2 & _). cbn [rfront rback] in *.
    destruct sh.
    - eexists. split; [reflexivity|]. rewrite (HH eq_refl) in *. rewrite (leaf0 H1), (leaf0 H2) in Hpm. cbn in Hpm.
      now apply Permutation_sym, Permutation_nil in Hpm.
    - rewrite dealloc_all_ok.
      + eexists. split; [reflexivity|]. rewrite <- Permutation_rev, Hpm.
        destruct (same_pos H1 H2) as (Ec & En & _); [congruence|]. rewrite <- Ec.
        destruct H1 as (Ho & Hh0 & _). rewrite hok_any in Ho. destruct Ho as (<- & _ & Hk & _). rewrite Hh0 in Hk. cbn [kids] in Hk.
        rewrite allpaths_plug, allpaths_eq, Hk. cbn [pathsfrom].
        set (c := hc (nfront it')) in *.
        assert (Es : spine c = cpath c :: match c with [] => [] | _ :: c' => spine c' end) by (destruct c; reflexivity).
        rewrite Es.
        match goal with |- Permutation ((_ :: ?t) ++ _) _ => transitivity ((lpaths c ++ rpaths c) ++ cpath c :: t) end; [apply Permutation_app_comm|].
        rewrite <- app_assoc. apply Permutation_app_head. cbn [app]. symmetry. apply Permutation_middle.
      + apply spine_NoDup.
      + intros q Hq Hin. rewrite Hpm in Hin. exact (front_alive Hb _ Hq Hin).
  Qed.
End IterProofs.
