(** * BTreeRange: range_search finds exactly the entries within the bounds *)
From Coq Require Import List Arith Lia Bool Sorted Permutation.
From Verif Require Import Base MapSpec IterSpec BTreeModel BTreeIterModel BTreeInv BTreeLemmas BTreeSearch BTreeInsert BTreeIter BTreeStep BTreeIterProofs.
Import ListNotations.
Set Implicit Arguments.

(** which keys lie within bounds: specification *)
Section RangeSpec.
  Variables (K V Q : Type) (qcmp : Q -> Q -> comparison) (borrow : K -> Q).
  Definition above_start (lo : bound_ Q) (k : K) : bool :=
    match lo with
    | Included q => match qcmp q (borrow k) with Gt => false | _ => true end   (* q <= k *)
    | Excluded q => match qcmp q (borrow k) with Lt => true | _ => false end   (* q < k *)
    | Unbounded => true
    end.
  Definition below_end (hi : bound_ Q) (k : K) : bool :=
    match hi with
    | Included q => match qcmp q (borrow k) with Lt => false | _ => true end   (* k <= q *)
    | Excluded q => match qcmp q (borrow k) with Gt => true | _ => false end   (* k < q *)
    | Unbounded => true
    end.
  Definition within (lo hi : bound_ Q) (e : K * V) : bool := above_start lo (fst e) && below_end hi (fst e).
  Definition s_range (lo hi : bound_ Q) (l : list (K * V)) : list (K * V) := filter (within lo hi) l.
  (** start > end, or start == end both excluded *)
  Definition s_bad (lo hi : bound_ Q) : Prop :=
    match lo, hi with
    | Unbounded, _ | _, Unbounded => False
    | Excluded s, Excluded e => qcmp s e <> Lt
    | Included s, Included e | Included s, Excluded e | Excluded s, Included e => qcmp s e = Gt
    end.
End RangeSpec.

Section Range.
  Variables (K V Q : Type) (cmp : K -> K -> comparison) (qcmp : Q -> Q -> comparison) (borrow : K -> Q).
  Hypothesis L : borrow_laws cmp qcmp borrow.
  Notation node := (node K V).
  Notation frame := (frame K V).
  Notation ctx := (ctx K V).
  Notation handle := (handle K V).
  Notation kv := (K * V)%type.
  Implicit Types (n T : node) (c : ctx) (f : frame) (hd : handle).
  Notation qof := (qof qcmp borrow).

  (** ** One side: a downward closed cut *)
  Inductive side := SLt (q : Q) | SLe (q : Q) | SNone | SAll.
  Definition inS (s : side) (e : kv) : Prop :=
    match s with
    | SLt q => qof q (fst e) = Gt
    | SLe q => qof q (fst e) <> Lt
    | SNone => False
    | SAll => True
    end.
  Definition side_edge (found : bool) (s : side) (n : node) : nat * bool :=
    match s with
    | SNone => (0, found)
    | SAll => (nlen n, found)
    | SLt q => if found then (nlen n, true) else search_linear (qof q) (kvs n)
    | SLe q => if found then (0, true) else let '(i, b) := search_linear (qof q) (kvs n) in (if b then i + 1 else i, b)
    end.
  Definition min_side (lo : bound_ Q) := match lo with Included q => SLt q | Excluded q => SLe q | Unbounded => SNone end.
  Definition max_side (hi : bound_ Q) := match hi with Included q => SLe q | Excluded q => SLt q | Unbounded => SAll end.
  Lemma min_edge_side found lo n : min_edge qcmp borrow found lo n = side_edge found (min_side lo) n.
  Proof. destruct found, lo; reflexivity. Qed.
  Lemma max_edge_side found hi n : max_edge qcmp borrow found hi n = side_edge found (max_side hi) n.
  Proof. destruct found, hi; reflexivity. Qed.

  Definition mono (s : side) (l : list kv) : Prop := StronglySorted (fun a b => inS s b -> inS s a) l.
  Lemma sorted_mono s (l : list kv) : sorted cmp l -> mono s l.
  Proof.
    intros H. destruct L as [LQ Hb]. unfold mono, sorted in *. eapply StronglySorted_ind with (P := fun l => StronglySorted (fun a b => inS s b -> inS s a) l); [constructor| |exact H].
    intros a l0 _ IH Ha. constructor; auto. eapply Forall_impl; [|exact Ha]. cbn beta. intros b Hab.
    rewrite <- Hb in Hab. destruct s; cbn [inS]; auto; unfold BTreeIterModel.qof.
    - intros Hq. rewrite (cmp_antisym LQ) in Hq |- *. destruct (qcmp (borrow (fst b)) q) eqn:E; try discriminate.
      now rewrite (cmp_lt_trans LQ _ _ _ Hab E).
    - intros Hq Hq2. apply Hq. exact (cmp_lt_trans LQ _ _ _ Hq2 Hab).
  Qed.

  Lemma mono_app s l1 l2 : mono s (l1 ++ l2) -> mono s l1 /\ mono s l2.
  Proof. intros H. apply StronglySorted_app in H. tauto. Qed.
  Lemma mono_mid s l1 x l2 : mono s (l1 ++ x :: l2) ->
    (inS s x -> Forall (inS s) l1) /\ (~ inS s x -> Forall (fun e => ~ inS s e) l2).
  Proof.
    intros H. apply StronglySorted_mid in H. destruct H as [H1 H2]. split; intros Hx.
    - eapply Forall_impl; [|exact H1]. simpl. auto.
    - eapply Forall_impl; [|exact H2]. simpl. intros b Hb Hn. auto.
  Qed.

  Lemma before_in s f : frame_ok f -> mono s (before f) -> Forall (inS s) (firstn (fidx f) (fk f)) -> Forall (inS s) (before f).
  Proof.
    intros Hf Hc Hk. unfold before in *. assert (Hl : length (map (@inorder K V) (fl f)) = length (firstn (fidx f) (fk f))).
    { rewrite map_length, firstn_length. unfold fidx, frame_ok in *. lia. }
    revert Hc Hk Hl. generalize (firstn (fidx f) (fk f)) as ks. generalize (map (@inorder K V) (fl f)) as es.
    induction es as [|e es IH]; intros [|k ks] Hc Hk Hl; simpl in *; try discriminate; [constructor|].
    inversion Hk; subst. apply Forall_app. split.
    - apply (mono_mid _ _ _ Hc); auto.
    - constructor; auto. apply IH; auto. apply mono_app in Hc. destruct Hc as [_ Hc]. now inversion Hc.
  Qed.
  Lemma after_out s f : frame_ok f -> mono s (after f) -> Forall (fun e => ~ inS s e) (skipn (fidx f) (fk f)) -> Forall (fun e => ~ inS s e) (after f).
  Proof.
    intros Hf Hc Hk. unfold after in *. destruct (skipn (fidx f) (fk f)) as [|x z] eqn:E; [constructor|].
    destruct (map (@inorder K V) (fr f)) as [|e es]; simpl in *; [constructor|].
    inversion Hk; subst. constructor; auto. apply (@mono_mid s [] x _ Hc); auto.
  Qed.

  Definition settled_ (s : side) (found : bool) (l : list kv) : Prop :=
    found = true -> match s with
                    | SLt _ => Forall (inS s) l
                    | SLe _ => Forall (fun e => ~ inS s e) l
                    | _ => True
                    end.

  (** the chosen index separates the pairs of the node *)
  Lemma search_linear_strict q (l : list kv) i b : search_linear (qof q) l = (i, b) -> sorted cmp l ->
    i <= length l /\ Forall (fun e => qof q (fst e) = Gt) (firstn i l) /\
    (if b then exists x, nth_error l i = Some x /\ qof q (fst x) = Eq else True) /\
    Forall (fun e => qof q (fst e) = Lt) (skipn (if b then S i else i) l).
  Proof.
    intros E Hs. destruct (search_linear_ok _ _ E) as (a & z & -> & Hl & Ha & Hb).
    pose proof (cutq_sorted q L Hs) as Hc.
    rewrite firstn_app_len by auto. split; [rewrite app_length; lia|]. split; [exact Ha|].
    destruct b.
    - destruct Hb as (x & z' & -> & Hx). split; [exists x; split; auto; apply nth_error_mid; auto|].
      change (x :: z') with ([x] ++ z'). rewrite app_assoc, skipn_app_len by (rewrite app_length; simpl; lia).
      eapply (@cutq_lt K V (qof q)); [exact Hc|]. congruence.
    - split; auto. rewrite skipn_app_len by auto. destruct Hb as [->|(x & z' & -> & Hx)]; [constructor|].
      constructor; auto. eapply (@cutq_lt K V (qof q)); [exact Hc|]. congruence.
  Qed.

  Lemma kvs_in_inorder h n : kids any h n -> sorted cmp (inorder n) -> sorted cmp (kvs n).
  Proof.
    intros Hk Hs. unfold sorted in *. rewrite inorder_eq in Hs.
    assert (Hl : h = 0 /\ edges n = [] \/ length (map (@inorder K V) (edges n)) = S (length (kvs n))).
    { destruct h; [left; split; auto; exact Hk|right]. rewrite map_length. destruct Hk as [Hk _]. exact Hk. }
    destruct Hl as [[_ Hl]|Hl]; [rewrite Hl in Hs; exact Hs|].
    revert Hs Hl. generalize (map (@inorder K V) (edges n)) as es. generalize (kvs n) as ks. clear.
    induction ks as [|k ks IH]; intros [|e es] Hs Hl; simpl in *; try discriminate; try constructor.
    - apply StronglySorted_app in Hs. destruct Hs as (_ & Hs & _). inversion Hs; subst. apply (IH es); auto.
    - apply StronglySorted_app in Hs. destruct Hs as (_ & Hs & _). inversion Hs as [|? ? Hs' Hf]; subst.
      assert (Hin : forall x, In x ks -> In x (weave es ks)).
      { assert (Hl2 : length es = S (length ks)) by lia. revert Hl2. clear. revert es.
        induction ks as [|k ks IH]; intros [|e es] Hl x Hx; simpl in *; try contradiction; try discriminate.
        apply in_or_app. right. destruct Hx as [<-|Hx]; [now left|right]. apply IH; auto. }
      apply Forall_forall. intros x Hx. rewrite Forall_forall in Hf. auto.
  Qed.

  Lemma kvs_Forall (Pp : kv -> Prop) h n : kids any h n -> Forall Pp (inorder n) -> Forall Pp (kvs n).
  Proof.
    intros Hk Hs. rewrite inorder_eq in Hs.
    assert (Hl : h = 0 /\ edges n = [] \/ length (map (@inorder K V) (edges n)) = S (length (kvs n))).
    { destruct h; [left; split; auto; exact Hk|right]. rewrite map_length. destruct Hk as [Hk _]. exact Hk. }
    destruct Hl as [[_ Hl]|Hl]; [rewrite Hl in Hs; exact Hs|].
    revert Hs Hl. generalize (map (@inorder K V) (edges n)) as es. generalize (kvs n) as ks. clear.
    induction ks as [|k ks IH]; intros [|e es] Hs Hl; simpl in *; try discriminate; try constructor.
    - apply Forall_app in Hs. destruct Hs as (_ & Hs). now inversion Hs.
    - apply Forall_app in Hs. destruct Hs as (_ & Hs). inversion Hs; subst. apply (IH es); auto.
  Qed.

  Lemma side_edge_ok s found h n i found' : kids any h n -> sorted cmp (inorder n) -> settled_ s found (inorder n) ->
    side_edge found s n = (i, found') ->
    i <= nlen n /\ Forall (inS s) (firstn i (kvs n)) /\ Forall (fun e => ~ inS s e) (skipn i (kvs n)) /\
    (found = true -> found' = true) /\
    (found = false -> found' = true ->
       match s with
       | SLt q => exists x, nth_error (kvs n) i = Some x /\ qof q (fst x) = Eq
       | SLe q => exists j x, i = S j /\ nth_error (kvs n) j = Some x /\ qof q (fst x) = Eq
       | _ => True
       end).
  Proof.
    intros Hk Hs Hset E. pose proof (kvs_in_inorder _ _ Hk Hs) as Hks. unfold nlen.
    destruct s as [q|q| |]; cbn [side_edge inS] in *.
    - destruct found.
      + injection E; intros <- <-. split; [auto|]. unfold nlen. rewrite firstn_all, skipn_all. split; [|split; [constructor|split; auto; discriminate]].
        apply (@kvs_Forall _ h); auto.
      + destruct (search_linear_strict _ E Hks) as (H1 & H2 & H3 & H4).
        split; [exact H1|]. split; [exact H2|]. split; [|split; [discriminate|]].
        * destruct found'; [|eapply Forall_impl; [|exact H4]; cbn beta; intros; congruence].
          destruct H3 as (x & Hx & Ex). apply nth_error_split in Hx. destruct Hx as (l1 & l2 & Ek & <-). rewrite Ek in *.
          rewrite skipn_app_len by auto. constructor; [congruence|].
          change (x :: l2) with ([x] ++ l2) in H4. rewrite app_assoc, skipn_app_len in H4 by (rewrite app_length; simpl; lia).
          eapply Forall_impl; [|exact H4]; cbn beta; intros; congruence.
        * intros _ ->. exact H3.
    - destruct found.
      + injection E; intros <- <-. split; [lia|]. cbn [firstn skipn]. split; [constructor|]. split; [|split; auto; discriminate].
        apply (@kvs_Forall _ h); auto.
      + destruct (search_linear (qof q) (kvs n)) as [j b] eqn:E1. destruct (search_linear_strict _ E1 Hks) as (H1 & H2 & H3 & H4).
        injection E; intros <- <-. destruct b.
        * destruct H3 as (x & Hx & Ex). pose proof Hx as Hx'. apply nth_error_split in Hx. destruct Hx as (l1 & l2 & Ek & Hj). rewrite Ek in *.
          split; [rewrite app_length; simpl; lia|].
          change (x :: l2) with ([x] ++ l2) in *. rewrite app_assoc in *. 
          rewrite firstn_app_len, skipn_app_len by (rewrite app_length; simpl; lia).
          rewrite skipn_app_len in H4 by (rewrite app_length; simpl; lia).
          rewrite <- app_assoc in H2. rewrite firstn_app_len in H2 by auto.
          split; [|split; [|split; [discriminate|]]].
          -- apply Forall_app. split; [eapply Forall_impl; [|exact H2]; cbn beta; intros; congruence|]. constructor; [congruence|constructor].
          -- eapply Forall_impl; [|exact H4]. cbn beta. tauto.
          -- intros _ _. exists j, x. split; [lia|]. split; auto.
        * split; [auto|]. split; [|split; [|split; discriminate]].
          -- eapply Forall_impl; [|exact H2]; cbn beta; intros; congruence.
          -- eapply Forall_impl; [|exact H4]. cbn beta. tauto.
    - injection E; intros <- <-. split; [lia|]. cbn [firstn skipn]. split; [constructor|]. split; [|split; auto].
      apply Forall_forall. tauto.
    - injection E; intros <- <-. unfold nlen. rewrite firstn_all, skipn_all. split; [auto|]. split; [|split; [constructor|split; auto]].
      apply Forall_forall. intros; exact I.
  Qed.

  (** invariant of one side at a node *)
  Definition sinv (s : side) (found : bool) n c : Prop :=
    Forall (inS s) (cbefore c) /\ Forall (fun e => ~ inS s e) (cafter c) /\ settled_ s found (inorder n).

  Lemma side_descend s found h n c i found' e f : kids any (S h) n -> cok any anyR (S h) c -> sorted cmp (inorder (plug n c)) ->
    sinv s found n c -> side_edge found s n = (i, found') -> descend n i = Some (e, f) ->
    kids any h e /\ cok any anyR h (f :: c) /\ plug e (f :: c) = plug n c /\ sinv s found' e (f :: c).
  Proof.
    intros Hk Hc Hs (S1 & S2 & S3) Ese Hd.
    rewrite inorder_plug in Hs by (eapply cok_frames; eauto).
    assert (Hsn : sorted cmp (inorder n)).
    { unfold sorted in *. apply StronglySorted_app in Hs. destruct Hs as (_ & Hs & _). apply StronglySorted_app in Hs. tauto. }
    destruct (@side_edge_ok _ _ _ _ _ _ Hk Hsn S3 Ese) as (Hi & H1 & H2 & H3 & H4).
    destruct (@cok_descend K V any anyR h n i e f c (bound_any (S h) c (nlen n)) Hk Hc Hd) as (_ & Hke & Hce & Hp).
    split; auto. split; auto. split; auto.
    destruct (@descend_kids K V any anyR h n i e f Hk Hd) as (En & Hfi & Hf & Hl & _ & Hr & Efk).
    assert (Ein : inorder n = before f ++ inorder e ++ after f) by (rewrite En; apply inorder_fill; auto).
    rewrite <- Efk, <- Hfi in H1, H2.
    pose proof (sorted_mono s Hsn) as Hm. rewrite Ein in Hm. pose proof (mono_app _ _ Hm) as [Hmb Hm2]. apply mono_app in Hm2. destruct Hm2 as [_ Hma].
    pose proof (before_in Hf Hmb H1) as HB. pose proof (after_out Hf Hma H2) as HA.
    split; [cbn [cbefore]; apply Forall_app; auto|]. split; [cbn [cafter]; apply Forall_app; auto|].
    intros Hfd. destruct found.
    - rewrite Ein in S3. specialize (S3 eq_refl). destruct s; auto; apply Forall_app in S3; destruct S3 as [_ S3]; apply Forall_app in S3; tauto.
    - specialize (H4 eq_refl Hfd). rewrite Ein in Hsn. destruct s as [q|q| |]; auto.
      + destruct H4 as (x & Hx & Eq_). assert (Hin : exists z, after f = x :: z).
        { unfold after. rewrite Hfi, Efk. apply nth_error_split in Hx. destruct Hx as (l1 & l2 & Ek & Hl1). rewrite Ek, skipn_app_len by auto.
          destruct (map (@inorder K V) (fr f)) eqn:Em; [|simpl; eauto]. exfalso. apply map_eq_nil in Em.
          unfold frame_ok in Hf. rewrite Em, Efk, Ek, app_length in Hf. unfold fidx in Hfi. simpl in Hf. lia. }
        destruct Hin as [z Ez]. rewrite Ez in Hsn.
        pose proof (cutq_sorted q L Hsn) as Hcq. rewrite app_assoc in Hcq. apply cutq_gt in Hcq; [|unfold BTreeIterModel.qof in Eq_; congruence].
        apply allq_app in Hcq. destruct Hcq as [_ Hcq]. exact Hcq.
      + destruct H4 as (j & x & Ej & Hx & Eq_). assert (Hin : exists z, before f = z ++ [x]).
        { unfold before. rewrite Hfi, Efk. apply nth_error_split in Hx. destruct Hx as (l1 & l2 & Ek & Hl1). rewrite Ek.
          change (x :: l2) with ([x] ++ l2). rewrite app_assoc, firstn_app_len by (rewrite app_length; simpl; lia).
          assert (Hfl : length (fl f) = S j) by (unfold fidx in Hfi; lia).
          destruct (fl f) as [|e0 l0] using rev_ind; [simpl in Hfl; lia|]. rewrite app_length in Hfl. simpl in Hfl.
          rewrite map_app, wl_app by (rewrite map_length; lia). cbn. rewrite app_assoc. eauto. }
        destruct Hin as [z Ez]. rewrite Ez in Hsn. rewrite <- app_assoc in Hsn. cbn [app] in Hsn.
        pose proof (cutq_sorted q L Hsn) as Hcq. apply cutq_lt in Hcq; [|unfold BTreeIterModel.qof in Eq_; congruence].
        apply allq_app in Hcq. destruct Hcq as [Hcq _]. eapply Forall_impl; [|exact Hcq]. cbn [inS]. intros; tauto.
  Qed.

  (** the position found by one side *)
  Definition cut_at (s : side) (l : list kv) (p : nat) : Prop :=
    p <= length l /\ Forall (inS s) (firstn p l) /\ Forall (fun e => ~ inS s e) (skipn p l).

  Lemma side_leaf s found H n c i found' : kids any 0 n -> cok any anyR 0 c -> length c = H -> sorted cmp (inorder (plug n c)) ->
    sinv s found n c -> side_edge found s n = (i, found') ->
    leaf_edge H (plug n c) (Handle n 0 c i) /\ cut_at s (inorder (plug n c)) (pos (Handle n 0 c i)).
  Proof.
    intros Hk Hc HH Hs (S1 & S2 & S3) Ese.
    rewrite inorder_plug in Hs |- * by (eapply cok_frames; eauto).
    assert (Hsn : sorted cmp (inorder n)).
    { unfold sorted in *. apply StronglySorted_app in Hs. destruct Hs as (_ & Hs & _). apply StronglySorted_app in Hs. tauto. }
    destruct (@side_edge_ok _ _ _ _ _ _ Hk Hsn S3 Ese) as (Hi & H1 & H2 & _ & _).
    split. { split; [rewrite hok_any; cbn [hn hh hc]; auto|]. cbn [hh hi hn]. auto. }
    rewrite leaf_inorder by auto. unfold cut_at, pos. cbn [hc hi].
    rewrite <- (firstn_skipn i (kvs n)). set (a := firstn i (kvs n)) in *. set (z := skipn i (kvs n)) in *.
    assert (Ha : length a = i) by (unfold a; rewrite firstn_length; unfold nlen in Hi; lia).
    rewrite <- app_assoc, app_assoc. split; [rewrite !app_length; lia|].
    rewrite firstn_app_len, skipn_app_len by (rewrite app_length; lia). split; apply Forall_app; auto.
  Qed.

  Lemma cut_order s1 s2 l p1 p2 : (forall e, inS s1 e -> inS s2 e) -> cut_at s1 l p1 -> cut_at s2 l p2 -> p1 <= p2.
  Proof.
    intros Hi (A1 & A2 & A3) (B1 & B2 & B3). destruct (le_lt_dec p1 p2) as [|Hlt]; auto. exfalso.
    destruct (nth_error l p2) as [x|] eqn:Ex; [|apply nth_error_None in Ex; lia].
    assert (In x (firstn p1 l)). { eapply nth_error_In with (n := p2). rewrite nth_error_firstn; auto. }
    assert (In x (skipn p2 l)). { eapply nth_error_In with (n := 0). rewrite nth_error_skipn, Nat.add_0_r; auto. }
    rewrite Forall_forall in *. apply (B3 x); auto.
  Qed.

  Lemma range_loop_ok lo hi : (forall e : kv, inS (min_side lo) e -> inS (max_side hi) e) ->
    forall h n1 c1 n2 c2 (f1 f2 dv : bool) H T,
    plug n1 c1 = T -> plug n2 c2 = T -> sorted cmp (inorder T) ->
    kids any h n1 -> kids any h n2 -> cok any anyR h c1 -> cok any anyR h c2 -> h + length c1 = H -> h + length c2 = H ->
    sinv (min_side lo) f1 n1 c1 -> sinv (max_side hi) f2 n2 c2 ->
    (dv = false -> n1 = n2) ->
    exists a b, range_loop qcmp borrow lo hi h n1 c1 n2 c2 f1 f2 dv = Ret (a, b) /\
      leaf_edge H T a /\ leaf_edge H T b /\
      cut_at (min_side lo) (inorder T) (pos a) /\ cut_at (max_side hi) (inorder T) (pos b).
  Proof.
    intros Hsub h. induction h as [|h IH]; intros n1 c1 n2 c2 f1 f2 dv H T E1 E2 Hs Hk1 Hk2 Hc1 Hc2 HH1 HH2 I1 I2 Hdv;
      cbn [range_loop]; rewrite min_edge_side, max_edge_side;
      destruct (side_edge f1 (min_side lo) n1) as [i f1'] eqn:Es1; destruct (side_edge f2 (max_side hi) n2) as [j f2'] eqn:Es2;
      (assert (Hsn : forall n c, plug n c = T -> Forall (@frame_ok K V) c -> sorted cmp (inorder n)) by
        (intros n c <- Hfr; rewrite inorder_plug in Hs by auto; unfold sorted in *; apply StronglySorted_app in Hs; destruct Hs as (_ & Hs & _); apply StronglySorted_app in Hs; tauto));
      pose proof (@side_edge_ok _ _ _ _ _ _ Hk1 (Hsn _ _ E1 (@cok_frames K V any anyR _ _ Hc1)) (proj2 (proj2 I1)) Es1) as (Hi1 & Hf1 & Hr1 & _);
      pose proof (@side_edge_ok _ _ _ _ _ _ Hk2 (Hsn _ _ E2 (@cok_frames K V any anyR _ _ Hc2)) (proj2 (proj2 I2)) Es2) as (Hi2 & Hf2 & Hr2 & _);
      (assert (Hnp : negb dv && (j <? i) = false) by
        (destruct dv; auto; specialize (Hdv eq_refl); subst n2; destruct (Nat.ltb_spec j i); auto; exfalso;
         assert (i <= j); [|lia]; apply (@cut_order (min_side lo) (max_side hi) (kvs n1)); auto; split; auto));
      rewrite Hnp.
    - destruct (@side_leaf _ _ H _ _ _ _ Hk1 Hc1 HH1 (eq_ind_r (fun t => sorted cmp (inorder t)) Hs E1) I1 Es1) as (A1 & A2).
      destruct (@side_leaf _ _ H _ _ _ _ Hk2 Hc2 HH2 (eq_ind_r (fun t => sorted cmp (inorder t)) Hs E2) I2 Es2) as (B1 & B2).
      eexists _, _. split; [reflexivity|]. rewrite E1 in *. rewrite E2 in *. auto.
    - destruct (@descend_ok K V any h n1 i Hk1 Hi1) as (e1 & g1 & D1).
      destruct (@descend_ok K V any h n2 j Hk2 Hi2) as (e2 & g2 & D2). rewrite D1, D2.
      destruct (@side_descend _ _ _ _ _ _ _ _ _ Hk1 Hc1 (eq_ind_r (fun t => sorted cmp (inorder t)) Hs E1) I1 Es1 D1) as (A1 & A2 & A3 & A4).
      destruct (@side_descend _ _ _ _ _ _ _ _ _ Hk2 Hc2 (eq_ind_r (fun t => sorted cmp (inorder t)) Hs E2) I2 Es2 D2) as (B1 & B2 & B3 & B4).
      apply (IH e1 (g1 :: c1) e2 (g2 :: c2) f1' f2'); auto; try congruence; try (simpl; lia).
      intros Hd. apply orb_false_iff in Hd. destruct Hd as [Hd Hij]. apply negb_false_iff, Nat.eqb_eq in Hij.
      specialize (Hdv Hd). subst n2 j. congruence.
  Qed.

  Lemma bad_range_spec lo hi : bad_range qcmp lo hi = true <-> s_bad qcmp lo hi.
  Proof.
    destruct lo as [s|s|], hi as [e|e|]; cbn [bad_range s_bad]; try (split; [discriminate|tauto]);
      destruct (qcmp s e); split; intros; try discriminate; try congruence; auto.
  Qed.

  Lemma good_range_sub lo hi : bad_range qcmp lo hi = false -> forall e : kv, inS (min_side lo) e -> inS (max_side hi) e.
  Proof.
    destruct L as [LQ _]. destruct lo as [s|s|], hi as [t|t|]; cbn [bad_range min_side max_side inS]; auto; try tauto;
      unfold BTreeIterModel.qof; intros Hb e; generalize (borrow (fst e)); intros k.
    - intros Hk Hk2. rewrite (cmp_antisym LQ) in Hk. destruct (qcmp k s) eqn:E; try discriminate.
      pose proof (cmp_lt_trans LQ _ _ _ Hk2 E) as H. rewrite (cmp_antisym LQ), H in Hb. discriminate.
    - intros Hk. rewrite (cmp_antisym LQ) in Hk. destruct (qcmp k s) eqn:E; try discriminate.
      rewrite (cmp_antisym LQ). destruct (qcmp k t) eqn:E2; auto; exfalso.
      + pose proof (cmp_eq_l LQ _ _ s E2) as H. rewrite E in H. rewrite (cmp_antisym LQ), <- H in Hb. discriminate.
      + assert (E3 : qcmp t k = Lt) by (rewrite (cmp_antisym LQ), E2; reflexivity).
        pose proof (cmp_lt_trans LQ _ _ _ E3 E) as H. rewrite (cmp_antisym LQ), H in Hb. discriminate.
    - intros Hk Hk2. destruct (qcmp s k) eqn:E; try congruence.
      + rewrite (cmp_eq_l LQ _ _ t E) in Hb. rewrite (cmp_antisym LQ), Hk2 in Hb. discriminate.
      + assert (E3 : qcmp k s = Lt) by (rewrite (cmp_antisym LQ), E; reflexivity).
        pose proof (cmp_lt_trans LQ _ _ _ Hk2 E3) as H. rewrite (cmp_antisym LQ), H in Hb. discriminate.
    - intros Hk. destruct (qcmp s t) eqn:Est; try discriminate.
      destruct (qcmp t k) eqn:E; auto; exfalso; apply Hk.
      + assert (E2 : qcmp k t = Eq) by (rewrite (cmp_antisym LQ), E; reflexivity).
        pose proof (cmp_eq_l LQ _ _ s E2) as H. rewrite (cmp_antisym LQ), H, (cmp_antisym LQ), Est. reflexivity.
      + exact (cmp_lt_trans LQ _ _ _ Est E).
  Qed.

  Lemma within_cut lo hi (l : list kv) a b : cut_at (min_side lo) l a -> cut_at (max_side hi) l b -> a <= b ->
    s_range qcmp borrow lo hi l = seg l a b.
  Proof.
    intros (A1 & A2 & A3) (B1 & B2 & B3) Hab. unfold s_range, seg.
    rewrite <- (firstn_skipn a l) at 1. rewrite filter_app.
    assert (Hlo : forall e : kv, above_start qcmp borrow lo (fst e) = true <-> ~ inS (min_side lo) e).
    { intros e. destruct lo as [q|q|]; cbn [above_start min_side inS]; unfold BTreeIterModel.qof; try tauto; destruct (qcmp q (borrow (fst e))); split; intros; try congruence; try discriminate.
      exfalso; apply H; discriminate. exfalso; apply H; discriminate. }
    assert (Hhi : forall e : kv, below_end qcmp borrow hi (fst e) = true <-> inS (max_side hi) e).
    { intros e. destruct hi as [q|q|]; cbn [below_end max_side inS]; unfold BTreeIterModel.qof; try tauto; destruct (qcmp q (borrow (fst e))); split; intros; try congruence; try discriminate. }
    rewrite (@filter_nothing _ _ (firstn a l)).
    2:{ eapply Forall_impl; [|exact A2]. cbn beta. intros e He. unfold within. destruct (above_start qcmp borrow lo (fst e)) eqn:E; auto.
        apply Hlo in E. tauto. }
    cbn [app]. rewrite <- (firstn_skipn (b - a) (skipn a l)) at 1. rewrite filter_app.
    rewrite (@filter_nothing _ _ (skipn (b - a) (skipn a l))).
    2:{ rewrite skipn_skipn_. replace (a + (b - a)) with b by lia. eapply Forall_impl; [|exact B3]. cbn beta. intros e He.
        unfold within. destruct (below_end qcmp borrow hi (fst e)) eqn:E; [|apply andb_false_r]. apply Hhi in E. tauto. }
    rewrite app_nil_r. apply filter_all. rewrite Forall_forall in *. intros e He. unfold within. apply andb_true_iff. split.
    - apply Hlo. apply A3. now apply firstn_In_ in He.
    - apply Hhi. apply B2. rewrite <- (firstn_skipn a (firstn b l)). apply in_or_app. right. 
      rewrite skipn_firstn_comm. exact He.
  Qed.

  Lemma map_range_ok lo hi (m : bmap K V) : shape (bheight m) (bnode m) -> sorted cmp (entries m) ->
    (s_bad qcmp lo hi -> map_range qcmp borrow lo hi m = Panic) /\
    (~ s_bad qcmp lo hi -> exists r a b, map_range qcmp borrow lo hi m = Ret r /\
       between (bheight m) (bnode m) a b r /\ seg (entries m) a b = s_range qcmp borrow lo hi (entries m)).
  Proof.
    intros Hsh Hs. unfold map_range. split; intros Hb.
    - apply bad_range_spec in Hb. now rewrite Hb.
    - assert (Eb : bad_range qcmp lo hi = false).
      { destruct (bad_range qcmp lo hi) eqn:E; auto. apply bad_range_spec in E. tauto. }
      rewrite Eb. pose proof (good_range_sub _ _ Eb) as Hsub.
      destruct (@range_loop_ok lo hi Hsub (bheight m) (bnode m) [] (bnode m) [] false false false (bheight m) (bnode m)) as (f & b & E & Hf & Hbk & Cf & Cb);
        auto; try (split; [constructor|split; [constructor|discriminate]]); try exact I; cbn; try lia.
      rewrite E. exists (Range f b), (pos f), (pos b). split; [reflexivity|].
      pose proof (cut_order Hsub Cf Cb) as Hle. split.
      + unfold between. cbn [rfront rback]. auto.
      + symmetry. apply within_cut; auto.
  Qed.
End Range.
