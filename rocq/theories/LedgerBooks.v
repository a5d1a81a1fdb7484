(** * LedgerBooks: the books balance at every step *)
From Coq Require Import List Arith Lia Bool Sorted Permutation.
From Verif Require Import Base MapSpec IterSpec BTreeModel BTreeInv BTreeLemmas BTreeSearch BTreeInsert BTreeRemove BTreeOps BTreeIterModel BTreeIterProofs
  BTreeBulkModel BTreeBorder BTreeSplit BTreeAppend BTreeClone BTreeWrites BTreeEntry BTreeCollect MergeSpec SpecFacts HistoryModel HistorySpec HistoryProofs
  LedgerModel LedgerSpec LedgerProofs Properties_BTree2.
Import ListNotations.
Set Implicit Arguments.

Section Weights.
  Variables (K V : Type) (kw : K -> nat) (vw : V -> nat).
  Notation kv := (K * V)%type.
  Notation node := (node K V).
  Notation bmap := (bmap K V).
  Notation ctx := (ctx K V).
  Notation pw := (pw kw vw).
  Notation lw := (lw kw vw).
  Notation made := (made kw vw).
  Notation dropped := (dropped kw vw).
  Notation leaked := (leaked kw vw).
  Notation fates := (list (fate K V)).

  Lemma lw_app (a b : list kv) : lw (a ++ b) = lw a + lw b.
  Proof. unfold LedgerSpec.lw. now rewrite map_app, list_sum_app. Qed.
  Lemma lw_cons x (b : list kv) : lw (x :: b) = pw x + lw b.
  Proof. reflexivity. Qed.
  Lemma lw_nil : lw [] = 0.
  Proof. reflexivity. Qed.
  Lemma lw_perm (a b : list kv) : Permutation a b -> lw a = lw b.
  Proof. induction 1; rewrite ?lw_cons; lia. Qed.
  Lemma made_app (a b : fates) : made (a ++ b) = made a + made b.
  Proof. unfold LedgerSpec.made. now rewrite map_app, list_sum_app. Qed.
  Lemma dropped_app (a b : fates) : dropped (a ++ b) = dropped a + dropped b.
  Proof. unfold LedgerSpec.dropped. now rewrite map_app, list_sum_app. Qed.
  Lemma leaked_app (a b : fates) : leaked (a ++ b) = leaked a + leaked b.
  Proof. unfold LedgerSpec.leaked. now rewrite map_app, list_sum_app. Qed.
  Lemma drops_sum (l : list kv) : made (drops l) = 0 /\ dropped (drops l) = lw l /\ leaked (drops l) = 0.
  Proof.
    induction l as [|x l (I1 & I2 & I3)]; [auto|]. unfold drops in *. cbn [flat_map]. rewrite made_app, dropped_app, leaked_app, I1, I2, I3, lw_cons.
    unfold LedgerSpec.made, LedgerSpec.dropped, LedgerSpec.leaked, LedgerSpec.pw. cbn. lia.
  Qed.
  Lemma drops_app (a b : list kv) : drops (a ++ b) = drops a ++ drops b.
  Proof. apply flat_map_app. Qed.
  Lemma no_leak_0 (t : fates) : no_leak t -> leaked t = 0.
  Proof.
    induction t as [|f t IH]; intros H; [reflexivity|]. change (f :: t) with ([f] ++ t). rewrite leaked_app, IH.
    - destruct f; try reflexivity. exfalso. apply (H n). left. reflexivity.
    - intros n Hn. apply (H n). now right.
  Qed.
  Lemma no_leak_nil : no_leak ([] : fates).
  Proof. intros n []. Qed.
  Lemma no_leak_app (a b : fates) : no_leak a -> no_leak b -> no_leak (a ++ b).
  Proof. intros H1 H2 n Hn. apply in_app_or in Hn. destruct Hn; [now apply (H1 n)|now apply (H2 n)]. Qed.
  Lemma no_leak_drops (l : list kv) : no_leak (drops l).
  Proof. intros n Hn. unfold drops in Hn. apply in_flat_map in Hn. destruct Hn as (x & _ & [H|[H|[]]]); discriminate. Qed.

  (** ** Trees *)
  Definition tw (n : node) : nat := lw (contents n).
  Definition te (es : list node) : nat := list_sum (map tw es).
  Lemma te_app a b : te (a ++ b) = te a + te b.
  Proof. unfold te. now rewrite map_app, list_sum_app. Qed.
  Lemma te_cons x b : te (x :: b) = tw x + te b.
  Proof. reflexivity. Qed.
  Lemma te_nil : te [] = 0.
  Proof. reflexivity. Qed.
  Lemma tw_eq n : tw n = lw (kvs n) + te (edges n).
  Proof.
    destruct n as [ks es]. unfold tw. cbn [contents kvs edges]. rewrite lw_app. f_equal. induction es as [|e es IH]; [reflexivity|].
    cbn [flat_map]. rewrite lw_app, te_cons, IH. reflexivity.
  Qed.
  Lemma te_cut i es : te (firstn i es) + te (skipn i es) = te es.
  Proof. rewrite <- te_app, firstn_skipn. reflexivity. Qed.
  Lemma lw_cut i (l : list kv) : lw (firstn i l) + lw (skipn i l) = lw l.
  Proof. rewrite <- lw_app, firstn_skipn. reflexivity. Qed.
  Lemma lw_ins i x (l : list kv) : lw (slice_insert i x l) = lw l + pw x.
  Proof. unfold slice_insert. rewrite lw_app, lw_cons. rewrite <- (lw_cut i l). lia. Qed.
  Lemma te_ins i e es : te (slice_insert i e es) = te es + tw e.
  Proof. unfold slice_insert. rewrite te_app, te_cons. rewrite <- (te_cut i es). lia. Qed.

  Definition fw (f : frame K V) : nat := lw (fk f) + te (fl f) + te (fr f).
  Fixpoint cw (c : ctx) : nat := match c with [] => 0 | f :: c' => fw f + cw c' end.
  Lemma tw_fill f n : tw (fill f n) = fw f + tw n.
  Proof. rewrite tw_eq. cbn [fill kvs edges]. rewrite te_app, te_cons. unfold fw. lia. Qed.
  Lemma tw_plug (c : ctx) : forall n, tw (plug n c) = tw n + cw c.
  Proof. induction c as [|f c IH]; intros n; cbn [plug cw]; [lia|]. rewrite IH, tw_fill. lia. Qed.

  (** a well-shaped tree: the entries in order are the contents *)
  Lemma lw_weave (es : list (list kv)) : forall ks, length es = S (length ks) -> lw (weave es ks) = lw ks + list_sum (map lw es).
  Proof.
    induction es as [|e es IH]; intros ks H; [discriminate|]. destruct ks as [|k ks]; cbn [weave].
    - destruct es; [|discriminate]. cbn. rewrite ?app_nil_r, ?lw_nil. lia.
    - rewrite lw_app, lw_cons, IH by (cbn in H; lia). cbn [map list_sum fold_right]. rewrite lw_cons. unfold list_sum. lia.
  Qed.
  Lemma tw_inorder h : forall n, kids any h n -> lw (inorder n) = tw n.
  Proof.
    induction h as [|h IH]; intros [ks es] Hk; rewrite tw_eq; cbn [kids edges kvs] in *.
    - subst es. cbn [inorder map]. rewrite te_nil. rewrite Nat.add_0_r. reflexivity.
    - destruct Hk as [Hl HF]. cbn [inorder]. rewrite lw_weave by (rewrite map_length; exact Hl). f_equal. unfold te. rewrite map_map. f_equal.
      apply map_ext_in. intros e He. apply IH. rewrite Forall_forall in HF. now apply HF.
  Qed.

  (** ** Insertion *)
  Lemma split_tw n i l y r : split_node n i = Some (l, y, r) -> tw l + pw y + tw r = tw n.
  Proof.
    unfold split_node. destruct (pick i (kvs n)) as [[[a x] z]|] eqn:Ep; [|discriminate]. intros E. inversion E; subst. apply pick_some in Ep. destruct Ep as [Ep _].
    rewrite (tw_eq n), Ep, !tw_eq. cbn [kvs edges]. rewrite lw_app, lw_cons, <- (te_cut (i + 1) (edges n)). lia.
  Qed.
  Lemma leaf_fit_tw i x n : tw (leaf_insert_fit i x n) = tw n + pw x.
  Proof. unfold leaf_insert_fit. rewrite !tw_eq. cbn [kvs edges]. rewrite lw_ins. lia. Qed.
  Lemma internal_fit_tw i x e n : tw (internal_insert_fit i x e n) = tw n + pw x + tw e.
  Proof. unfold internal_insert_fit. rewrite !(tw_eq (Node _ _)), (tw_eq n). cbn [kvs edges]. rewrite lw_ins, te_ins. lia. Qed.

  Section Alloc.
    Variables (W : Type) (nalloc : bool -> W -> option reserve_error * W).
    Implicit Types (w : W).
    Lemma leaf_insert_tw i x n w : match fst (leaf_insert nalloc i x n w) with
      | Ret (Fit n', _) => tw n' = tw n + pw x
      | Ret (Split l y r, _) => tw l + pw y + tw r = tw n + pw x
      | _ => True
      end.
    Proof.
      unfold leaf_insert. destruct (nlen n <? CAPACITY); [apply leaf_fit_tw|]. destruct (nalloc false w) as [[e|] w1]; [exact I|].
      destruct (split_node n B_) as [[[l y] r]|] eqn:Es; [|exact I]. apply split_tw in Es. destruct (i <=? B_); cbn [fst]; rewrite leaf_fit_tw; lia.
    Qed.
    Lemma internal_insert_tw i x e rt n w : match fst (internal_insert nalloc i x e rt n w) with
      | Ret (Fit n', _) => tw n' = tw n + pw x + tw e
      | Ret (Split l y r, _) => tw l + pw y + tw r = tw n + pw x + tw e
      | _ => True
      end.
    Proof.
      unfold internal_insert. destruct (nlen n <? CAPACITY); [apply internal_fit_tw|]. destruct (nalloc true w) as [[er|] w1]; [exact I|].
      destruct (split_node n B_) as [[[l y] r]|] eqn:Es; [|exact I]. apply split_tw in Es. destruct (i <=? B_); cbn [fst]; rewrite internal_fit_tw; lia.
    Qed.
    Definition settled {A} (o : outcome reserve_error A) (before after : nat) (t : fates) : Prop :=
      match o with
      | Ret _ => t = [] /\ after = before
      | Err _ => made t = 0 /\ after + dropped t + leaked t = before
      | _ => True
      end.
    Lemma l_insert_up_books H : forall c l x r rt a w,
      let '(o, (n, _), t, _) := l_insert_up nalloc H l x r rt a c w in
      settled o (tw l + pw x + tw r + cw c) (tw n) t.
    Proof.
      assert (G : forall x r, made [KDrop (fst x); VDrop (snd x); Leak r] = 0 /\ dropped [KDrop (fst x); VDrop (snd x); Leak r] = pw x /\
        leaked [KDrop (fst x); VDrop (snd x); Leak r] = tw r).
      { intros x r. unfold LedgerSpec.made, LedgerSpec.dropped, LedgerSpec.leaked, LedgerSpec.pw, tw. cbn. lia. }
      induction c as [|f c IH]; intros l x r rt a w; cbn [l_insert_up].
      - unfold push_level. destruct (nalloc true w) as [[e|] w1].
        + cbn [settled cw]. destruct (G x r) as (-> & -> & ->). lia.
        + cbn [push settled]. split; auto. rewrite tw_eq. cbn [kvs edges app firstn nlen length Nat.add]. rewrite lw_cons, lw_nil, !te_cons, te_nil. cbn [cw]. lia.
      - pose proof (internal_insert_tw (fidx f) x r rt (fill f l) w) as HI.
        destruct (internal_insert nalloc (fidx f) x r rt (fill f l) w) as [[[[n|l' y r'] [rt' j]]|e| | |] w1]; cbn [fst] in HI; cbn [settled cw]; auto.
        + split; auto. rewrite tw_plug, HI, tw_fill. lia.
        + rewrite tw_fill in HI. specialize (IH l' y r' rt' (j :: fst a, snd a) w1).
          destruct (l_insert_up nalloc H l' y r' rt' (j :: fst a, snd a) c w1) as [[[o [n h]] t] w2].
          replace (tw l + pw x + tw r + (fw f + cw c)) with (tw l' + pw y + tw r' + cw c) by lia. exact IH.
        + destruct (G x r) as (-> & -> & ->). rewrite tw_plug, tw_fill. lia.
    Qed.
    Lemma l_vacant_books (m : bmap) k hd v w : plug (hn hd) (hc hd) = bnode m ->
      let '(o, m', t, _) := l_vacant_insert nalloc m k hd v w in
      settled o (tw (bnode m) + pw (k, v)) (tw (bnode m')) t.
    Proof.
      intros E. unfold l_vacant_insert. pose proof (leaf_insert_tw (hi hd) (k, v) (hn hd) w) as HL. rewrite <- E, tw_plug.
      destruct (leaf_insert nalloc (hi hd) (k, v) (hn hd) w) as [[[[n|l y r] [rt i]]|e| | |] w1]; cbn [fst] in HL; cbn [settled]; auto.
      - split; auto. cbn [bnode]. rewrite tw_plug. lia.
      - pose proof (@l_insert_up_books (bheight m) (hc hd) l y r rt ([], i) w1) as HI.
        destruct (l_insert_up nalloc (bheight m) l y r rt ([], i) (hc hd) w1) as [[[o [n h]] t] w2]. cbn [bnode].
        replace (tw (hn hd) + cw (hc hd) + pw (k, v)) with (tw l + pw y + tw r + cw (hc hd)) by lia. exact HI.
      - cbn [bnode]. rewrite tw_plug. unfold LedgerSpec.made, LedgerSpec.dropped, LedgerSpec.leaked, LedgerSpec.pw. cbn. lia.
    Qed.

    Variable cmp : K -> K -> comparison.
    Hypothesis laws : ord_laws cmp.
    Lemma sound_tw (m : bmap) : sound m -> tw (bnode m) = lw (entries m).
    Proof. intros ((_ & Hk) & _). symmetry. apply (tw_inorder (bheight m)). now apply kids_shape in Hk. Qed.
    Lemma torn_tw (m m' : bmap) k v : sound m -> torn cmp m m' k v -> tw (bnode m') = lw (entries m').
    Proof. intros Hm [[-> _]|(_ & _ & _ & Hb & _)]; [now apply sound_tw|]. symmetry. apply (tw_inorder (bheight m')). destruct Hb as [_ Hk]. now apply kids_shape in Hk. Qed.

    Definition one (t : fates) (mk d : nat) : Prop := made t = mk /\ dropped t = d /\ no_leak t.
    Lemma one_nil : one [] 0 0.
    Proof. split; [|split]; auto. apply no_leak_nil. Qed.
    Lemma one_app a b m1 d1 m2 d2 : one a m1 d1 -> one b m2 d2 -> one (a ++ b) (m1 + m2) (d1 + d2).
    Proof. intros (H1 & H2 & H3) (G1 & G2 & G3). split; [|split]; [rewrite made_app|rewrite dropped_app|now apply no_leak_app]; lia. Qed.
    Lemma one_k k : one [KDrop k] 0 (kw k).
    Proof. split; [reflexivity|]. split; [unfold LedgerSpec.dropped; cbn; lia|]. intros n [H|[]]; discriminate. Qed.
    Lemma one_v v : one [VDrop v] 0 (vw v).
    Proof. split; [reflexivity|]. split; [unfold LedgerSpec.dropped; cbn; lia|]. intros n [H|[]]; discriminate. Qed.
    Lemma one_kv k v : one [KDrop k; VDrop v] 0 (kw k + vw v).
    Proof. apply (one_app (one_k k) (one_v v)). Qed.
    Lemma one_drops l : one (drops l) 0 (lw l).
    Proof. destruct (drops_sum l) as (H1 & H2 & H3). split; [auto|]. split; auto. apply no_leak_drops. Qed.
    Lemma one_write o n : one [VDrop o; VMade n] (vw n) (vw o).
    Proof. split; [unfold LedgerSpec.made; cbn; lia|]. split; [unfold LedgerSpec.dropped; cbn; lia|]. intros m [H|[H|[]]]; discriminate. Qed.

    (** what a single owner did: [before] and what came in is [after] and what went out *)
    Definition booked {A} (o : outcome reserve_error A) (big : Prop) (before after : nat) (out : A -> nat) (t : fates) : Prop :=
      match o with
      | Ret a => no_leak t /\ before + made t = after + out a + dropped t
      | Err _ => (no_leak t \/ big) /\ before + made t = after + dropped t + leaked t
      | _ => False
      end.

    Lemma entry_trace k (m : bmap) w : let '(o, m1, t, w1) := l_try_entry nalloc cmp k m w in
      match o with
      | Ret (Occupied hd) => t = [KDrop k] | Ret (Vacant k' hd) => t = [] /\ k' = k | Err _ => t = [KDrop k] | _ => True end.
    Proof.
      unfold l_try_entry. destruct (ensure_root_is_owned nalloc m w) as [[[] m1] w1]; auto. destruct (search (cmp k) m1) as [[hd|hd]|]; auto.
    Qed.

    Lemma occupied_books (m : bmap) k hd (g : kv -> kv) : valid cmp m -> stands cmp m k (Occupied hd) ->
      exists x m', into_kv hd = Some x /\ kv_at (bnode m) (haddr hd) = Some x /\ update_at (haddr hd) g m = Some m' /\ lw (entries m) + pw (g x) = lw (entries m') + pw x.
    Proof.
      intros Hm (Hok & x & Hx & _ & _). pose proof (hok_placed _ Hok Hx) as Hp. destruct (update_at_ok g (proj1 Hm) Hp) as (m' & l & r & E1 & _ & E2 & E3 & _).
      exists x, m'. split; auto. split; [apply Hp|]. split; auto. rewrite E2, E3, !lw_app, !lw_cons. lia.
    Qed.

    Lemma vacant_books (m : bmap) k hd v w : valid cmp m -> stands cmp m k (Vacant k hd) ->
      let '(o, m', t, _) := l_vacant_insert nalloc m k hd v w in
      match o with
      | Ret _ => t = [] /\ lw (entries m') = lw (entries m) + kw k + vw v
      | Err _ => CAPACITY <= length (entries m) /\ made t = 0 /\ lw (entries m) + kw k + vw v = lw (entries m') + dropped t + leaked t
      | _ => False
      end.
    Proof.
      intros Hm Hst. pose proof (vacant_stands laws nalloc v w Hm Hst) as HV. rewrite <- l_vacant_erase in HV.
      pose proof (@vacant_insert_room K V W nalloc m k hd v w) as HR. rewrite <- l_vacant_erase in HR.
      pose proof (@l_vacant_books m k hd v w) as HB. destruct (l_vacant_insert nalloc m k hd v w) as [[[o m'] t] w']. cbn [no_t] in HV, HR.
      destruct Hst as (_ & _ & Hok & _ & Hi & _ & l1 & r1 & El & Er & E & _). specialize (HB (proj1 Hok)). rewrite (sound_tw (proj1 Hm)) in HB. unfold LedgerSpec.pw in HB. cbn [fst snd] in HB.
      destruct o; try contradiction; cbn [settled] in HB.
      - destruct HV as (Hv & _). rewrite (sound_tw (proj1 Hv)) in HB. destruct HB as [-> ->]. split; auto. lia.
      - destruct HV as (_ & Ht). rewrite (torn_tw (proj1 Hm) Ht) in HB. destruct HB as [-> HB]. split; [|split; auto; lia].
        specialize (HR _ _ _ eq_refl). rewrite E, El, Er, !app_length, firstn_length, skipn_length. unfold nlen in *. lia.
    Qed.

    Lemma try_insert_books k v (m : bmap) w : valid cmp m ->
      let '(o, m', t, _) := l_try_insert nalloc cmp k v m w in
      booked o (CAPACITY <= length (entries m)) (lw (entries m) + kw k + vw v) (lw (entries m')) (ow vw) t.
    Proof.
      intros Hm. unfold l_try_insert. pose proof (try_entry_stands laws nalloc k w Hm) as HE. rewrite <- l_entry_erase in HE.
      pose proof (entry_trace k m w) as HT. destruct (l_try_entry nalloc cmp k m w) as [[[o m1] t] w1]. cbn [no_t] in HE.
      destruct o as [[hd|k' hd]|e| | |]; try contradiction.
      - destruct HE as (Hv & Hst & E & _ & -> & ->). subst t. destruct (@occupied_books m k hd (write_val (fun _ => v)) Hm Hst) as (x & m' & E1 & _ & E2 & E3).
        unfold occupied_insert. rewrite E1, E2. cbn [omap booked ow]. destruct (one_k k) as (-> & -> & Hn). split; auto.
        unfold LedgerSpec.pw, write_val in E3. cbn [fst snd] in E3. lia.
      - destruct HT as [-> ->]. destruct HE as (Hv & Hst & E & _ & _). pose proof (@vacant_books m1 k hd v w1 Hv Hst) as HB.
        destruct (l_vacant_insert nalloc m1 k hd v w1) as [[[o2 m2] t2] w2]. rewrite E in HB. cbn [app]. destruct o2; try contradiction; cbn [omap booked ow].
        + destruct HB as [-> HB]. split; [apply no_leak_nil|]. cbn. lia.
        + destruct HB as (Hbig & -> & HB). split; [right; lia|lia].
      - subst t. destruct HE as (_ & -> & ->). cbn [booked]. destruct (one_app (one_k k) (one_v v)) as (-> & -> & Hn). rewrite (no_leak_0 Hn). split; [now left|lia].
    Qed.
    Lemma replace_books k v (m : bmap) w : valid cmp m ->
      let '(o, m', t, _) := l_replace_key nalloc cmp k v m w in
      booked o (CAPACITY <= length (entries m)) (lw (entries m) + kw k + vw v) (lw (entries m')) (ow kw) t.
    Proof.
      intros Hm. unfold l_replace_key. pose proof (try_entry_stands laws nalloc k w Hm) as HE. destruct (try_entry nalloc cmp k m w) as [[o m1] w1].
      destruct o as [[hd|k' hd]|e| | |]; try contradiction.
      - destruct HE as (Hv & Hst & E & _ & -> & ->). destruct (@occupied_books m k hd (fun e => (k, snd e)) Hm Hst) as (x & m' & E1 & _ & E2 & E3).
        rewrite E1, E2. cbn [booked ow]. destruct (one_v v) as (-> & -> & Hn). split; auto. unfold LedgerSpec.pw in E3. cbn [fst snd] in E3. lia.
      - destruct HE as (Hv & Hst & E & _ & _). assert (k' = k) by apply Hst. subst k'. pose proof (@vacant_books m1 k hd v w1 Hv Hst) as HB.
        destruct (l_vacant_insert nalloc m1 k hd v w1) as [[[o2 m2] t2] w2]. rewrite E in HB. destruct o2; try contradiction; cbn [omap booked ow].
        + destruct HB as [-> HB]. split; [apply no_leak_nil|]. cbn. lia.
        + destruct HB as (Hbig & -> & HB). split; [right; lia|lia].
      - destruct HE as (_ & -> & ->). cbn [booked]. destruct (one_kv k v) as (-> & -> & Hn). rewrite (no_leak_0 Hn). split; [now left|lia].
    Qed.

    (** ** extend *)
    Lemma extend_books l : forall (m : bmap) w, valid cmp m ->
      let '(o, m', t, _) := l_extend nalloc cmp l m w in
      match o with
      | Ret _ => no_leak t /\ lw (entries m) + lw l + made t = lw (entries m') + dropped t
      | Panic => lw (entries m) + lw l + made t = lw (entries m') + dropped t + leaked t
      | _ => False
      end.
    Proof.
      induction l as [|x l IH]; intros m w Hm; cbn [l_extend]; [split; [apply no_leak_nil|cbn; lia]|].
      pose proof (@try_insert_books (fst x) (snd x) m w Hm) as HB. pose proof (@try_insert_ok K V W nalloc cmp laws (fst x) (snd x) m w (proj1 Hm) (proj2 Hm)) as HO.
      rewrite <- l_insert_erase in HO. destruct (l_try_insert nalloc cmp (fst x) (snd x) m w) as [[[o m1] t] w1]. cbn [no_t] in HO. rewrite lw_cons. unfold LedgerSpec.pw.
      destruct o as [old|e| | |]; try contradiction; cbn [booked] in HB.
      - destruct HB as [Hn HB]. destruct HO as (_ & Hs & E & _). assert (Hv : valid cmp m1) by (split; auto; rewrite E; apply s_insert_sorted; auto; apply Hm).
        specialize (IH m1 w1 Hv). destruct (l_extend nalloc cmp l m1 w1) as [[[o2 m2] t2] w2].
        assert (HV : one (match old with Some v => [VDrop v] | None => [] end) 0 (ow vw old)) by (destruct old; [apply one_v|apply one_nil]).
        destruct HV as (V1 & V2 & V3). destruct o2; try contradiction.
        + destruct IH as [In IH]. split; [auto using no_leak_app|]. rewrite !made_app, !dropped_app. lia.
        + rewrite !made_app, !dropped_app, !leaked_app, (no_leak_0 Hn), (no_leak_0 V3). lia.
      - destruct HB as [_ HB]. rewrite made_app, dropped_app, leaked_app. destruct (drops_sum l) as (-> & -> & ->). lia.
    Qed.

    (** ** append *)
    Lemma l_from_sorted_books H1 T1 s1 H2 T2 s2 fuel : forall mi l r (n : node) (c : ctx) len w,
      mi_ok H1 T1 s1 H2 T2 s2 mi l r -> J n c ->
      let '(o, (t, ht), _, mi', _, hand) := l_from_sorted nalloc cmp fuel mi n c len w in
      match o with
      | Ret _ => hand = []
      | Panic => exists l' r', mi_ok H1 T1 s1 H2 T2 s2 mi' l' r' /\
                 lw (inorder (plug n c)) + lw (mdropped mi) + lw l + lw r = lw (inorder t) + lw hand + lw (mdropped mi') + lw l' + lw r'
      | _ => True
      end.
    Proof.
      induction fuel as [|fuel IH]; intros mi l r n c len w Hmi HJ; cbn [l_from_sorted]; [exact I|].
      pose proof (merge_next_ok cmp Hmi) as Hm. destruct (merge2 cmp l r) as [|x rest] eqn:E.
      - destruct Hm as (mi' & -> & _). reflexivity.
      - destruct Hm as (mi' & l' & r' & d & -> & Hmi' & _ & _ & Hd & _ & Hp). pose proof (@push_sorted_ok K V W nalloc x n c w HJ) as HS.
        apply lw_perm in Hp. rewrite lw_app, lw_cons, !lw_app in Hp.
        destruct (push_sorted nalloc x n c w) as [[[[n' c']|e| | |] [t ht]] w']; try contradiction.
        + destruct HS as [HJ' Hi]. specialize (IH mi' l' r' n' c' (len + 1) w' Hmi' HJ').
          destruct (l_from_sorted nalloc cmp fuel mi' n' c' (len + 1) w') as [[[[[o [t2 ht2]] len2] mi2] w2] hand]. destruct o; auto.
          destruct IH as (l2 & r2 & Hmi2 & HI). exists l2, r2. split; auto. rewrite Hi, lw_app, lw_cons, lw_nil, Hd, lw_app in HI. lia.
        + destruct HS as (_ & _ & G3). exists l', r'. split; auto. rewrite G3, Hd, lw_app, lw_cons, lw_nil. lia.
    Qed.
    Lemma l_append_books (m o : bmap) w : sound m -> sound o ->
      let '(r, m', o', mi, _, hand) := l_append nalloc cmp m o w in
      match r with
      | Ret _ => match mi with
                 | None => lw (entries m') + lw (entries o') = lw (entries m) + lw (entries o)
                 | Some mi => exists f1 f2, drop_peekable (mleft mi) = Ret ([], f1) /\ drop_peekable (mright mi) = Ret ([], f2) /\
                     lw (entries m) + lw (entries o) = lw (entries m') + lw (entries o') + lw (mdropped mi) + lw hand
                 end
      | Panic => exists mi' l' r' f1 f2, mi = Some mi' /\ drop_peekable (mleft mi') = Ret (l', f1) /\ drop_peekable (mright mi') = Ret (r', f2) /\
                 lw (entries m) + lw (entries o) = lw (entries m') + lw (entries o') + lw (mdropped mi') + lw hand + lw l' + lw r'
      | _ => False
      end.
    Proof.
      intros Hm Ho. pose proof (@append_ok K V W nalloc cmp m o w Hm Ho) as HA. rewrite <- l_append_erase in HA.
      destruct (l_append nalloc cmp m o w) as [[[[[r m'] o'] mi] w'] hand] eqn:EL. cbn [fst] in HA.
      assert (HM : forall l r, lw l + lw r = lw (merge2 cmp l r) + lw (overwritten cmp l r)).
      { clear - kw vw. induction l as [|x l IHl]; intros r; [now destruct r; cbn; rewrite ?Nat.add_0_r|]. induction r as [|y r IHr]; [cbn [merge2 overwritten]; rewrite lw_nil; lia|].
        cbn [merge2 overwritten]. destruct (cmp (fst x) (fst y)).
        - specialize (IHl r). rewrite !lw_cons. lia.
        - specialize (IHl (y :: r)). rewrite !lw_cons in *. lia.
        - rewrite !lw_cons in *. cbn [merge2 overwritten] in IHr. lia. }
      pose proof Hm as (Hb1 & Hs1 & Hl1). pose proof Ho as (Hb2 & Hs2 & Hl2). unfold l_append, len in EL.
      destruct (Nat.eqb_spec (blen o) 0) as [E0|E0]; [inversion EL; subst; lia|]. destruct (Nat.eqb_spec (blen m) 0) as [E1|E1]; [inversion EL; subst; lia|].
      assert (N1 : bshared m = false).
      { destruct (bshared m); auto. destruct Hs1 as [E _]; auto. exfalso. apply E1. rewrite Hl1. unfold entries. now rewrite E. }
      assert (N2 : bshared o = false).
      { destruct (bshared o); auto. destruct Hs2 as [E _]; auto. exfalso. apply E0. rewrite Hl2. unfold entries. now rewrite E. }
      pose proof (@kids_shape K V _ _ _ (proj2 Hb1)) as K1. pose proof (kids_shape _ _ _ (proj2 Hb2)) as K2.
      destruct (map_into_iter_ok m K1 Hl1) as (li & Eli & Hli); [congruence|]. rewrite Eli in EL.
      destruct (map_into_iter_ok o K2 Hl2) as (ri & Eri & Hri); [congruence|]. rewrite Eri in EL.
      rewrite N1 in Hli. rewrite N2 in Hri. set (mi0 := MergeIter (Peekable None li) (Peekable None ri) []) in EL.
      assert (Hmi : mi_ok (bheight m) (bnode m) false (bheight o) (bnode o) false mi0 (entries m) (entries o)).
      { split; [exists 0, (length (entries m))|exists 0, (length (entries o))]; cbn [mi0 mleft mright pk pinner];
          (split; [auto|unfold entries; now rewrite seg_all]). }
      assert (Hdrop : forall mi l r, mi_ok (bheight m) (bnode m) false (bheight o) (bnode o) false mi l r ->
        exists f1 f2, drop_peekable (mleft mi) = Ret (l, f1) /\ drop_peekable (mright mi) = Ret (r, f2)).
      { intros mi1 l1 r1 [G1 G2]. destruct (drop_peekable_ok K1 G1) as (f1 & D1 & P1). destruct (drop_peekable_ok K2 G2) as (f2 & D2 & P2). exists f1, f2. auto. }
      unfold new_leaf in EL. destruct (nalloc false w) as [[e|] w1] eqn:Ea.
      { inversion EL; subst. destruct (Hdrop _ _ _ Hmi) as (f1 & f2 & D1 & D2). exists mi0, (entries m), (entries o), f1, f2.
        repeat (split; [auto|]). change (entries (@new K V)) with (@nil kv). cbn [mi0 mdropped]. rewrite !lw_nil. lia. }
      assert (HJ : J (@empty_leaf K V) []) by (split; [reflexivity|]; split; [apply Nat.le_0_l|]; split; [exact I|congruence]).
      pose proof (@l_from_sorted_books (bheight m) (bnode m) false (bheight o) (bnode o) false (blen m + blen o + 1) mi0 (entries m) (entries o) (@empty_leaf K V) [] 0 w1 Hmi HJ) as HB.
      pose proof (@from_sorted_loop_ok K V W nalloc cmp (bheight m) (bnode m) false (bheight o) (bnode o) false (blen m + blen o + 1) mi0 (entries m) (entries o)
        (@empty_leaf K V) [] 0 w1 Hmi HJ ltac:(lia) eq_refl) as HL. rewrite <- l_from_sorted_erase in HL.
      destruct (l_from_sorted nalloc cmp (blen m + blen o + 1) mi0 (@empty_leaf K V) [] 0 w1) as [[[[[r0 [t ht]] l'] mi'] w2] h0]. cbn [fst] in HL.
      cbn [plug] in HB. change (inorder (@empty_leaf K V)) with (@nil kv) in HB. cbn [mi0 mdropped] in HB. rewrite !lw_nil in HB.
      destruct r0.
      - subst h0. destruct HL as (R1 & _ & R3 & _). destruct (@fix_right_edge_ok K V ht t R1 R3) as (n' & Ef & _). rewrite Ef in EL. inversion EL; subst.
        destruct HA as (_ & _ & E2 & E3 & (f1 & f2 & D1 & D2 & _) & E4 & _). exists f1, f2. split; auto. split; auto. rewrite E2, E3, E4, lw_nil, (HM (entries m)). cbn. lia.
      - inversion EL; subst. contradiction.
      - inversion EL; subst. destruct HB as (l2 & r2 & Hmi2 & HB). destruct (Hdrop _ _ _ Hmi2) as (f1 & f2 & D1 & D2). exists mi', l2, r2, f1, f2.
        repeat (split; [auto|]). change (entries (@new K V)) with (@nil kv). unfold entries at 3. cbn [bnode]. rewrite lw_nil. lia.
      - inversion EL; subst. contradiction.
      - inversion EL; subst. contradiction.
    Qed.
  End Alloc.
End Weights.
