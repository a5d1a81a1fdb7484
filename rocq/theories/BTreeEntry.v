(** * BTreeEntry: the entry API *)
From Coq Require Import List Arith Lia Bool Sorted Permutation.
From Verif Require Import Base MapSpec SpecFacts BTreeModel BTreeInv BTreeLemmas BTreeSearch BTreeInsert BTreeRemove BTreeOps.
Import ListNotations.
Set Implicit Arguments.

Section Entry.
  Variables (K V : Type) (cmp : K -> K -> comparison).
  Hypothesis laws : ord_laws cmp.
  Notation kv := (K * V)%type.
  Notation node := (node K V).
  Notation ctx := (ctx K V).
  Notation handle := (handle K V).
  Notation bmap := (bmap K V).
  Implicit Types (m : bmap) (hd : handle).

  (** [hd] is where [k] is, resp. where it belongs *)
  Definition stands m (k : K) (en : entry K V) : Prop :=
    match en with
    | Occupied hd => hok fair root_fair (bheight m) (bnode m) hd /\ exists x, into_kv hd = Some x /\ cmp k (fst x) = Eq /\
        s_get (cmp k) (entries m) = Some x
    | Vacant k' hd => k' = k /\ bshared m = false /\ hok fair root_fair (bheight m) (bnode m) hd /\ hh hd = 0 /\ hi hd <= nlen (hn hd) /\
        s_get (cmp k) (entries m) = None /\
        exists l r, l = cbefore (hc hd) ++ firstn (hi hd) (kvs (hn hd)) /\ r = skipn (hi hd) (kvs (hn hd)) ++ cafter (hc hd) /\
          entries m = l ++ r /\ allq (cmp k) Gt l /\ allq (cmp k) Lt r
    end.

  Lemma try_entry_stands W (nalloc : bool -> W -> option reserve_error * W) k m w : valid cmp m ->
    let '(o, m1, w1) := try_entry nalloc cmp k m w in
    match o with
    | Ret en => valid cmp m1 /\ stands m1 k en /\ entries m1 = entries m /\ blen m1 = blen m /\
        (match en with Occupied _ => m1 = m /\ w1 = w | Vacant _ _ => True end)
    | Err e => refused nalloc e /\ m1 = m /\ entries m = []
    | _ => False
    end.
  Proof.
    intros [Hm Hs]. pose proof (@try_entry_ok K V W nalloc cmp laws k m w Hm Hs) as H. pose proof (@try_entry_blen K V W nalloc cmp k m w) as Hb.
    destruct (try_entry nalloc cmp k m w) as [[o m1] w1]. destruct o as [[hd|k' hd]|e| | |]; try contradiction; auto.
    - destruct H as (-> & -> & x & l & r & Hg & Hx & E & Hl & Hr & Hk & Hok). split; [split; auto|]. split; auto. split; auto. exists x. auto.
    - destruct H as (-> & Hm1 & E1 & Hg & _ & Hok & H0 & Hi & l & r & El & Er & E & Hl & Hr). destruct Hb as [Hb1 Hb2].
      split; [split; auto; now rewrite E1|]. split; auto. cbn [stands]. rewrite E1. split; auto. split; auto. split; auto. split; auto. split; auto.
      split; auto. exists l, r. auto.
  Qed.

  (** ** Replacing the node of a handle *)
  Lemma update_node_fill (f : frame K V) (n : node) p i (g : kv -> kv) : update_node (fidx f :: p) i g (fill f n) = option_map (fill f) (update_node p i g n).
  Proof.
    cbn [update_node]. unfold pick, fill, fidx. cbn [edges kvs].
    assert (E : nth_error (fl f ++ n :: fr f) (length (fl f)) = Some n) by (rewrite nth_error_app2, Nat.sub_diag by lia; reflexivity).
    rewrite E. rewrite firstn_app, firstn_all, Nat.sub_diag. cbn [firstn]. rewrite app_nil_r.
    assert (E2 : skipn (S (length (fl f))) (fl f ++ n :: fr f) = fr f).
    { rewrite skipn_app, skipn_all2 by lia. replace (S (length (fl f)) - length (fl f)) with 1 by lia. reflexivity. }
    rewrite E2. destruct (update_node p i g n); reflexivity.
  Qed.
  Lemma update_node_plug (c : ctx) : forall (n : node) p i (g : kv -> kv), update_node (cpath c ++ p) i g (plug n c) = option_map (fun n' => plug n' c) (update_node p i g n).
  Proof.
    induction c as [|f c IH]; intros n p i g.
    - cbn. destruct (update_node p i g n); reflexivity.
    - cbn [plug]. unfold cpath. cbn [map rev]. fold (cpath c). rewrite <- app_assoc. cbn [app].
      change (rev (map (@fidx K V) c)) with (cpath c). rewrite IH, update_node_fill. destruct (update_node p i g n); reflexivity.
  Qed.
  Lemma kids_same P h (n n' : node) : nlen n' = nlen n -> edges n' = edges n -> kids P h n -> kids P h n'.
  Proof. intros E1 E2. destruct h; cbn [kids]; rewrite ?E1, E2; auto. Qed.

  Lemma and_modify_stands m k en f : valid cmp m -> stands m k en ->
    exists en' m', and_modify m en f = (Ret en', m') /\ valid cmp m' /\ stands m' k en' /\ entries m' = s_update (cmp k) f (entries m) /\ blen m' = blen m /\
      (match en, en' with Occupied _, Occupied _ | Vacant _ _, Vacant _ _ => True | _, _ => False end).
  Proof.
    intros [Hm Hs] Hst. destruct en as [hd|k' hd]; cbn [stands and_modify] in *.
    - destruct Hst as (Hok & x & Hx & Hk & Hg).
      destruct (update_at_ok (write_val f) Hm (@hok_placed K V m hd x Hok Hx)) as (m' & l & r & Eu & Hm' & E1 & E2 & Hpl & Hsh & Hh).
      rewrite Eu. unfold into_kv in Hx.
      assert (Hpk : exists a z, pick (hi hd) (kvs (hn hd)) = Some (a, x, z)) by (unfold pick; rewrite Hx; eauto).
      destruct Hpk as (a & z & Hpk). rewrite Hpk. pose proof (pick_some _ _ Hpk) as [Ek Hla].
      assert (Hq : allq (cmp k) Gt l /\ allq (cmp k) Lt r).
      { rewrite E1 in Hs. destruct (sorted_mid_q laws _ _ _ Hs) as [A1 A2]. split; (eapply Forall_impl; [|eassumption]); cbn beta; intros e He;
          rewrite (cmp_eq_l laws _ _ _ Hk); exact He. }
      destruct Hq as [Hl Hr].
      assert (Ee : entries m' = s_update (cmp k) f (entries m)) by (rewrite E1, E2, s_update_some; auto).
      eexists _, m'. split; [reflexivity|]. split; [split; auto; rewrite Ee; apply (s_update_sorted laws); auto|].
      split; [|split; [exact Ee|split; [|exact I]]].
      + split.
        * destruct Hok as (Hp & HH & Hbd & Hkk & Hc). unfold hok. cbn [hn hh hc]. rewrite Hh.
          assert (En : bnode m' = plug (Node (a ++ write_val f x :: z) (edges (hn hd))) (hc hd)).
          { unfold update_at, haddr, hpath in Eu. cbn [fst snd] in Eu. rewrite <- Hp, <- (app_nil_r (cpath (hc hd))), update_node_plug in Eu.
            cbn [update_node] in Eu. rewrite Hpk in Eu. cbn [option_map] in Eu. inversion Eu; subst. reflexivity. }
          assert (El : nlen (Node (a ++ write_val f x :: z) (edges (hn hd))) = nlen (hn hd)).
          { unfold nlen. cbn [kvs]. rewrite Ek, !app_length. reflexivity. }
          split; [auto|]. split; [auto|]. split; [now rewrite El|]. split; [|exact Hc]. eapply kids_same; [exact El|reflexivity|exact Hkk].
        * exists (write_val f x). split; [|split; [exact Hk|]].
          -- unfold into_kv. cbn [hn hi kvs]. rewrite <- Hla, nth_error_app2, Nat.sub_diag by lia. reflexivity.
          -- rewrite E2. now apply s_get_some.
      + unfold update_at in Eu. destruct (update_node _ _ _ _); inversion Eu; reflexivity.
    - exists (Vacant k' hd), m. split; auto. split; [split; auto|]. split; auto. split; [|auto].
      destruct Hst as (_ & _ & _ & _ & _ & _ & l & r & _ & _ & -> & Hl & Hr). symmetry. now apply s_update_none.
  Qed.

  Lemma entry_key_stands m k en : stands m k en ->
    entry_key en = Some (match s_get (cmp k) (entries m) with Some x => fst x | None => k end).
  Proof.
    destruct en as [hd|k' hd]; cbn [stands entry_key].
    - intros (_ & x & -> & _ & ->). reflexivity.
    - intros (-> & _ & _ & _ & _ & -> & _). reflexivity.
  Qed.

  Lemma remove_at_stands m k hd : valid cmp m -> stands m k (Occupied hd) ->
    exists x m', s_get (cmp k) (entries m) = Some x /\ remove_entry_at m hd = (Ret x, m') /\ valid cmp m' /\
      entries m' = s_remove (cmp k) (entries m) /\ blen m' = blen m - 1.
  Proof.
    intros [Hm Hs] (Hok & x & Hx & Hk & Hg). unfold remove_entry_at.
    destruct (remove_kv_ok Hok Hx) as (n' & H' & E & Hbal & HH & Hin). rewrite E.
    assert (Ein : entries m = (cbefore (hc hd) ++ nleft (hn hd) (hi hd)) ++ x :: nright (hn hd) (hi hd) ++ cafter (hc hd)).
    { destruct Hok as (Hp & _ & _ & Hkk & Hc). unfold entries. rewrite <- Hp, inorder_plug by (eapply cok_frames; exact Hc).
      unfold into_kv in Hx. assert (Hpk : exists a z, pick (hi hd) (kvs (hn hd)) = Some (a, x, z)) by (unfold pick; rewrite Hx; eauto).
      destruct Hpk as (a & z & Hpk). rewrite (@kv_split K V fair (hh hd) (hn hd) (hi hd) a x z Hkk Hpk). rewrite <- !app_assoc. reflexivity. }
    set (l := cbefore (hc hd) ++ nleft (hn hd) (hi hd)) in *. set (r := nright (hn hd) (hi hd) ++ cafter (hc hd)) in *.
    assert (Hq : allq (cmp k) Gt l /\ allq (cmp k) Lt r).
    { rewrite Ein in Hs. destruct (sorted_mid_q laws _ _ _ Hs) as [A1 A2]. split; (eapply Forall_impl; [|eassumption]); cbn beta; intros e He;
        rewrite (cmp_eq_l laws _ _ _ Hk); exact He. }
    destruct Hq as [Hl Hr]. exists x. eexists. split; auto. split; [reflexivity|].
    assert (Ee : inorder n' = s_remove (cmp k) (entries m)) by (rewrite Hin, Ein, s_remove_some; auto).
    split; [|split; [exact Ee|reflexivity]]. destruct Hm as (Hb & Hsh & Hlen).
    split; [|unfold entries; cbn [bnode]; rewrite Ee; now apply sorted_filter].
    split; [exact Hbal|]. cbn [bshared bnode bheight blen]. split.
    - intros Eb. exfalso. destruct (Hsh Eb) as [En _]. unfold entries in Ein. rewrite En in Ein. cbn in Ein. destruct l; discriminate.
    - unfold entries at 1. cbn [bnode]. rewrite Hin, Hlen, Ein, !app_length. simpl. lia.
  Qed.

  (** the reference behind address [a] is the value of the entry [x]: writing
      through it changes that entry and nothing else *)
  Definition refers m (a : addr) (x : kv) : Prop :=
    In x (entries m) /\ kv_at (bnode m) a = Some x /\ forall f, exists m', update_at a (write_val f) m = Some m' /\ valid cmp m' /\
      entries m' = s_update (cmp (fst x)) f (entries m) /\ len m' = len m.

  Lemma placed_refers m a x : valid cmp m -> placed m a x -> refers m a x.
  Proof.
    intros [Hm Hs] Hp. split.
    - destruct (update_at_ok (fun e => e) Hm Hp) as (m' & l & r & _ & _ & -> & _). apply in_elt.
    - split; [apply Hp|]. intros f. destruct (write_ok laws f Hm Hs Hp) as (m' & E & Hm' & Ee & _). exists m'. split; auto.
      split; [split; auto; rewrite Ee; now apply s_update_sorted|]. split; auto.
      unfold len. rewrite (proj2 (proj2 Hm)), (proj2 (proj2 Hm')), Ee. unfold s_update. now rewrite map_length.
  Qed.

  Section Alloc.
    Variables (W : Type) (nalloc : bool -> W -> option reserve_error * W).

    Lemma vacant_stands m k hd v w : valid cmp m -> stands m k (Vacant k hd) ->
      let '(o, m', w') := vacant_insert nalloc m k hd v w in
      match o with
      | Ret a => valid cmp m' /\ entries m' = s_insert cmp k v (entries m) /\ placed m' a (k, v)
      | Err e => refused nalloc e /\ torn cmp m m' k v
      | _ => False
      end.
    Proof.
      intros [Hm Hs] (_ & Hns & Hok & H0 & Hi & Hg & Hex).
      pose proof (@vacant_ok K V W nalloc cmp m m k hd v w Hm Hm eq_refl eq_refl Hns Hok H0 Hi Hex) as H.
      destruct (vacant_insert nalloc m k hd v w) as [[o m'] w']. destruct o; auto. destruct H as (H1 & H2 & H3).
      split; auto. split; auto. rewrite H2. now apply s_insert_sorted.
    Qed.

    Lemma or_insert_stands m k en default w : valid cmp m -> stands m k en ->
      let '(o, m', w') := or_try_insert_with nalloc m en default w in
      match s_get (cmp k) (entries m) with
      | Some x => exists a, o = Ret a /\ m' = m /\ w' = w /\ refers m a x
      | None =>
          match default w with
          | (Ret v, _) =>
              match o with
              | Ret a => valid cmp m' /\ entries m' = s_insert cmp k v (entries m) /\ refers m' a (k, v)
              | Err e => refused nalloc e /\ torn cmp m m' k v
              | _ => False
              end
          | (od, wd) => m' = m /\ w' = wd /\ o = omap (fun _ => ([], 0)) od
          end
      end.
    Proof.
      intros Hv Hst. destruct en as [hd|k' hd].
      - pose proof Hst as (Hok & x & Hx & Hk & Hg). cbn [or_try_insert_with]. rewrite Hx, Hg. exists (haddr hd). split; auto. split; auto. split; auto.
        apply placed_refers; auto. now apply hok_placed.
      - pose proof Hst as (-> & _ & _ & _ & _ & Hg & _). cbn [or_try_insert_with]. rewrite Hg.
        destruct (default w) as [[v|e| | |] wd]; try (split; [reflexivity|split; reflexivity]).
        pose proof (vacant_stands v wd Hv Hst) as H. destruct (vacant_insert nalloc m k hd v wd) as [[o m'] w']. destruct o; auto.
        destruct H as (H1 & H2 & H3). split; auto. split; auto. apply placed_refers; auto.
    Qed.
  End Alloc.
End Entry.
