(** * BTreeOps: the single-entry operations of the map against sorted lists *)
From Coq Require Import List Arith Lia Bool Sorted.
From Verif Require Import Base MapSpec BTreeModel BTreeInv BTreeLemmas BTreeSearch BTreeInsert BTreeRemove.
Import ListNotations.
Set Implicit Arguments.

Section Ops.
  Variables (K V : Type).
  Notation kv := (K * V)%type.
  Notation node := (node K V).
  Notation handle := (handle K V).
  Notation bmap := (bmap K V).
  Implicit Types (m : bmap) (q : K -> comparison) (hd : handle).

  (** [a] is the place of the entry [x] *)
  Definition placed m (a : addr) (x : kv) : Prop := kv_at (bnode m) a = Some x /\ length (fst a) <= bheight m.

  Lemma hok_placed m hd x : hok fair root_fair (bheight m) (bnode m) hd -> into_kv hd = Some x -> placed m (haddr hd) x.
  Proof.
    intros (Hp & HH & _) Hx. split.
    - rewrite <- Hp. unfold haddr, hpath. rewrite <- (app_nil_r (cpath (hc hd))), kv_at_plug, kv_at_nil. exact Hx.
    - unfold haddr, hpath, cpath. cbn [fst]. rewrite rev_length, map_length. lia.
  Qed.

  (** what the search finds *)
  Lemma search_ok q m : sound m -> cutq q (entries m) ->
    match search q m with
    | Some (Found hd) => hok fair root_fair (bheight m) (bnode m) hd /\ exists x l r, into_kv hd = Some x /\ q (fst x) = Eq /\
        entries m = l ++ x :: r /\ allq q Gt l /\ allq q Lt r
    | Some (GoDown hd) => hok fair root_fair (bheight m) (bnode m) hd /\ hh hd = 0 /\ hi hd <= nlen (hn hd) /\
        exists l r, l = cbefore (hc hd) ++ firstn (hi hd) (kvs (hn hd)) /\ r = skipn (hi hd) (kvs (hn hd)) ++ cafter (hc hd) /\
        entries m = l ++ r /\ allq q Gt l /\ allq q Lt r
    | None => False
    end.
  Proof.
    intros ([Hb1 Hb2] & Hsh & Hlen) Hq. unfold search.
    pose proof (@search_root_ok K V fair root_fair q (bheight m) (bnode m) Hb1 Hb2 Hq) as Hs.
    destruct (search_tree q (bheight m) (bnode m) []) as [[hd|hd]|]; auto.
    destruct Hs as (Hok & x & l & r & Hx & Hqx & _ & _ & H). split; auto. exists x, l, r. auto.
  Qed.

  Lemma get_key_value_ok q m : sound m -> cutq q (entries m) -> get_key_value q m = Ret (s_get q (entries m)).
  Proof.
    intros Hm Hq. unfold get_key_value. pose proof (search_ok Hm Hq) as Hs. destruct (search q m) as [[hd|hd]|]; [| |contradiction].
    - destruct Hs as (_ & x & l & r & -> & Hx & -> & Hl & Hr). now rewrite s_get_some.
    - destruct Hs as (_ & _ & _ & l & r & _ & _ & -> & Hl & Hr). now rewrite s_get_none.
  Qed.

  Lemma get_mut_ok q m : sound m -> cutq q (entries m) ->
    match s_get q (entries m) with
    | Some x => exists a, get_mut q m = Ret (Some a) /\ placed m a x
    | None => get_mut q m = Ret None
    end.
  Proof.
    intros Hm Hq. unfold get_mut. pose proof (search_ok Hm Hq) as Hs. destruct (search q m) as [[hd|hd]|]; [| |contradiction].
    - destruct Hs as (Hok & x & l & r & Hk & Hx & -> & Hl & Hr). rewrite s_get_some by auto. rewrite Hk.
      eexists. split; [reflexivity|]. apply hok_placed; auto.
    - destruct Hs as (_ & _ & _ & l & r & _ & _ & -> & Hl & Hr). now rewrite s_get_none.
  Qed.

  (** ** Writing through an address *)
  Section Write.
    Variable cmp : K -> K -> comparison.
    Hypothesis laws : ord_laws cmp.

    Lemma update_at_ok m a x g : sound m -> placed m a x ->
      exists m' l r, update_at a g m = Some m' /\ sound m' /\ entries m = l ++ x :: r /\ entries m' = l ++ g x :: r /\
        placed m' a (g x) /\ bshared m' = bshared m /\ bheight m' = bheight m.
    Proof.
      intros ([Hb1 Hb2] & Hsh & Hlen) [Ha Hp]. destruct a as [p i]. cbn [fst] in Hp. unfold update_at. cbn [fst snd].
      destruct (@update_node_ok K V fair (bheight m) (bnode m) p i g x Hb2 Ha Hp) as (n' & l & r & -> & E1 & E2 & Hn & Hk & Ha').
      eexists _, l, r. split; [reflexivity|]. unfold entries in *. cbn [bnode bheight bshared blen].
      assert (Hs : bshared m = true -> False).
      { intros Hs. destruct (Hsh Hs) as [E _]. rewrite E in E1. cbn in E1. destruct l; discriminate. }
      split; [|split; [auto|split; [auto|split; [split; auto|auto]]]].
      split; [split; cbn [bnode bheight]; [now rewrite Hn|auto]|]. cbn [bnode bheight bshared blen].
      split; [intros; exfalso; auto|]. unfold entries. cbn [bnode]. rewrite Hlen, E1, E2, !app_length. reflexivity.
    Qed.

    Lemma sorted_mid_q l (x : kv) r : sorted cmp (l ++ x :: r) -> allq (cmp (fst x)) Gt l /\ allq (cmp (fst x)) Lt r.
    Proof.
      intros H. apply StronglySorted_mid in H. destruct H as [H1 H2]. split.
      - eapply Forall_impl; [|exact H1]. simpl. intros e He. rewrite (cmp_antisym laws), He. reflexivity.
      - eapply Forall_impl; [|exact H2]. simpl. auto.
    Qed.

    Lemma write_ok m a x f : sound m -> sorted cmp (entries m) -> placed m a x ->
      exists m', update_at a (write_val f) m = Some m' /\ sound m' /\
        entries m' = s_update (cmp (fst x)) f (entries m) /\ placed m' a (fst x, f (snd x)) /\ bheight m' = bheight m.
    Proof.
      intros Hm Hs Ha. destruct (update_at_ok (write_val f) Hm Ha) as (m' & l & r & E & Hm' & E1 & E2 & Ha' & _ & Hh).
      exists m'. split; auto. split; auto. split; [|auto]. rewrite E1 in Hs. destruct (sorted_mid_q _ _ _ Hs) as [Hl Hr].
      rewrite E1, E2, s_update_some; auto. apply (cmp_refl laws).
    Qed.
  End Write.

  Section Alloc.
    Variable W : Type.
    Variable nalloc : bool -> W -> option reserve_error * W.
    Variable cmp : K -> K -> comparison.
    Hypothesis laws : ord_laws cmp.

    Lemma ensure_root_ok m w : sound m ->
      let '(o, m1, w1) := ensure_root_is_owned nalloc m w in
      match o with
      | Ret _ => sound m1 /\ entries m1 = entries m /\ bshared m1 = false /\ (bshared m = false -> m1 = m /\ w1 = w)
      | Err e => refused nalloc e /\ m1 = m /\ bshared m = true
      | _ => False
      end.
    Proof.
      intros Hm. unfold ensure_root_is_owned, new_leaf. destruct (bshared m) eqn:Es; [|repeat (split; auto); apply Hm].
      destruct Hm as (Hb & Hsh & Hl). destruct (Hsh Es) as [En Eh].
      destruct (nalloc false w) as [[e|] w1] eqn:E.
      - split; [exists false, w, w1; auto|auto].
      - assert (He : entries m = []) by (unfold entries; now rewrite En). rewrite He in *.
        split; [|split; [reflexivity|split; [reflexivity|discriminate]]].
        split; [|split; [discriminate|exact Hl]]. split; [split; [apply Nat.le_0_l|cbn [bheight]; lia]|reflexivity].
    Qed.

    Lemma shared_empty m : sound m -> bshared m = true -> entries m = [].
    Proof. intros (_ & H & _) Hs. destruct (H Hs) as [E _]. unfold entries. now rewrite E. Qed.

    Lemma try_entry_ok k m w : sound m -> sorted cmp (entries m) ->
      let '(o, m1, w1) := try_entry nalloc cmp k m w in
      match o with
      | Ret (Occupied hd) => m1 = m /\ w1 = w /\ exists x l r, s_get (cmp k) (entries m) = Some x /\ into_kv hd = Some x /\
          entries m = l ++ x :: r /\ allq (cmp k) Gt l /\ allq (cmp k) Lt r /\ cmp k (fst x) = Eq /\
          hok fair root_fair (bheight m) (bnode m) hd
      | Ret (Vacant k' hd) => k' = k /\ sound m1 /\ entries m1 = entries m /\ s_get (cmp k) (entries m) = None /\
          (bshared m = false -> m1 = m /\ w1 = w) /\
          hok fair root_fair (bheight m1) (bnode m1) hd /\ hh hd = 0 /\ hi hd <= nlen (hn hd) /\
          exists l r, l = cbefore (hc hd) ++ firstn (hi hd) (kvs (hn hd)) /\ r = skipn (hi hd) (kvs (hn hd)) ++ cafter (hc hd) /\
            entries m = l ++ r /\ allq (cmp k) Gt l /\ allq (cmp k) Lt r
      | Err e => refused nalloc e /\ m1 = m /\ entries m = []
      | _ => False
      end.
    Proof.
      intros Hm Hs. unfold try_entry. pose proof (ensure_root_ok w Hm) as He.
      destruct (ensure_root_is_owned nalloc m w) as [[o m1] w1]. destruct o as [u|e| | |]; try contradiction.
      - destruct He as (Hm1 & E1 & Hs1 & Hsame). rewrite <- E1 in Hs. pose proof (cutq_key k laws Hs) as Hq.
        pose proof (search_ok Hm1 Hq) as HS. destruct (search (cmp k) m1) as [[hd|hd]|]; [| |contradiction].
        + destruct HS as (Hok & x & l & r & Hk & Hx & E & Hl & Hr).
          assert (Hns : bshared m = false).
          { destruct (bshared m) eqn:Eb; auto. exfalso. rewrite <- E1 in E || idtac. pose proof (shared_empty Hm Eb) as H0.
            rewrite E1, H0 in E. destruct l; discriminate. }
          destruct (Hsame Hns) as [-> ->]. split; auto. split; auto. exists x, l, r.
          rewrite E, s_get_some by auto. repeat (split; auto); apply Hok.
        + destruct HS as (Hok & H0 & Hi & l & r & El & Er & E & Hl & Hr). rewrite <- E1.
          split; auto. split; auto. split; auto. split; [rewrite E; now apply s_get_none|]. split; auto. split; auto. split; auto.
          split; auto. exists l, r. auto.
      - destruct He as (H1 & -> & H2). split; auto. split; auto. apply shared_empty; auto.
    Qed.

    Lemma occupied_insert_ok m hd x l r k v : sound m -> hok fair root_fair (bheight m) (bnode m) hd -> into_kv hd = Some x ->
      entries m = l ++ x :: r -> allq (cmp k) Gt l -> allq (cmp k) Lt r -> cmp k (fst x) = Eq -> sorted cmp (entries m) ->
      let '(o, m') := occupied_insert m hd v in
      o = Ret (snd x) /\ sound m' /\ entries m' = s_insert cmp k v (entries m).
    Proof.
      intros Hm Hok Hx E Hl Hr Hk Hs. unfold occupied_insert. rewrite Hx.
      destruct (update_at_ok (write_val (fun _ => v)) Hm (@hok_placed m hd x Hok Hx)) as (m' & l' & r' & -> & Hm' & E1 & E2 & _).
      split; auto. split; auto. rewrite E1 in Hs |- *. destruct (sorted_mid_q laws _ _ _ Hs) as [Hl' Hr'].
      rewrite E2. symmetry. apply s_insert_some; auto.
      eapply Forall_impl; [|exact Hl']. simpl. intros e He. now rewrite (cmp_eq_l laws _ _ _ Hk).
    Qed.

    (** what a refused insertion leaves behind *)
    Definition torn m m' (k : K) (v : V) : Prop :=
      (m' = m /\ entries m = []) \/
      (blen m' = blen m + 1 /\ CAPACITY <= length (entries m) /\ bshared m' = false /\ balanced (bheight m') (bnode m') /\
       exists l lost r, s_insert cmp k v (entries m) = l ++ lost ++ r /\ entries m' = l ++ r /\ lost <> []).

    (** an insertion is refused memory only if the leaf is full *)
    Lemma vacant_insert_room m k hd v w e m' w' : vacant_insert nalloc m k hd v w = (Err e, m', w') -> CAPACITY <= nlen (hn hd).
    Proof.
      unfold vacant_insert, leaf_insert. destruct (Nat.ltb_spec (nlen (hn hd)) CAPACITY) as [Hlt|Hge]; [discriminate|auto].
    Qed.

    Lemma vacant_ok m0 m1 k hd v w : sound m0 -> sound m1 -> entries m1 = entries m0 -> blen m1 = blen m0 -> bshared m1 = false ->
      hok fair root_fair (bheight m1) (bnode m1) hd -> hh hd = 0 -> hi hd <= nlen (hn hd) ->
      (exists l r, l = cbefore (hc hd) ++ firstn (hi hd) (kvs (hn hd)) /\ r = skipn (hi hd) (kvs (hn hd)) ++ cafter (hc hd) /\
            entries m1 = l ++ r /\ allq (cmp k) Gt l /\ allq (cmp k) Lt r) ->
      let '(o, m', w') := vacant_insert nalloc m1 k hd v w in
      match o with
      | Ret a => sound m' /\ entries m' = s_insert cmp k v (entries m0) /\ placed m' a (k, v)
      | Err e => refused nalloc e /\ torn m0 m' k v
      | _ => False
      end.
    Proof.
      intros Hm0 Hm1 E1 Hlen Hns Hok H0 Hi (l & r & El & Er & E & Hl & Hr).
      pose proof (@vacant_insert_ok K V W nalloc m1 k hd v w (proj1 Hm1) Hok H0 Hi) as HV. cbv zeta in HV. rewrite <- El, <- Er in HV.
      pose proof (@vacant_insert_room m1 k hd v w) as HR.
      destruct (vacant_insert nalloc m1 k hd v w) as [[o m'] w']. destruct HV as (G1 & G2 & G3 & G4).
      assert (Ei : s_insert cmp k v (entries m0) = l ++ (k, v) :: r) by (rewrite <- E1, E; apply s_insert_none; auto).
      destruct o as [a|e| | |]; try contradiction.
      - destruct G4 as (G4 & G5 & G6). rewrite Ei. split; [|split; [auto|split; auto]].
        split; [exact G3|]. split; [rewrite G1, Hns; discriminate|].
        rewrite G4, G2. destruct Hm1 as (_ & _ & Hl1). rewrite Hl1, E, !app_length. simpl. lia.
      - destruct G4 as (G4 & L1 & lost & R1 & G5 & G6 & G7). split; auto. right. split; [lia|].
        split; [specialize (HR _ _ _ eq_refl); rewrite <- E1, E, El, Er; rewrite !app_length, firstn_length, skipn_length; unfold nlen in *; lia|].
        split; [congruence|]. split; auto.
        exists L1, lost, R1. rewrite Ei. auto.
    Qed.

    Lemma ensure_blen m w : let '(o, m1, w1) := ensure_root_is_owned nalloc m w in blen m1 = blen m.
    Proof. unfold ensure_root_is_owned, new_leaf. destruct (bshared m); auto. destruct (nalloc false w) as [[e|] w1]; auto. Qed.
    Lemma try_entry_blen k m w : let '(o, m1, w1) := try_entry nalloc cmp k m w in
      blen m1 = blen m /\ (match o with Ret _ => sound m -> bshared m1 = false | _ => True end).
    Proof.
      unfold try_entry. pose proof (ensure_blen m w) as H. pose proof (@ensure_root_ok m w) as H2.
      destruct (ensure_root_is_owned nalloc m w) as [[o m1] w1]. destruct o; auto.
      destruct (search (cmp k) m1) as [[hd|hd]|]; split; auto; intros Hs; apply H2 in Hs; tauto.
    Qed.

    Lemma try_insert_ok k v m w : sound m -> sorted cmp (entries m) ->
      let '(o, m', w') := try_insert nalloc cmp k v m w in
      match o with
      | Ret old => old = option_map snd (s_get (cmp k) (entries m)) /\ sound m' /\
          entries m' = s_insert cmp k v (entries m) /\ (old <> None -> w' = w)
      | Err e => refused nalloc e /\ s_get (cmp k) (entries m) = None /\ torn m m' k v
      | _ => False
      end.
    Proof.
      intros Hm Hs. unfold try_insert. pose proof (try_entry_ok k w Hm Hs) as He. pose proof (try_entry_blen k m w) as Hb.
      destruct (try_entry nalloc cmp k m w) as [[o m1] w1]. destruct o as [[hd|k' hd]|e| | |]; try contradiction.
      - destruct He as (-> & -> & x & l & r & Hg & Hx & E & Hl & Hr & Hk & Hok).
        pose proof (occupied_insert_ok v Hm Hok Hx E Hl Hr Hk Hs) as HO. destruct (occupied_insert m hd v) as [o2 m2].
        destruct HO as (-> & H2 & H3). cbn [omap]. rewrite Hg. split; auto.
      - destruct He as (-> & Hm1 & E1 & Hg & Hsame & Hok & H0 & Hi & l & r & El & Er & E & Hl & Hr). destruct Hb as [Hb1 Hb2].
        assert (Hex : exists l r, l = cbefore (hc hd) ++ firstn (hi hd) (kvs (hn hd)) /\ r = skipn (hi hd) (kvs (hn hd)) ++ cafter (hc hd) /\
            entries m1 = l ++ r /\ allq (cmp k) Gt l /\ allq (cmp k) Lt r) by (exists l, r; rewrite E1; auto).
        pose proof (@vacant_ok m m1 k hd v w1 Hm Hm1 E1 Hb1 (Hb2 Hm) Hok H0 Hi Hex) as HV.
        destruct (vacant_insert nalloc m1 k hd v w1) as [[o2 m2] w2]. destruct o2; cbn [omap]; try contradiction.
        + destruct HV as (G1 & G2 & _). rewrite Hg. cbn [option_map]. split; auto. split; auto. split; auto. congruence.
        + destruct HV as (G1 & G2). auto.
      - destruct He as (H1 & -> & H2). split; auto. split; [now rewrite H2|]. left. auto.
    Qed.

    Lemma replace_key_ok k v m w : sound m -> sorted cmp (entries m) ->
      let '(o, m', w') := replace_key nalloc cmp k v m w in
      match o with
      | Ret old => old = option_map fst (s_get (cmp k) (entries m)) /\ sound m' /\
          entries m' = (match s_get (cmp k) (entries m) with
                        | Some _ => s_rekey (cmp k) k (entries m) | None => s_insert cmp k v (entries m) end) /\
          (old <> None -> w' = w)
      | Err e => refused nalloc e /\ s_get (cmp k) (entries m) = None /\ torn m m' k v
      | _ => False
      end.
    Proof.
      intros Hm Hs. unfold replace_key. pose proof (try_entry_ok k w Hm Hs) as He. pose proof (try_entry_blen k m w) as Hb.
      destruct (try_entry nalloc cmp k m w) as [[o m1] w1]. destruct o as [[hd|k' hd]|e| | |]; try contradiction.
      - destruct He as (-> & -> & x & l & r & Hg & Hx & E & Hl & Hr & Hk & Hok). rewrite Hx, Hg.
        destruct (update_at_ok (fun e => (k, snd e)) Hm (@hok_placed m hd x Hok Hx)) as (m' & l' & r' & -> & Hm' & E1 & E2 & _).
        split; auto. split; auto. split; auto. rewrite E1 in Hs |- *. destruct (sorted_mid_q laws _ _ _ Hs) as [Hl' Hr'].
        rewrite E2. symmetry. apply s_rekey_some; auto; (eapply Forall_impl; [|eassumption]); simpl; intros e He; now rewrite (cmp_eq_l laws _ _ _ Hk).
      - destruct He as (-> & Hm1 & E1 & Hg & Hsame & Hok & H0 & Hi & l & r & El & Er & E & Hl & Hr). destruct Hb as [Hb1 Hb2].
        assert (Hex : exists l r, l = cbefore (hc hd) ++ firstn (hi hd) (kvs (hn hd)) /\ r = skipn (hi hd) (kvs (hn hd)) ++ cafter (hc hd) /\
            entries m1 = l ++ r /\ allq (cmp k) Gt l /\ allq (cmp k) Lt r) by (exists l, r; rewrite E1; auto).
        pose proof (@vacant_ok m m1 k hd v w1 Hm Hm1 E1 Hb1 (Hb2 Hm) Hok H0 Hi Hex) as HV.
        destruct (vacant_insert nalloc m1 k hd v w1) as [[o2 m2] w2]. destruct o2; cbn [omap]; try contradiction.
        + destruct HV as (G1 & G2 & _). rewrite Hg. cbn [option_map]. split; auto. split; auto. split; auto. congruence.
        + destruct HV as (G1 & G2). auto.
      - destruct He as (H1 & -> & H2). split; auto. split; [now rewrite H2|]. left. auto.
    Qed.
  End Alloc.
End Ops.
