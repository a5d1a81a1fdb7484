(** * Properties_BTree2: C24, C30, C33, C35-C38 (BTreeMap)

    Vocabulary as in Properties_BTree. *)
From Coq Require Import List Arith Lia Bool Sorted Permutation.
From Verif Require Import Base MapSpec MergeSpec SpecFacts IterSpec SetSpec BTreeModel BTreeInv BTreeLemmas BTreeSearch BTreeInsert BTreeRemove
  BTreeIterModel BTreeIter BTreeStep BTreeIterProofs BTreeRange BTreeBulkModel BTreeBorder BTreeSplit BTreeAppend BTreeClone BTreeOps BTreeSetModel BTreeViewModel
  BTreeViews BTreeSets BTreeCollect BTreeCost BTreeTorn BTreeEntry BTreeWrites Examples.
Import ListNotations.
Set Implicit Arguments.

Section MapProps.
  Variables (K V : Type) (cmp : K -> K -> comparison).
  Hypothesis laws : ord_laws cmp.
  Notation kv := (K * V)%type.
  Implicit Types (m o : bmap K V) (k : K) (v : V).

  (** ** C24: what a refused insertion does.  The full property, "the map is
      unchanged", is refuted below ([C24_len_refuted], [C24_entries_refuted]).
      What holds: the key was absent and memory was refused; either nothing
      changed, or [len] is one too large, a nonempty block (around the new
      entry) of what insertion would have given is missing, the map had at least 11 entries, and the damage is
      real: dropping the map, and iterating to its end, are undefined. *)
  Definition spoilt m m' k v : Prop :=
    len m' = len m + 1 /\ 11 <= len m /\ balanced (bheight m') (bnode m') /\
    (exists l lost r, s_insert cmp k v (entries m) = l ++ lost ++ r /\ entries m' = l ++ r /\ lost <> []) /\
    length (entries m') < len m' /\ drop_map m' = UB /\
    (exists it, map_iter m' = Ret it /\ calls (@iter_next K V) (@iter_next_back K V) (repeat Front (len m')) it = UB).

  Lemma torn_spoilt : forall m m' k v, valid cmp m -> s_get (cmp k) (entries m) = None -> torn cmp m m' k v -> (m' = m /\ entries m = []) \/ spoilt m m' k v.
  Proof.
    intros m m' k v [Hm Hs] Hg [[-> He]|Ht]; [auto|right].
    assert (Hne : m' <> m) by (intros ->; destruct Ht as [Ht _]; unfold len in *; lia).
    destruct (torn_overlong laws Hm Hs Hg (or_intror Ht) Hne) as (H1 & H2 & H3). destruct Ht as (Hl & H11 & _ & Hb & Hex).
    split; auto. split; [unfold len; now rewrite (proj2 (proj2 Hm))|]. split; auto. split; auto. split; auto. split; [apply drop_overlong; auto; congruence|]. now apply iter_overlong.
  Qed.

  Section Alloc.
    Variables (W : Type) (nalloc : bool -> W -> option reserve_error * W).

    Theorem C24_try_insert_partial : forall k v m w e m' w', valid cmp m -> try_insert nalloc cmp k v m w = (Err e, m', w') ->
      refused nalloc e /\ s_get (cmp k) (entries m) = None /\ ((m' = m /\ entries m = []) \/ spoilt m m' k v).
    Proof.
      intros k v m w e m' w' Hv E. pose proof (@try_insert_ok K V W nalloc cmp laws k v m w (proj1 Hv) (proj2 Hv)) as H. rewrite E in H.
      destruct H as (H1 & H2 & H3). split; auto. split; auto. now apply torn_spoilt.
    Qed.
    Theorem C24_replace_partial : forall k v m w e m' w', valid cmp m -> replace_key nalloc cmp k v m w = (Err e, m', w') ->
      refused nalloc e /\ s_get (cmp k) (entries m) = None /\ ((m' = m /\ entries m = []) \/ spoilt m m' k v).
    Proof.
      intros k v m w e m' w' Hv E. pose proof (@replace_key_ok K V W nalloc cmp laws k v m w (proj1 Hv) (proj2 Hv)) as H. rewrite E in H.
      destruct H as (H1 & H2 & H3). split; auto. split; auto. now apply torn_spoilt.
    Qed.
    (** the cases in which nothing can go wrong: an existing key, or a refusal
        before the tree is touched (the first node of an empty map) *)
    Theorem C24_unchanged : forall k v m w e m' w', valid cmp m -> bshared m = true \/ s_get (cmp k) (entries m) <> None ->
      try_insert nalloc cmp k v m w = (Err e, m', w') -> m' = m.
    Proof.
      intros k v m w e m' w' Hv [Hsh|Hg] E.
      2:{ destruct (C24_try_insert_partial k v w Hv E) as (_ & H & _). contradiction. }
      unfold try_insert, try_entry, ensure_root_is_owned in E. rewrite Hsh in E. unfold new_leaf in E.
      destruct (nalloc false w) as [[er|] w1]; [inversion E; auto|]. exfalso.
      unfold search in E. cbn [bheight bnode search_tree] in E. unfold empty_leaf in E at 1. cbn [kvs search_linear] in E.
      unfold vacant_insert, leaf_insert in E. cbn [hi hn hc] in E.
      assert (Hc : nlen (@empty_leaf K V) <? CAPACITY = true) by reflexivity. rewrite Hc in E. discriminate.
    Qed.

    (** exactly then: a refused insertion into a map that owns a tree always does the damage *)
    Theorem C24_exact_partial : forall k v m w e m' w', valid cmp m -> try_insert nalloc cmp k v m w = (Err e, m', w') ->
      (bshared m = true /\ m' = m) \/ (bshared m = false /\ spoilt m m' k v).
    Proof.
      intros k v m w e m' w' Hv E. destruct (bshared m) eqn:Sh; [left; split; [reflexivity|]; eapply C24_unchanged; eauto|right; split; [reflexivity|]].
      destruct (C24_try_insert_partial k v w Hv E) as (_ & Hg & [[-> _]|Hs]); [exfalso|exact Hs].
      unfold try_insert, try_entry, ensure_root_is_owned in E. rewrite Sh in E.
      destruct (search (cmp k) m) as [[hd|hd]|] eqn:Es; [|clear Es|discriminate E].
      - destruct (occupied_insert m hd v) as [[a|e'| | |] m2] eqn:Eo; try discriminate E. unfold occupied_insert in Eo.
        destruct (into_kv hd) as [p|]; [|discriminate Eo]. destruct (update_at _ _ m); discriminate Eo.
      - assert (len m = len m + 1) as X; [|lia]. unfold vacant_insert in E.
        destruct (leaf_insert nalloc (hi hd) (k, v) (hn hd) w) as [[[[n|l y r] [rt i]]|e'| | |] w1]; cbn [omap] in E; try discriminate E.
        + destruct (insert_up nalloc (bheight m) l y r rt ([], i) (hc hd) w1) as [[o [n h]] w2]. injection E as _ E _. unfold len. rewrite <- E at 1. reflexivity.
        + injection E as _ E _. unfold len. rewrite <- E at 1. reflexivity.
    Qed.

    (** ** C33: entries.  [obtained k m en]: [en] is the entry of [k] in [m]
        obtained through the API: try_entry, then any number of and_modify. *)
    Inductive obtained (k : K) : bmap K V -> entry K V -> Prop :=
    | Obtained m w m1 en w1 : valid cmp m -> try_entry nalloc cmp k m w = (Ret en, m1, w1) -> obtained k m1 en
    | Modified m en f en' m' : obtained k m en -> and_modify m en f = (Ret en', m') -> obtained k m' en'.

    Lemma obtained_stands : forall k m en, obtained k m en -> valid cmp m /\ stands cmp m k en.
    Proof.
      induction 1 as [m w m1 en w1 Hv E|m en f en' m' _ [Hv Hst] E].
      - pose proof (@try_entry_stands K V cmp laws W nalloc k m w Hv) as H. rewrite E in H. tauto.
      - destruct (@and_modify_stands K V cmp laws m k en f Hv Hst) as (en2 & m2 & E2 & H1 & H2 & _). rewrite E in E2. inversion E2; subst. auto.
    Qed.

    Theorem C33_try_entry : forall k m w, valid cmp m ->
      let '(r, m1, w1) := try_entry nalloc cmp k m w in
      match r with
      | Ret (Occupied _) => s_get (cmp k) (entries m) <> None /\ m1 = m /\ w1 = w
      | Ret (Vacant k' _) => s_get (cmp k) (entries m) = None /\ k' = k /\ valid cmp m1 /\ entries m1 = entries m /\ len m1 = len m
      | Err e => refused nalloc e /\ m1 = m /\ entries m = []
      | _ => False
      end.
    Proof.
      intros k m w Hv. pose proof (@try_entry_stands K V cmp laws W nalloc k m w Hv) as H.
      destruct (try_entry nalloc cmp k m w) as [[r m1] w1]. destruct r as [en|e| | |]; auto. destruct H as (H1 & H2 & E1 & E2 & H3).
      destruct en as [hd|k' hd].
      - destruct H3 as [-> ->]. destruct H2 as (_ & x & _ & _ & Hg). rewrite Hg. split; [discriminate|auto].
      - destruct H2 as (-> & _ & _ & _ & _ & Hg & _). rewrite E1 in Hg. auto.
    Qed.
    Theorem C33_key : forall k m en, obtained k m en ->
      entry_key en = Some (match s_get (cmp k) (entries m) with Some x => fst x | None => k end).
    Proof. intros k m en H. apply obtained_stands in H. now apply entry_key_stands. Qed.
    Theorem C33_and_modify : forall k m en f, obtained k m en ->
      exists en' m', and_modify m en f = (Ret en', m') /\ obtained k m' en' /\ valid cmp m' /\
        entries m' = s_update (cmp k) f (entries m) /\ len m' = len m.
    Proof.
      intros k m en f Ho. destruct (obtained_stands Ho) as [Hv Hst]. destruct (@and_modify_stands K V cmp laws m k en f Hv Hst) as (en' & m' & E & H1 & _ & H2 & H3 & _).
      exists en', m'. split; auto. split; [eapply Modified; eauto|]. auto.
    Qed.
    (** or_try_insert, or_try_insert_with, or_default.  The closure is run only if the
        key is absent; the result is a reference to the value of [k]:
        [refers m a x] says that writing through [a] changes exactly the entry [x]. *)
    Theorem C33_or_insert : forall k m en default w, obtained k m en ->
      let '(r, m', w') := or_try_insert_with nalloc m en default w in
      match s_get (cmp k) (entries m) with
      | Some x => exists a, r = Ret a /\ m' = m /\ w' = w /\ refers cmp m a x
      | None =>
          match default w with
          | (Ret v, _) =>
              match r with
              | Ret a => valid cmp m' /\ entries m' = s_insert cmp k v (entries m) /\ refers cmp m' a (k, v)
              | Err e => refused nalloc e /\ ((m' = m /\ entries m = []) \/ spoilt m m' k v)
              | _ => False
              end
          | (od, wd) => m' = m /\ w' = wd /\ r = omap (fun _ => ([], 0)) od
          end
      end.
    Proof.
      intros k m en default w Ho. destruct (obtained_stands Ho) as [Hv Hst]. pose proof (@or_insert_stands K V cmp laws W nalloc m k en default w Hv Hst) as H.
      destruct (or_try_insert_with nalloc m en default w) as [[r m'] w']. destruct (s_get (cmp k) (entries m)) eqn:Eg; auto.
      destruct (default w) as [[v|e| | |] wd]; auto. destruct r; auto. destruct H as [H1 H2]. split; auto. now apply torn_spoilt.
    Qed.
    (** VacantEntry::try_insert (C24 for entries) *)
    Theorem C33_vacant_insert : forall k m k' hd v w, obtained k m (Vacant k' hd) ->
      let '(r, m', w') := vacant_insert nalloc m k' hd v w in
      match r with
      | Ret a => valid cmp m' /\ entries m' = s_insert cmp k v (entries m) /\ refers cmp m' a (k, v)
      | Err e => refused nalloc e /\ ((m' = m /\ entries m = []) \/ spoilt m m' k v)
      | _ => False
      end.
    Proof.
      intros k m k' hd v w Ho. destruct (obtained_stands Ho) as [Hv Hst]. pose proof Hst as (-> & _ & _ & _ & _ & Hg & _).
      pose proof (@vacant_stands K V cmp laws W nalloc m k hd v w Hv Hst) as H. destruct (vacant_insert nalloc m k hd v w) as [[r m'] w'].
      destruct r; auto.
      - destruct H as (H1 & H2 & H3). split; auto. split; auto. now apply placed_refers.
      - destruct H as [H1 H2]. split; auto. now apply torn_spoilt.
    Qed.
    Theorem C33_occupied : forall k m hd, obtained k m (Occupied hd) ->
      exists x, s_get (cmp k) (entries m) = Some x /\ occupied_get hd = Ret (snd x) /\
        (exists a, occupied_get_mut hd = Ret a /\ refers cmp m a x) /\
        (forall v, exists m', occupied_insert m hd v = (Ret (snd x), m') /\ valid cmp m' /\ entries m' = s_update (cmp k) (fun _ => v) (entries m)) /\
        (exists m', remove_entry_at m hd = (Ret x, m') /\ occupied_remove m hd = (Ret (snd x), m') /\ valid cmp m' /\
           entries m' = s_remove (cmp k) (entries m) /\ len m' = len m - 1).
    Proof.
      intros k m hd Ho. destruct (obtained_stands Ho) as [Hv Hst]. pose proof Hst as (Hok & x & Hx & Hk & Hg). exists x. split; auto.
      unfold occupied_get, occupied_get_mut. rewrite Hx. split; auto.
      pose proof (@hok_placed K V m hd x Hok Hx) as Hp. pose proof (placed_refers laws Hv Hp) as Hr.
      split; [exists (haddr hd); auto|]. split.
      - intros v. unfold occupied_insert. rewrite Hx. destruct Hr as (_ & _ & Hr). destruct (Hr (fun _ => v)) as (m' & -> & H1 & H2 & _).
        exists m'. split; auto. split; auto. rewrite H2. unfold s_update. apply map_ext. intros e. unfold hit.
        now rewrite (cmp_eq_l laws _ _ _ Hk).
      - destruct (remove_at_stands laws Hv Hst) as (y & m' & Eg & E & H1 & H2 & H3). rewrite Hg in Eg. inversion Eg; subst y.
        exists m'. unfold occupied_remove. rewrite E. auto.
    Qed.
  End Alloc.

  (** ** C38: mutable access *)
  Section Borrowed.
    Variables (Q : Type) (qcmp : Q -> Q -> comparison) (borrow : K -> Q).
    Hypothesis blaws : borrow_laws cmp qcmp borrow.
    Theorem C38_get_mut : forall x m, valid cmp m ->
      match s_get (fun k => qcmp x (borrow k)) (entries m) with
      | Some e => exists a, get_mut (fun k => qcmp x (borrow k)) m = Ret (Some a) /\ refers cmp m a e
      | None => get_mut (fun k => qcmp x (borrow k)) m = Ret None
      end.
    Proof.
      intros x m Hv. pose proof (get_mut_ok (proj1 Hv) (cutq_sorted x blaws (proj2 Hv))) as H. destruct (s_get _ _); auto.
      destruct H as (a & H1 & H2). exists a. split; auto. now apply placed_refers.
    Qed.
    (** references delivered by range_mut *)
    Theorem C38_range_mut : forall lo hi m ops, valid cmp m -> ~ s_bad qcmp lo hi ->
      exists r outs r', map_range qcmp borrow lo hi m = Ret r /\ calls (@range_next K V) (@range_next_back K V) ops r = Ret (outs, r') /\
        NoDup (map snd (somes outs)) /\
        forall ws : list (item K V * (V -> V)), Forall (fun w => In (fst w) (somes outs)) ws ->
          exists m', write_all (map (fun w => (snd (fst w), snd w)) ws) m = Some m' /\ valid cmp m' /\ len m' = len m /\
            entries m' = s_writes cmp (map (fun w => (fst (fst (fst w)), snd w)) ws) (entries m) /\ map fst (entries m') = map fst (entries m).
    Proof.
      intros lo hi m ops Hv Hbad. pose proof Hv as [(Hb & _) Hs]. destruct (map_range_ok blaws lo hi m (kids_shape _ _ _ (proj2 Hb)) Hs) as [_ H2].
      destruct (H2 Hbad) as (r & a & b & E & Hbt & Es). destruct (range_calls ops Hbt) as (outs & r' & a' & b' & E2 & _ & E3 & HF).
      exists r, outs, r'. split; auto. split; auto.
      assert (Hi : items_ok m (somes outs)).
      { eapply (items_dq laws); [|exact E3|reflexivity|exact HF]. unfold entries in Es. rewrite Es. now apply sorted_filter. }
      split; [apply Hi|]. intros ws Hws. pose proof (items_place Hi Hws) as HP. destruct (write_all_ok laws Hv HP) as (m' & E4 & R).
      rewrite !map_map in *. cbn [fst snd] in *. exists m'. split; auto.
    Qed.
  End Borrowed.

  (** references delivered by iter_mut (with their keys and old values) *)
  Theorem C38_iter_mut : forall m ops, valid cmp m ->
    exists it outs it', map_iter m = Ret it /\ calls (@iter_next K V) (@iter_next_back K V) ops it = Ret (outs, it') /\
      NoDup (map snd (somes outs)) /\
      forall ws : list (item K V * (V -> V)), Forall (fun w => In (fst w) (somes outs)) ws ->
        exists m', write_all (map (fun w => (snd (fst w), snd w)) ws) m = Some m' /\ valid cmp m' /\ len m' = len m /\
          entries m' = s_writes cmp (map (fun w => (fst (fst (fst w)), snd w)) ws) (entries m) /\ map fst (entries m') = map fst (entries m).
  Proof.
    intros m ops Hv. pose proof Hv as [(Hb & Hsh & Hl) Hs]. destruct (map_iter_ok m (kids_shape _ _ _ (proj2 Hb)) Hl) as (it & E & Hok).
    destruct (iter_calls ops Hok) as (outs & it' & a & b & E2 & _ & E3 & HF). exists it, outs, it'. split; auto. split; auto.
    assert (Hi : items_ok m (somes outs)).
    { eapply (items_dq laws); [|exact E3|reflexivity|exact HF]. unfold entries. rewrite seg_all. exact Hs. }
    split; [apply Hi|]. intros ws Hws. pose proof (items_place Hi Hws) as HP. destruct (write_all_ok laws Hv HP) as (m' & E4 & R).
    rewrite !map_map in *. cbn [fst snd] in *. exists m'. split; auto.
  Qed.
  (** values_mut delivers the references of iter_mut *)
  Theorem C38_values_mut : forall m it ops, map_iter m = Ret it ->
    calls (@values_mut_next K V) (@values_mut_next_back K V) ops it =
    omap (fun '(outs, it') => (map (option_map (fun x : item K V => (snd (fst x), snd x))) outs, it')) (calls (@iter_next K V) (@iter_next_back K V) ops it).
  Proof. intros m it ops _. exact (calls_project (fun x : item K V => (snd (fst x), snd x)) (@iter_next K V) (@iter_next_back K V) ops it). Qed.

  (** ** C30: release.  A node is named by its path from the root; [released m fr]:
      the deallocated nodes [fr] are all the nodes of [m], each once - none if the
      root is the static shared one. *)
  Definition released m (fr : list path) : Prop :=
    if bshared m then fr = [] else NoDup fr /\ forall p, In p fr <-> node_at (bnode m) p <> None.

  Lemma released_perm m fr : droppable m -> (if bshared m then fr = [] else Permutation fr (allpaths [] (bnode m))) -> released m fr.
  Proof.
    intros (Hs & _ & _). unfold released. destruct (bshared m); auto. intros HP. split.
    - eapply Permutation_NoDup; [apply Permutation_sym, HP|]. eapply allpaths_NoDup; exact Hs.
    - intros p. transitivity (In p (allpaths [] (bnode m))).
      + split; apply Permutation_in; [|apply Permutation_sym]; auto.
      + rewrite (@allpaths_In K V (bheight m) (bnode m) [] p Hs). split; [intros (p' & -> & H); auto|]. intros H. exists p. auto.
  Qed.
  Lemma valid_droppable m : valid cmp m -> droppable m.
  Proof. intros [(Hb & Hsh & Hl) _]. split; [exact (kids_shape _ _ _ (proj2 Hb))|auto]. Qed.

  (** drop: the entries are dropped in order, each once *)
  Theorem C30_drop : forall m, droppable m -> exists fr, drop_map m = Ret (entries m, fr) /\ released m fr.
  Proof.
    intros m Hd. pose proof Hd as (Hs & Hl & Hsh). unfold drop_map. destruct (map_into_iter_ok m Hs Hl) as (it & -> & Hok); [apply Hsh|].
    destruct (drop_into_iter_ok Hs Hok) as (fr & -> & Hfr). rewrite seg_all. exists fr. split; auto. now apply released_perm.
  Qed.
  (** a partially consumed IntoIter: handed out plus dropped = all, each once *)
  Theorem C30_into_iter : forall m ops, valid cmp m ->
    exists it outs it' dropped fr, map_into_iter m = Ret it /\ calls (@into_next K V) (@into_next_back K V) ops it = Ret (outs, it') /\
      drop_into_iter it' = Ret (dropped, fr) /\ dq_run ops (entries m) = (outs, dropped) /\ Permutation (entries m) (somes outs ++ dropped) /\ released m fr.
  Proof.
    intros m ops Hv. pose proof (valid_droppable Hv) as Hd. pose proof Hd as (Hs & Hl & Hsh).
    destruct (map_into_iter_ok m Hs Hl) as (it & E & Hok); [apply Hsh|].
    destruct (into_calls ops Hok) as (outs & it' & a & b & E2 & Hok' & E3). destruct (drop_into_iter_ok Hs Hok') as (fr & E4 & Hfr).
    exists it, outs, it', (seg (inorder (bnode m)) a b), fr. split; auto. split; auto. split; auto.
    rewrite seg_all in E3. split; [exact E3|]. split; [|now apply released_perm].
    pose proof (dq_run_perm ops (entries m)) as HP. unfold entries in *. rewrite E3 in HP. exact HP.
  Qed.
  Lemma merge2_perm : forall l r : list kv, Permutation (l ++ r) (merge2 cmp l r ++ overwritten cmp l r).
  Proof.
    induction l as [|x l IH]; intros r; [rewrite merge2_nil_l; destruct r; cbn; rewrite ?app_nil_r; apply Permutation_refl|].
    induction r as [|y r IHr]; [rewrite merge2_nil_r; cbn; rewrite ?app_nil_r; apply Permutation_refl|].
    rewrite merge2_cons. change (overwritten cmp (x :: l) (y :: r)) with (match cmp (fst x) (fst y) with
      | Lt => overwritten cmp l (y :: r) | Eq => x :: overwritten cmp l r | Gt => overwritten cmp (x :: l) r end).
    destruct (cmp (fst x) (fst y)).
    - cbn [app]. rewrite <- !Permutation_middle. apply Permutation_trans with (y :: x :: (l ++ r)); [apply perm_swap|]. do 2 constructor. apply IH.
    - cbn [app]. constructor. apply IH.
    - rewrite <- Permutation_middle. cbn [app]. constructor. apply IHr.
  Qed.
  (** what drop_map does after every success or failure of the other operations *)
  Definition drops_fully m : Prop := exists fr, drop_map m = Ret (entries m, fr) /\ released m fr.
  Section Alloc2.
    Variables (W : Type) (nalloc : bool -> W -> option reserve_error * W).
    Theorem C30_try_clone : forall kclone vclone m w, valid cmp m ->
      let '(_, discarded, _) := try_clone nalloc kclone vclone m w in Forall drops_fully discarded.
    Proof.
      intros kclone vclone m w [Hm _]. pose proof (@try_clone_ok K V W nalloc kclone vclone m w Hm) as H.
      destruct (try_clone nalloc kclone vclone m w) as [[r d] w']. destruct H as [H _]. eapply Forall_impl; [|exact H]. apply C30_drop.
    Qed.
    Theorem C30_split_off : forall Q (qcmp : Q -> Q -> comparison) (borrow : K -> Q) x m w, borrow_laws cmp qcmp borrow -> valid cmp m ->
      let '(_, _, discarded, _) := split_off nalloc (fun k => qcmp x (borrow k)) m w in Forall drops_fully discarded.
    Proof.
      intros Q qcmp borrow x m w blaws [Hm Hs]. pose proof (@split_off_ok K V W nalloc _ m w Hm (cutq_sorted x blaws Hs)) as H.
      destruct (split_off nalloc _ m w) as [[[r m'] ds] w']. destruct H as [H _]. eapply Forall_impl; [|exact H]. apply C30_drop.
    Qed.
    (** append: every node of both trees is released, every entry ends up in the
        result or is dropped (on success: exactly the entries overwritten; on a
        refusal also the ones that did not get in) *)
    Theorem C30_append : forall m o w, valid cmp m -> valid cmp o ->
      let '(r, m', o', mi, w') := append nalloc cmp m o w in
      match mi with
      | None => r = Ret tt /\ ((m' = m /\ o' = o) \/ (m' = o /\ o' = m))
      | Some mi =>
          drops_fully m' /\ o' = new /\
          exists lost rest1 rest2 fr1 fr2, drop_peekable (mleft mi) = Ret (rest1, fr1) /\ drop_peekable (mright mi) = Ret (rest2, fr2) /\
            released m fr1 /\ released o fr2 /\
            Permutation (entries m ++ entries o) (entries m' ++ lost ++ mdropped mi ++ rest1 ++ rest2) /\
            (r = Ret tt -> lost = [] /\ rest1 = [] /\ rest2 = [] /\
               mdropped mi = filter (fun x => has cmp (entries o) (fst x)) (entries m))
      end.
    Proof.
      intros m o w Hv Ho. pose proof (@append_ok K V W nalloc cmp m o w (proj1 Hv) (proj1 Ho)) as H.
      assert (Hns : forall x : bmap K V, valid cmp x -> (len x =? 0) = false -> bshared x = false).
      { intros x [(_ & Hsh & Hl) _] E. destruct (bshared x); auto. destruct Hsh as [En _]; auto. unfold len, entries in *. rewrite En in Hl. rewrite Hl in E. discriminate. }
      assert (Hbd : forall mi l r, (len o =? 0) = false -> (len m =? 0) = false -> both_drop m o mi l r ->
        exists fr1 fr2, drop_peekable (mleft mi) = Ret (l, fr1) /\ drop_peekable (mright mi) = Ret (r, fr2) /\ released m fr1 /\ released o fr2).
      { intros mi l r E1 E2 (f1 & f2 & D1 & D2 & P1 & P2). exists f1, f2. split; auto. split; auto.
        split; apply released_perm; try (now apply valid_droppable); now rewrite Hns. }
      assert (Hnone : forall r m' o' w', append nalloc cmp m o w = (r, m', o', None, w') -> r = Ret tt /\ ((m' = m /\ o' = o) \/ (m' = o /\ o' = m)) \/ r = UB).
      { unfold append. destruct (len o =? 0); [intros ? ? ? ? E; inversion E; auto 6|]. destruct (len m =? 0); [intros ? ? ? ? E; inversion E; auto 6|].
        intros r m' o' w'. destruct (map_into_iter m), (map_into_iter o); try (intros E; inversion E; auto; fail).
        destruct (new_leaf K V nalloc w) as [[? | ? | | |] ?]; try (intros E; inversion E; auto; fail).
        destruct (from_sorted_loop _ _ _ _ _ _ _ _) as [[[[[? | ? | | |] [? ?]] ?] ?] ?]; try (intros E; inversion E; auto; fail).
        destruct (fix_right_edge _ _); intros E; inversion E. }
      assert (Hsome : forall r m' o' mi w', append nalloc cmp m o w = (r, m', o', Some mi, w') -> (len o =? 0) = false /\ (len m =? 0) = false /\ (r = Ret tt -> o' = new)).
      { unfold append. destruct (len o =? 0); [intros ? ? ? ? ? E; inversion E|]. destruct (len m =? 0); [intros ? ? ? ? ? E; inversion E|].
        intros r m' o' mi w'. destruct (map_into_iter m), (map_into_iter o); try (intros E; inversion E; auto; fail).
        destruct (new_leaf K V nalloc w) as [[? | ? | | |] ?]; try (intros E; inversion E; auto; fail).
        destruct (from_sorted_loop _ _ _ _ _ _ _ _) as [[[[[? | ? | | |] [? ?]] ?] ?] ?]; try (intros E; inversion E; auto; fail).
        destruct (fix_right_edge _ _); intros E; inversion E; auto. }
      destruct (append nalloc cmp m o w) as [[[[r m'] o'] mi] w'] eqn:Ea. destruct mi as [mi|].
      - destruct (Hsome _ _ _ _ _ eq_refl) as (N1 & N2 & N3). destruct r as [u| | | |]; try contradiction.
        + destruct u. destruct H as (H1 & H2 & E & E2 & Hb & Hd & _). split; [apply C30_drop; destruct H1 as (B1 & B2 & B3); split; [exact (kids_shape _ _ _ (proj2 B1))|auto]|].
          split; auto. destruct (Hbd _ _ _ N1 N2 Hb) as (f1 & f2 & D1 & D2 & R1 & R2). exists [], [], [], f1, f2.
          split; auto. split; auto. split; auto. split; auto. rewrite !app_nil_r. cbn [app].
          pose proof (proj2 Hv) as HS1. pose proof (proj2 Ho) as HS2. rewrite (@overwritten_has K V cmp laws _ _ HS1 HS2) in Hd. split; [|intros _; auto].
          rewrite E, Hd, <- (@overwritten_has K V cmp laws _ _ HS1 HS2). apply merge2_perm.
        + destruct H as (_ & Hdr & -> & mi' & Emi & done & lost & l' & r' & E1 & E2 & Hb & HP). inversion Emi; subst mi'.
          split; [now apply C30_drop|]. split; auto. destruct (Hbd _ _ _ N1 N2 Hb) as (f1 & f2 & D1 & D2 & R1 & R2).
          exists lost, l', r', f1, f2. split; auto. split; auto. split; auto. split; auto. rewrite E1. split; [exact HP|discriminate].
      - destruct (Hnone _ _ _ _ eq_refl) as [Hr | ->]; auto. contradiction.
    Qed.
  End Alloc2.

  (** ** C35 *)
  Theorem C35_eq : forall (keq : K -> K -> bool) (veq : V -> V -> bool) m1 m2, valid cmp m1 -> valid cmp m2 ->
    exists b, map_eq (fun x y => keq (fst x) (fst y) && veq (snd x) (snd y)) m1 m2 = Ret b /\
      (b = true <-> Forall2 (fun x y => keq (fst x) (fst y) = true /\ veq (snd x) (snd y) = true) (entries m1) (entries m2)).
  Proof.
    intros keq veq m1 m2 H1 H2. destruct (map_eq_ok (fun x y => keq (fst x) (fst y) && veq (snd x) (snd y)) (proj1 H1) (proj1 H2)) as (b & E & Hb).
    exists b. split; auto. rewrite Hb. clear. split; induction 1; constructor; auto; now apply andb_true_iff.
  Qed.
  Theorem C35_partial_cmp : forall (c : kv -> kv -> option comparison) m1 m2, valid cmp m1 -> valid cmp m2 ->
    map_partial_cmp c m1 m2 = Ret (lex c (entries m1) (entries m2)).
  Proof. intros c m1 m2 H1 H2. apply map_partial_cmp_ok; [apply H1|apply H2]. Qed.
  (** [lex] is the lexicographic order *)
  Theorem C35_lexicographic : forall (c : kv -> kv -> option comparison) (l r : list kv),
    (lex c l r = Some Eq <-> Forall2 (fun x y => c x y = Some Eq) l r) /\
    (forall res, res <> Some Eq -> (lex c l r = res <->
      exists p p' s s', l = p ++ s /\ r = p' ++ s' /\ Forall2 (fun x y => c x y = Some Eq) p p' /\
        match s, s' with
        | x :: _, y :: _ => c x y = res
        | [], _ :: _ => res = Some Lt
        | _ :: _, [] => res = Some Gt
        | [], [] => False
        end)).
  Proof.
    intros c. assert (A : forall l r : list kv, lex c l r = Some Eq <-> Forall2 (fun x y => c x y = Some Eq) l r).
    { induction l as [|x l IH]; intros [|y r]; cbn [lex].
      - split; constructor.
      - split; [discriminate|intros H; inversion H].
      - split; [discriminate|intros H; inversion H].
      - destruct (c x y) as [[| |]|] eqn:E; try (split; [discriminate|intros H; inversion H; congruence]).
        rewrite IH. split; [intros; constructor; auto|intros H; inversion H; auto]. }
    intros l r. split; auto. intros res Hres. split.
    - revert r. induction l as [|x l IH]; intros [|y r]; cbn [lex]; intros H.
      + congruence.
      + exists [], [], [], (y :: r). split; [reflexivity|]. split; [reflexivity|]. split; [constructor|congruence].
      + exists [], [], (x :: l), []. split; [reflexivity|]. split; [reflexivity|]. split; [constructor|congruence].
      + destruct (c x y) as [[| |]|] eqn:E.
        2-4: exists [], [], (x :: l), (y :: r); (split; [reflexivity|]); (split; [reflexivity|]); (split; [constructor|congruence]).
        destruct (IH r H) as (p & p' & s & s' & -> & -> & HF & Hm). exists (x :: p), (y :: p'), s, s'. split; [reflexivity|]. split; [reflexivity|]. split; [constructor; auto|exact Hm].
    - intros (p & p' & s & s' & -> & -> & HF & Hm). induction HF as [|x y p p' Hxy HF IH]; cbn [app lex].
      + destruct s as [|x s], s' as [|y s']; cbn [lex]; try congruence; try contradiction; try (destruct (c x y) as [[| |]|]; congruence).
      + now rewrite Hxy.
  Qed.
  (** Equal iff == when the two traits agree on the entries *)
  Theorem C35_cmp_eq : forall (eqb : kv -> kv -> bool) (c : kv -> kv -> option comparison) m1 m2, valid cmp m1 -> valid cmp m2 ->
    (forall x y, c x y = Some Eq <-> eqb x y = true) ->
    (map_partial_cmp c m1 m2 = Ret (Some Eq) <-> map_eq eqb m1 m2 = Ret true).
  Proof.
    intros eqb c m1 m2 H1 H2 Hc. rewrite (C35_partial_cmp c H1 H2). destruct (map_eq_ok eqb (proj1 H1) (proj1 H2)) as (b & -> & Hb).
    transitivity (lex c (entries m1) (entries m2) = Some Eq); [split; congruence|]. rewrite (proj1 (C35_lexicographic c _ _)).
    transitivity (b = true); [|split; congruence]. rewrite Hb. clear -Hc. split; induction 1; constructor; auto; now apply Hc.
  Qed.
  (** the hasher sees the entries in order and nothing else; equal maps hash alike *)
  Theorem C35_hash : forall St (feed : kv -> St -> St) m s, valid cmp m ->
    map_hash feed m s = Ret (fold_left (fun s x => feed x s) (entries m) s).
  Proof. intros St feed m s [H _]. now apply map_hash_ok. Qed.
  Theorem C35_eq_hash : forall St (feed : kv -> St -> St) (eqb : kv -> kv -> bool) m1 m2 s, valid cmp m1 -> valid cmp m2 ->
    (forall x y, eqb x y = true -> feed x = feed y) -> map_eq eqb m1 m2 = Ret true -> map_hash feed m1 s = map_hash feed m2 s.
  Proof.
    intros St feed eqb m1 m2 s H1 H2 Hf E. rewrite !C35_hash by auto. destruct (map_eq_ok eqb (proj1 H1) (proj1 H2)) as (b & Eb & Hb).
    rewrite E in Eb. inversion Eb; subst b. destruct Hb as [Hb _]. specialize (Hb eq_refl). f_equal. revert s.
    induction Hb as [|x y l r Hxy HF IH]; intros s; cbn [fold_left]; auto. rewrite (Hf _ _ Hxy). apply IH.
  Qed.

  (** ** C36: [search_tree_t] is the search with a record of the keys compared in
      each node visited *)
  Theorem C36_cost : forall q m, valid cmp m ->
    let '(r, trace) := search_tree_t q (bheight m) (bnode m) [] in
    search q m = r /\ length trace <= bheight m + 1 /\ Forall (fun t => length t <= 11) trace /\
    (bheight m = 0 \/ 2 * 5 ^ bheight m <= len m + 1).
  Proof.
    intros q m [(Hb & _ & Hl) _]. pose proof (@search_tree_t_same K V q (bheight m) (bnode m) []) as E.
    destruct (@search_tree_t_cost K V fair q (bheight m) (fun (n : nat) (Hk : fair n) => proj2 Hk) (bnode m) [] (proj1 (proj1 Hb)) (proj2 Hb)) as [H1 H2].
    destruct (search_tree_t q (bheight m) (bnode m) []) as [r tr]. cbn [fst snd] in *. split; [exact (eq_sym E)|]. split; auto. split; auto.
    unfold len. rewrite Hl. now apply height_bound.
  Qed.

  (** ** C37 *)
  Section Alloc3.
    Variables (W : Type) (nalloc : bool -> W -> option reserve_error * W).
    Theorem C37_extend : forall l m w, valid cmp m ->
      let '(r, m', w') := extend nalloc cmp l m w in
      match r with
      | Ret _ => valid cmp m' /\ entries m' = fold_left (fun s x => s_insert cmp (fst x) (snd x) s) l (entries m)
      | Panic => exists e, refused nalloc e
      | _ => False
      end.
    Proof.
      intros l m w Hv. pose proof (@extend_ok K V W nalloc cmp laws l m w Hv) as H. destruct (extend nalloc cmp l m w) as [[r m'] w'].
      destruct r; auto. destruct H as (_ & _ & _ & _ & e & _ & _ & _ & H & _). eauto.
    Qed.
    Theorem C37_from_iter : forall (l : list kv) w,
      let '(r, m', w') := from_iter nalloc cmp l w in
      match r with
      | Ret _ => valid cmp m' /\ entries m' = fold_left (fun s x => s_insert cmp (fst x) (snd x) s) l ([] : list kv)
      | Panic => exists e, refused nalloc e
      | _ => False
      end.
    Proof. intros l w. unfold from_iter. apply C37_extend. apply (new_valid V cmp). Qed.
  End Alloc3.
  (** what repeated insertion means: the last value and the first key *)
  Theorem C37_lookup : forall l (s : list kv) k, sorted cmp s ->
    s_get (cmp k) (fold_left (fun s x => s_insert cmp (fst x) (snd x) s) l s) =
    match find (fun x => match cmp k (fst x) with Eq => true | _ => false end) (rev l) with
    | Some x => Some (match s_get (cmp k) s with
                      | Some y => fst y
                      | None => match find (fun x => match cmp k (fst x) with Eq => true | _ => false end) l with
                                | Some y => fst y | None => k end
                      end, snd x)
    | None => s_get (cmp k) s
    end.
  Proof.
    intros l s k Hs. set (P := fun x : kv => match cmp k (fst x) with Eq => true | _ => false end).
    assert (Hrev : forall l, find P (rev l) = None -> find P l = None).
    { intros l0 H. destruct (find P l0) as [y|] eqn:E; auto. apply find_some in E. destruct E as [E1 E2]. apply in_rev in E1.
      eapply find_none in H; [|exact E1]. congruence. }
    assert (Hso : forall l, sorted cmp (fold_left (fun s x => s_insert cmp (fst x) (snd x) s) l s)).
    { intros l0. revert s Hs. induction l0 as [|x l0 IH]; intros s Hs; cbn [fold_left]; auto. apply IH. now apply s_insert_sorted. }
    induction l as [|x l IH] using rev_ind; [reflexivity|].
    rewrite fold_left_app, rev_app_distr. cbn [fold_left rev app find]. set (S0 := fold_left _ l s) in *. unfold P at 1.
    destruct (cmp k (fst x)) eqn:Ek.
    - assert (Eq_ : forall L : list kv, s_get (cmp k) L = s_get (cmp (fst x)) L).
      { intros L. unfold s_get. induction L as [|e L IHL]; cbn [find]; auto. rewrite IHL. unfold hit at 1 3. now rewrite (cmp_eq_l laws _ _ _ Ek). }
      rewrite Eq_, s_get_insert_same by (auto; apply Hso). rewrite <- Eq_, IH. f_equal. f_equal.
      assert (Ef : find P (l ++ [x]) = match find P l with Some y => Some y | None => Some x end).
      { clear -Ek. induction l as [|e l IHl]; cbn [app find]; [unfold P; now rewrite Ek|]. destruct (P e); auto. }
      rewrite Ef. destruct (find P (rev l)) as [z|] eqn:Ez.
      + destruct (s_get (cmp k) s) as [[k0 v0]|]; [reflexivity|]. destruct (find P l) as [y|] eqn:Ey; [reflexivity|]. exfalso.
        apply find_some in Ez. destruct Ez as [E1 E2]. apply in_rev in E1. eapply find_none in Ey; [|exact E1]. congruence.
      + rewrite (Hrev _ Ez). destruct (s_get (cmp k) s) as [[k0 v0]|]; reflexivity.
    - rewrite s_get_insert_other by congruence. rewrite IH.
      assert (Ef : find P (l ++ [x]) = find P l).
      { clear -Ek. induction l as [|e l IHl]; cbn [app find]; [unfold P; now rewrite Ek|]. destruct (P e); auto. }
      now rewrite Ef.
    - rewrite s_get_insert_other by congruence. rewrite IH.
      assert (Ef : find P (l ++ [x]) = find P l).
      { clear -Ek. induction l as [|e l IHl]; cbn [app find]; [unfold P; now rewrite Ek|]. destruct (P e); auto. }
      now rewrite Ef.
  Qed.
End MapProps.

(** ** C24 refuted: a full leaf and no memory for its split *)
Definition leaf11 : bmap nat nat := nmap (seq 0 11).
Theorem C24_len_refuted : ~ forall (m : bmap nat nat) k v w e m' w', valid Nat.compare m ->
  try_insert budget Nat.compare k v m w = (Err e, m', w') -> len m' = len m.
Proof.
  intros H. specialize (H leaf11 11 0 0 AllocError). destruct (try_insert budget Nat.compare 11 0 leaf11 0) as [[o m'] w'] eqn:E.
  specialize (H m' w' (nmap_valid _)). vm_compute in E. inversion E; subst. specialize (H eq_refl). vm_compute in H. discriminate.
Qed.
(** memory for one node: the leaf is split, the new root is refused, and
    entries that were in the map are gone *)
Theorem C24_entries_refuted : ~ forall (m : bmap nat nat) k v w e m' w', valid Nat.compare m ->
  try_insert budget Nat.compare k v m w = (Err e, m', w') -> entries m' = entries m.
Proof.
  intros H. specialize (H leaf11 11 0 1 AllocError). destruct (try_insert budget Nat.compare 11 0 leaf11 1) as [[o m'] w'] eqn:E.
  specialize (H m' w' (nmap_valid _)). vm_compute in E. inversion E; subst. specialize (H eq_refl). vm_compute in H. discriminate.
Qed.
(** and dropping the map afterwards is undefined behaviour *)
Theorem C24_drop_refuted : exists (m : bmap nat nat) k v w e m' w', valid Nat.compare m /\
  try_insert budget Nat.compare k v m w = (Err e, m', w') /\ drop_map m' = UB.
Proof. exists leaf11, 11, 0, 0. eexists _, _, _. split; [apply nmap_valid|]. split; vm_compute; reflexivity. Qed.
Example ex_lost : let '(o, m', _) := try_insert budget Nat.compare 11 0 leaf11 1 in
  o = Err AllocError /\ map fst (entries m') = [0; 1; 2; 3; 4; 5] /\ len m' = 12.
Proof. vm_compute. auto. Qed.

(** ** Sets: C24, C30 and C37 through the set API *)
Section SetProps.
  Variables (T : Type) (cmp : T -> T -> comparison).
  Hypothesis laws : ord_laws cmp.
  Variables (W : Type) (nalloc : bool -> W -> option reserve_error * W).
  Theorem C24_set_try_insert_partial : forall x (s : bset T) w e s' w', set_valid cmp s -> set_try_insert cmp nalloc x s w = (Err e, s', w') ->
    refused nalloc e /\ ~ member cmp x (elems s) /\ ((s' = s /\ elems s = []) \/ spoilt cmp s s' x tt).
  Proof.
    intros x s w e s' w' Hv E. pose proof (@set_try_insert_ok T W nalloc cmp laws x s w Hv) as H. rewrite E in H. destruct H as (H1 & H2 & H3).
    split; auto. split; auto.
    assert (Hg : s_get (cmp x) (entries s) = None); [|destruct (torn_spoilt laws Hv Hg H3) as [[-> He]|Hp]; [left; split; [reflexivity|unfold elems; now rewrite He]|right; exact Hp]].
    destruct (s_get (cmp x) (entries s)) eqn:Eg; auto. exfalso. apply H2, member_get. congruence.
  Qed.
  Theorem C24_set_replace_partial : forall x (s : bset T) w e s' w', set_valid cmp s -> set_replace cmp nalloc x s w = (Err e, s', w') ->
    refused nalloc e /\ ~ member cmp x (elems s) /\ ((s' = s /\ elems s = []) \/ spoilt cmp s s' x tt).
  Proof.
    intros x s w e s' w' Hv E. destruct (@C24_replace_partial T unit cmp laws W nalloc x tt s w e s' w' Hv E) as (H1 & H2 & H3).
    split; auto. split; [intros HM; apply member_get in HM; contradiction|].
    destruct H3 as [[-> He]|Hp]; [left; split; [reflexivity|unfold elems; now rewrite He]|right; exact Hp].
  Qed.
End SetProps.

(** ** Concrete cases *)
Example ex_droppable : droppable bigmap /\ bshared bigmap = false /\
  (match drop_map bigmap with Ret (l, fr) => length l = 200 /\ length fr = 30 | _ => False end).
Proof. split; [apply (valid_droppable (nmap_valid scattered))|]. vm_compute. auto. Qed.
Example ex_into : match map_into_iter bigmap with
  | Ret it => match calls (@into_next nat nat) (@into_next_back nat nat) [Front; Back; Back; Front] it with
              | Ret (outs, it') => match drop_into_iter it' with Ret (d, fr) => length d = 196 /\ length fr = 30 | _ => False end
              | _ => False end
  | _ => False end.
Proof. vm_compute. auto. Qed.
Definition smallmap : bmap nat nat := nmap (seq 0 20).
Definition occupied_ (e : entry nat nat) : bool := match e with Occupied _ => true | Vacant _ _ => false end.
Example ex_entry : bheight smallmap = 1 /\ exists hd m1 w1, try_entry grant Nat.compare 7 smallmap tt = (Ret (Occupied hd), m1, w1) /\
  obtained Nat.compare grant 7 m1 (Occupied hd).
Proof.
  split; [reflexivity|]. destruct (try_entry grant Nat.compare 7 smallmap tt) as [[r m1] w1] eqn:E.
  assert (G : match fst (fst (try_entry grant Nat.compare 7 smallmap tt)) with Ret en => occupied_ en | _ => false end = true) by (vm_compute; reflexivity).
  rewrite E in G. cbn [fst] in G. destruct r as [[hd|k hd]|e| | |]; try discriminate G. exists hd, m1, w1. split; auto.
  eapply Obtained; [apply (nmap_valid (seq 0 20))|exact E].
Qed.
Example ex_vacant : exists k hd m1 w1, try_entry grant Nat.compare 50 smallmap tt = (Ret (Vacant k hd), m1, w1) /\
  obtained Nat.compare grant 50 m1 (Vacant k hd).
Proof.
  destruct (try_entry grant Nat.compare 50 smallmap tt) as [[r m1] w1] eqn:E.
  assert (G : match fst (fst (try_entry grant Nat.compare 50 smallmap tt)) with Ret en => negb (occupied_ en) | _ => false end = true) by (vm_compute; reflexivity).
  rewrite E in G. cbn [fst] in G. destruct r as [[hd|k hd]|e| | |]; try discriminate G. exists k, hd, m1, w1. split; auto.
  eapply Obtained; [apply (nmap_valid (seq 0 20))|exact E].
Qed.
Example ex_iter_mut : match map_iter bigmap with
  | Ret it => match calls (@iter_next nat nat) (@iter_next_back nat nat) [Front; Back] it with
              | Ret (outs, _) =>
                  match write_all (map (fun x : item nat nat => (snd x, fun _ => 7)) (somes outs)) bigmap with
                  | Some m' => hd_error (entries m') = Some (0, 7) /\ nth_error (entries m') 199 = Some (199, 7) /\ nth_error (entries m') 100 = Some (100, 100)
                  | None => False end
              | _ => False end
  | _ => False end.
Proof. vm_compute. auto. Qed.
(** the same content in trees of different shapes *)
Example ex_eq : valid Nat.compare (nmap (seq 0 200)) /\ nmap (seq 0 200) <> bigmap /\
  map_eq (fun x y => (fst x =? fst y) && (snd x =? snd y)) (nmap (seq 0 200)) bigmap = Ret true /\
  map_partial_cmp (fun x y => Some (Nat.compare (fst x) (fst y))) (nmap [1; 5; 3]) (nmap [1; 3; 7]) = Ret (Some Lt).
Proof.
  split; [apply nmap_valid|]. split; [intros H; apply (f_equal (fun m => nlen (bnode m))) in H; vm_compute in H; discriminate|].
  split; vm_compute; reflexivity.
Qed.
Example ex_collect : let '(r, m', _) := from_iter grant cmp1 [((2, 1), 0); ((1, 1), 5); ((2, 2), 9)] tt in
  r = Ret tt /\ entries m' = [((1, 1), 5); ((2, 1), 9)].
Proof. vm_compute. auto. Qed.

Print Assumptions C24_try_insert_partial.
Print Assumptions C24_replace_partial.
Print Assumptions C24_unchanged.
Print Assumptions C24_exact_partial.
Print Assumptions C24_len_refuted.
Print Assumptions C24_entries_refuted.
Print Assumptions C24_drop_refuted.
Print Assumptions C24_set_try_insert_partial.
Print Assumptions C24_set_replace_partial.
Print Assumptions C30_drop.
Print Assumptions C30_into_iter.
Print Assumptions C30_try_clone.
Print Assumptions C30_split_off.
Print Assumptions C30_append.
Print Assumptions C33_try_entry.
Print Assumptions C33_key.
Print Assumptions C33_and_modify.
Print Assumptions C33_or_insert.
Print Assumptions C33_vacant_insert.
Print Assumptions C33_occupied.
Print Assumptions C35_eq.
Print Assumptions C35_partial_cmp.
Print Assumptions C35_lexicographic.
Print Assumptions C35_cmp_eq.
Print Assumptions C35_hash.
Print Assumptions C35_eq_hash.
Print Assumptions C36_cost.
Print Assumptions C37_extend.
Print Assumptions C37_from_iter.
Print Assumptions C37_lookup.
Print Assumptions C38_get_mut.
Print Assumptions C38_range_mut.
Print Assumptions C38_iter_mut.
Print Assumptions C38_values_mut.
