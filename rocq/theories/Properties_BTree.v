(** * Properties_BTree: C22, C23, C25-C29 (BTreeMap)

    Vocabulary: [entries m] is the list of the entries of the map [m] in key
    order; [valid cmp m] the invariant that every map reached through the API
    satisfies (C20/C21, Properties_History); [s_get], [s_range], ... on plain
    lists: MapSpec; [dq_run]: the ideal double-ended iterator, IterSpec. *)
From Coq Require Import List Arith Lia Bool Sorted Permutation.
From Verif Require Import Base MapSpec MergeSpec SpecFacts IterSpec BTreeModel BTreeInv BTreeLemmas BTreeSearch BTreeInsert BTreeRemove
  BTreeIterModel BTreeIterProofs BTreeRange BTreeBulkModel BTreeBorder BTreeSplit BTreeAppend BTreeClone BTreeOps BTreeSetModel BTreeViewModel BTreeViews BTreeSets BTreeCollect Examples.
Import ListNotations.
Set Implicit Arguments.

Section MapProps.
  Variables (K V : Type) (cmp : K -> K -> comparison).
  Hypothesis laws : ord_laws cmp.
  Notation kv := (K * V)%type.
  Implicit Types (m o : bmap K V) (k : K) (v : V).

  (** ** C22: iteration.  [outs] are the results of the calls [ops], [rest] what
      the ideal iterator would still deliver. *)
  (** iter and iter_mut (an item is the entry and the address of its value) *)
  Theorem C22_iter : forall m ops, valid cmp m ->
    exists it outs it', map_iter m = Ret it /\ calls (@iter_next K V) (@iter_next_back K V) ops it = Ret (outs, it') /\
      let '(ideal, rest) := dq_run ops (entries m) in
      map (option_map fst) outs = ideal /\ iter_size_hint it' = (length rest, Some (length rest)).
  Proof.
    intros m ops [(Hb & Hs & Hl) _]. destruct (map_iter_ok m (kids_shape _ _ _ (proj2 Hb)) Hl) as (it & E & Hok).
    destruct (iter_calls ops Hok) as (outs & it' & a & b & E2 & [Hb2 Hl2] & E3 & _). exists it, outs, it'. split; auto. split; auto.
    unfold entries in E3. rewrite seg_all in E3. unfold entries. rewrite E3. split; auto. unfold iter_size_hint.
    rewrite Hl2, seg_length by (eapply between_bound; eauto). reflexivity.
  Qed.

  Theorem C22_into_iter : forall m ops, valid cmp m ->
    exists it outs it', map_into_iter m = Ret it /\ calls (@into_next K V) (@into_next_back K V) ops it = Ret (outs, it') /\
      let '(ideal, rest) := dq_run ops (entries m) in outs = ideal /\ nleft_ it' = length rest.
  Proof.
    intros m ops [(Hb & Hs & Hl) _]. destruct (map_into_iter_ok m (kids_shape _ _ _ (proj2 Hb)) Hl) as (it & E & Hok); [apply Hs|].
    destruct (into_calls ops Hok) as (outs & it' & a & b & E2 & (Hb2 & Hl2 & _) & E3). exists it, outs, it'. split; auto. split; auto.
    unfold entries in E3. rewrite seg_all in E3. unfold entries. rewrite E3. split; auto.
    rewrite Hl2, seg_length by (eapply between_bound; eauto). reflexivity.
  Qed.

  (** keys, values, values_mut: any projection of the items *)
  Lemma projected : forall A (f : item K V -> A) (g : kv -> A) m ops, valid cmp m -> (forall x, f x = g (fst x)) ->
    exists it outs it', map_iter m = Ret it /\
      calls (fun s => project f (iter_next s)) (fun s => project f (iter_next_back s)) ops it = Ret (outs, it') /\
      let '(ideal, rest) := dq_run ops (map g (entries m)) in
      outs = ideal /\ iter_size_hint it' = (length rest, Some (length rest)).
  Proof.
    intros A f g m ops Hv Hfg. destruct (C22_iter ops Hv) as (it & outs & it' & E & E2 & H).
    exists it, (map (option_map f) outs), it'. split; auto. split; [rewrite calls_project, E2; reflexivity|].
    rewrite dq_run_map. destruct (dq_run ops (entries m)) as [ideal rest]. cbn [fst snd]. destruct H as [<- H]. rewrite map_length. split; auto.
    rewrite map_map. apply map_ext. intros [x|]; cbn; [now rewrite Hfg|reflexivity].
  Qed.
  Theorem C22_keys : forall m ops, valid cmp m ->
    exists it outs it', map_iter m = Ret it /\ calls (@keys_next K V) (@keys_next_back K V) ops it = Ret (outs, it') /\
      let '(ideal, rest) := dq_run ops (map fst (entries m)) in outs = ideal /\ iter_size_hint it' = (length rest, Some (length rest)).
  Proof. intros m ops Hv. now apply (projected (fun x => fst (fst x)) fst). Qed.
  Theorem C22_values : forall m ops, valid cmp m ->
    exists it outs it', map_iter m = Ret it /\ calls (@values_next K V) (@values_next_back K V) ops it = Ret (outs, it') /\
      let '(ideal, rest) := dq_run ops (map snd (entries m)) in outs = ideal /\ iter_size_hint it' = (length rest, Some (length rest)).
  Proof. intros m ops Hv. now apply (projected (fun x => snd (fst x)) snd). Qed.
  Theorem C22_values_mut : forall m ops, valid cmp m ->
    exists it outs it', map_iter m = Ret it /\ calls (@values_mut_next K V) (@values_mut_next_back K V) ops it = Ret (outs, it') /\
      let '(ideal, rest) := dq_run ops (map snd (entries m)) in
      map (option_map fst) outs = ideal /\ iter_size_hint it' = (length rest, Some (length rest)).
  Proof.
    intros m ops Hv. destruct (C22_iter ops Hv) as (it & outs & it' & E & E2 & H).
    exists it, (map (option_map (fun x : item K V => (snd (fst x), snd x))) outs), it'. split; auto.
    split; [etransitivity; [exact (calls_project (fun x : item K V => (snd (fst x), snd x)) (@iter_next K V) (@iter_next_back K V) ops it)|rewrite E2; reflexivity]|].
    rewrite dq_run_map. destruct (dq_run ops (entries m)) as [ideal rest]. cbn [fst snd]. destruct H as [<- H]. rewrite map_length. split; auto.
    rewrite !map_map. apply map_ext. intros [x|]; reflexivity.
  Qed.

  (** what the ideal iterator does: each entry is delivered at most once (the
      delivered and the remaining ones are those of the list), and from one end
      the list comes out in order *)
  Theorem C22_each_once : forall ops (l : list kv), let '(outs, rest) := dq_run ops l in Permutation l (somes outs ++ rest).
  Proof. intros. apply dq_run_perm. Qed.
  Theorem C22_in_order : forall l : list kv, dq_run (repeat Front (length l)) l = (map Some l, []) /\
    dq_run (repeat Back (length l)) l = (map Some (rev l), []).
  Proof. intros. split; [apply dq_run_front|apply dq_run_back]. Qed.
  Theorem C22_exhausted : forall ops, dq_run ops ([] : list kv) = (repeat None (length ops), []).
  Proof. intros. apply dq_run_nil. Qed.

  (** ** C23: range and range_mut with borrowed bounds *)
  Section Borrowed.
    Variables (Q : Type) (qcmp : Q -> Q -> comparison) (borrow : K -> Q).
    Hypothesis blaws : borrow_laws cmp qcmp borrow.

    Theorem C23_range_panics : forall lo hi m, valid cmp m ->
      (map_range qcmp borrow lo hi m = Panic <-> s_bad qcmp lo hi).
    Proof.
      intros lo hi m [(Hb & _) Hs]. destruct (map_range_ok blaws lo hi m (kids_shape _ _ _ (proj2 Hb)) Hs) as [H1 H2]. split; auto.
      intros E. destruct (bad_range qcmp lo hi) eqn:Eb; [now apply bad_range_spec|]. exfalso. destruct H2 as (r & a & b & E2 & _); [|congruence].
      intros Hbad. apply bad_range_spec in Hbad. congruence.
    Qed.
    Theorem C23_range : forall lo hi m ops, valid cmp m -> ~ s_bad qcmp lo hi ->
      exists r outs r', map_range qcmp borrow lo hi m = Ret r /\ calls (@range_next K V) (@range_next_back K V) ops r = Ret (outs, r') /\
        map (option_map fst) outs = fst (dq_run ops (s_range qcmp borrow lo hi (entries m))).
    Proof.
      intros lo hi m ops [(Hb & _) Hs] Hbad. destruct (map_range_ok blaws lo hi m (kids_shape _ _ _ (proj2 Hb)) Hs) as [_ H2].
      destruct (H2 Hbad) as (r & a & b & E & Hbt & Es). destruct (range_calls ops Hbt) as (outs & r' & a' & b' & E2 & _ & E3 & _).
      exists r, outs, r'. split; auto. split; auto. unfold entries in *. rewrite <- Es, E3. reflexivity.
    Qed.

    (** ** C26: remove, for any borrowed form [x] of a key *)
    Definition finds (x : Q) : K -> comparison := fun k => qcmp x (borrow k).
    Theorem C26_remove_entry : forall x m, valid cmp m ->
      exists m', remove_entry (finds x) m = (Ret (s_get (finds x) (entries m)), m') /\ valid cmp m' /\
        entries m' = s_remove (finds x) (entries m) /\
        len m' = (match s_get (finds x) (entries m) with Some _ => len m - 1 | None => len m end) /\
        (s_get (finds x) (entries m) = None -> m' = m).
    Proof.
      intros x m [Hm Hs]. pose proof (cutq_sorted x blaws Hs) as Hq. pose proof (remove_entry_ok Hm Hq) as H. unfold finds in *.
      destruct (remove_entry _ m) as [r m']. destruct H as (-> & Hm' & E & Hn & _). exists m'. split; auto.
      split; [split; auto; rewrite E; now apply sorted_filter|]. split; auto. split; auto.
      pose proof (search_ok Hm Hq) as HS. destruct Hm as (_ & _ & L1). destruct Hm' as (_ & _ & L2). unfold len. rewrite L1, L2, E.
      destruct (search _ m) as [[hd|hd]|]; [| |contradiction].
      - destruct HS as (_ & y & l & r & _ & Hy & -> & Hl & Hr). rewrite s_get_some, s_remove_some by auto. rewrite !app_length. simpl. lia.
      - destruct HS as (_ & _ & _ & l & r & _ & _ & -> & Hl & Hr). rewrite s_get_none, s_remove_none by auto. reflexivity.
    Qed.
    Theorem C26_remove : forall x m, valid cmp m ->
      exists m', remove (finds x) m = (Ret (option_map snd (s_get (finds x) (entries m))), m') /\ valid cmp m' /\
        entries m' = s_remove (finds x) (entries m) /\ (s_get (finds x) (entries m) = None -> m' = m).
    Proof.
      intros x m Hv. destruct (C26_remove_entry x Hv) as (m' & E & H1 & H2 & _ & H3). exists m'. unfold remove. rewrite E. cbn [omap]. auto.
    Qed.
    (** lookups *)
    Theorem C26_get : forall x m, valid cmp m ->
      get_key_value (finds x) m = Ret (s_get (finds x) (entries m)) /\
      get (finds x) m = Ret (option_map snd (s_get (finds x) (entries m))) /\
      contains_key (finds x) m = Ret (match s_get (finds x) (entries m) with Some _ => true | None => false end) /\
      index (finds x) m = match s_get (finds x) (entries m) with Some e => Ret (snd e) | None => Panic end.
    Proof.
      intros x m [Hm Hs]. pose proof (cutq_sorted x blaws Hs) as Hq.
      assert (E : get_key_value (finds x) m = Ret (s_get (finds x) (entries m))) by (apply get_key_value_ok; auto).
      unfold index, contains_key, get. rewrite E. cbn [omap]. destruct (s_get _ _); cbn; auto.
    Qed.

    (** ** C28: split_off *)
    Section Alloc.
      Variables (W : Type) (nalloc : bool -> W -> option reserve_error * W).
      Theorem C28_split_off : forall x m w, valid cmp m ->
        let '(r, m', _, w') := split_off nalloc (finds x) m w in
        match r with
        | Ret m2 => valid cmp m' /\ valid cmp m2 /\ entries m = entries m' ++ entries m2 /\
            Forall (fun e => qcmp (borrow (fst e)) x = Lt) (entries m') /\
            Forall (fun e => qcmp (borrow (fst e)) x <> Lt) (entries m2) /\
            len m' = length (entries m') /\ len m2 = length (entries m2)
        | Err e => m' = m /\ exists internal w0, nalloc internal w0 = (Some e, w')
        | _ => False
        end.
      Proof.
        intros x m w [Hm Hs]. pose proof (cutq_sorted x blaws Hs) as Hq. pose proof (@split_off_ok K V W nalloc _ m w Hm Hq) as H. unfold finds.
        destruct (split_off nalloc _ m w) as [[[r m'] ds] w']. destruct H as [_ H]. destruct r as [m2|e| | |]; auto.
        destruct H as (_ & H1 & H2 & E & H3 & H4). rewrite E in Hs. apply sorted_app in Hs. destruct Hs as [S1 S2].
        split; [split; auto|]. split; [split; auto|]. split; auto. split; [|split; [|split; [apply H1|apply H2]]].
        - eapply Forall_impl; [|exact H3]. cbn. intros e He. rewrite (cmp_antisym (q_laws blaws)), He. reflexivity.
        - eapply Forall_impl; [|exact H4]. cbn. intros e He. rewrite (cmp_antisym (q_laws blaws)). destruct (qcmp x (borrow (fst e))); cbn; congruence.
      Qed.
    End Alloc.
  End Borrowed.

  Section Alloc.
    Variables (W : Type) (nalloc : bool -> W -> option reserve_error * W).

    (** ** C25 *)
    Theorem C25_existing_key : forall k v m w k0 v0, valid cmp m -> In (k0, v0) (entries m) -> cmp k k0 = Eq ->
      exists m' l r, try_insert nalloc cmp k v m w = (Ret (Some v0), m', w) /\ valid cmp m' /\
        entries m = l ++ (k0, v0) :: r /\ entries m' = l ++ (k0, v) :: r /\ len m' = len m.
    Proof.
      intros k v m w k0 v0 [Hm Hs] Hin Ek. pose proof (@try_insert_ok K V W nalloc cmp laws k v m w Hm Hs) as H.
      apply in_split in Hin. destruct Hin as (l & r & E).
      assert (Hq : allq (cmp k) Gt l /\ allq (cmp k) Lt r).
      { rewrite E in Hs. destruct (sorted_mid_q laws _ _ _ Hs) as [A1 A2]. split; (eapply Forall_impl; [|eassumption]); cbn [fst]; intros e He;
          rewrite (cmp_eq_l laws _ _ _ Ek); exact He. }
      destruct Hq as [Hl Hr].
      assert (Eg : s_get (cmp k) (entries m) = Some (k0, v0)) by (rewrite E; now apply s_get_some).
      rewrite Eg in H. destruct (try_insert nalloc cmp k v m w) as [[o m'] w']. destruct o; try contradiction; [|destruct H as (_ & ? & _); discriminate].
      destruct H as (-> & Hm' & E' & Hw). cbn [option_map snd] in *. rewrite Hw by discriminate.
      assert (Hs' : sorted cmp (entries m')) by (rewrite E'; now apply s_insert_sorted).
      rewrite E, s_insert_some in E' by auto. cbn [fst] in E'.
      exists m', l, r. split; auto. split; [split; auto|].
      split; auto. split; auto. unfold len. rewrite (proj2 (proj2 Hm)), (proj2 (proj2 Hm')), E, E', !app_length. reflexivity.
    Qed.

    (** ** C27 *)
    Lemma place_In (e x : kv) l : In e (place cmp x l) <-> e = x \/ In e l.
    Proof. induction l as [|y l IH]; cbn [place]; [cbn; intuition congruence|]. destruct (cmp (fst x) (fst y)); cbn [In]; rewrite ?IH; intuition congruence. Qed.
    Lemma s_append_In (e : kv) l r : In e (s_append cmp l r) <-> In e r \/ (In e l /\ forall y, In y r -> cmp (fst e) (fst y) <> Eq).
    Proof.
      unfold s_append. assert (G : forall x : kv, has cmp r (fst x) = false <-> forall y, In y r -> cmp (fst x) (fst y) <> Eq).
      { intros x. unfold has. split.
        - intros H y Hy E. assert (existsb (fun e => match cmp (fst x) (fst e) with Eq => true | _ => false end) r = true); [|congruence].
          apply existsb_exists. exists y. now rewrite E.
        - intros H. destruct (existsb _ r) eqn:E; auto. apply existsb_exists in E. destruct E as (y & Hy & E). apply H in Hy. destruct (cmp (fst x) (fst y)); congruence. }
      induction l as [|x l IH]; cbn [filter fold_right]; [cbn; tauto|]. specialize (G x). destruct (has cmp r (fst x)) eqn:Eh; cbn [negb fold_right].
      - rewrite IH. cbn [In]. split; [tauto|]. intros [H|[[<-|H] H2]]; auto. destruct G as [_ G]. specialize (G H2). discriminate.
      - rewrite place_In, IH. cbn [In]. split.
        + intros [->|[H|[H1 H2]]]; auto. right. split; auto. now apply G.
        + intros [H|[[H|H] H2]]; auto.
    Qed.

    (** the resulting list is determined: sorted, with exactly these entries *)
    Theorem C27_append : forall m o w, valid cmp m -> valid cmp o ->
      let '(r, m', o', _, w') := append nalloc cmp m o w in
      match r with
      | Ret _ => valid cmp m' /\ valid cmp o' /\ entries o' = [] /\
          (forall e, In e (entries m') <-> In e (entries o) \/ (In e (entries m) /\ forall y, In y (entries o) -> cmp (fst e) (fst y) <> Eq))
      | Panic => exists internal w0 e, nalloc internal w0 = (Some e, w')
      | _ => False
      end.
    Proof.
      intros m o w [Hm Hs] [Ho Hso]. pose proof (@append_ok K V W nalloc cmp m o w Hm Ho) as H.
      destruct (append nalloc cmp m o w) as [[[[r m'] o'] mi] w']. destruct r; try contradiction; [|apply H].
      destruct H as (H1 & H2 & E & E2 & _). rewrite merge2_append in E by auto.
      split; [split; auto; rewrite E; now apply s_append_sorted|]. split; [split; auto; rewrite E2; constructor|]. split; auto.
      intros e. rewrite E. apply s_append_In.
    Qed.

    (** ** C29.  The source is taken by shared reference: it has no successor state. *)
    Section Clone.
      Variables (kclone : K -> W -> outcome reserve_error K * W) (vclone : V -> W -> outcome reserve_error V * W).
      Theorem C29_try_clone : forall m w, valid cmp m ->
        (forall k w k' w', kclone k w = (Ret k', w') -> cmp k k' = Eq) ->
        let '(r, _, w') := try_clone nalloc kclone vclone m w in
        match r with
        | Ret m' => valid cmp m' /\ len m' = len m /\ Forall2 (fun x y =>
              (exists w w', kclone (fst x) w = (Ret (fst y), w')) /\ (exists w w', vclone (snd x) w = (Ret (snd y), w'))) (entries m) (entries m')
        | Err e => (exists internal w, nalloc internal w = (Some e, w')) \/ (exists k w, kclone k w = (Err e, w')) \/ (exists v w, vclone v w = (Err e, w'))
        | Panic => (exists k w, kclone k w = (Panic, w')) \/ (exists v w, vclone v w = (Panic, w'))
        | Abort => (exists k w, kclone k w = (Abort, w')) \/ (exists v w, vclone v w = (Abort, w'))
        | UB => (exists k w, kclone k w = (UB, w')) \/ (exists v w, vclone v w = (UB, w'))
        end.
      Proof.
        intros m w [Hm Hs] Hl. pose proof (@try_clone_ok K V W nalloc kclone vclone m w Hm) as H.
        destruct (try_clone nalloc kclone vclone m w) as [[r d] w']. destruct H as [_ H]. destruct r as [m'|e| | |]; auto.
        destruct H as (_ & Hm' & HF). split; [split; auto|split; [|exact HF]].
        - eapply (sorted_alike laws); [|exact Hs]. clear -HF Hl. induction HF as [|x y l r [(w1 & w2 & H1) _] HF IH]; constructor; auto. now apply Hl in H1.
        - unfold len. rewrite (proj2 (proj2 Hm)), (proj2 (proj2 Hm')). symmetry. eapply Forall2_len; eauto.
      Qed.
      (** Clone: the same, except that a refusal panics *)
      Theorem C29_clone : forall m w, valid cmp m ->
        (forall k w k' w', kclone k w = (Ret k', w') -> cmp k k' = Eq) ->
        let '(r, _, w') := clone nalloc kclone vclone m w in
        match r with
        | Ret m' => valid cmp m' /\ len m' = len m /\ Forall2 (fun x y =>
              (exists w w', kclone (fst x) w = (Ret (fst y), w')) /\ (exists w w', vclone (snd x) w = (Ret (snd y), w'))) (entries m) (entries m')
        | Panic => (exists internal w e, nalloc internal w = (Some e, w')) \/
            (exists k w out, kclone k w = (out, w') /\ ~ is_ret out) \/ (exists v w out, vclone v w = (out, w') /\ ~ is_ret out)
        | Abort => (exists k w, kclone k w = (Abort, w')) \/ (exists v w, vclone v w = (Abort, w'))
        | UB => (exists k w, kclone k w = (UB, w')) \/ (exists v w, vclone v w = (UB, w'))
        | Err _ => False
        end.
      Proof.
        intros m w Hv Hl. pose proof (C29_try_clone w Hv Hl) as H. unfold clone.
        destruct (try_clone nalloc kclone vclone m w) as [[r d] w']. destruct r as [m'|e| | |]; auto.
        - destruct H as [(i & w0 & H)|[(k & w0 & H)|(v & w0 & H)]]; [left; exists i, w0, e; auto|right; left; exists k, w0, (Err e); auto|right; right; exists v, w0, (Err e); auto].
        - destruct H as [(k & w0 & H)|(v & w0 & H)]; right; [left; exists k, w0, Panic; auto|right; exists v, w0, Panic; auto].
      Qed.
    End Clone.
  End Alloc.
End MapProps.

(** ** Concrete cases meeting the hypotheses *)
Example ex_iter : valid Nat.compare bigmap /\ bheight bigmap = 2 /\
  (match map_iter bigmap with
   | Ret it => match calls (@iter_next nat nat) (@iter_next_back nat nat) [Front; Back; Back; Front] it with
               | Ret (outs, it') => Some (map (option_map fst) outs, iter_size_hint it') | _ => None end
   | _ => None end) = Some ([Some (0, 0); Some (199, 199); Some (198, 198); Some (1, 1)], (196, Some 196)).
Proof. split; [apply nmap_valid|]. vm_compute. auto. Qed.
Example ex_range : ~ s_bad Nat.compare (Excluded 10) (Included 13) /\
  (match map_range Nat.compare (fun k => k) (Excluded 10) (Included 13) bigmap with
   | Ret r => match calls (@range_next nat nat) (@range_next_back nat nat) [Back; Front; Front; Front; Back] r with
              | Ret (outs, _) => Some (map (option_map (fun x => fst (fst x))) outs) | _ => None end
   | _ => None end) = Some [Some 13; Some 11; Some 12; None; None].
Proof. split; [cbn; discriminate|vm_compute; reflexivity]. Qed.
Example ex_remove : let '(r, m') := remove (finds Nat.compare (fun k => k) 77) bigmap in r = Ret (Some 77) /\ len m' = 199.
Proof. vm_compute. auto. Qed.
Example ex_split : let '(r, m', _, _) := split_off grant (finds Nat.compare (fun k => k) 77) bigmap tt in
  len m' = 77 /\ match r with Ret m2 => len m2 = 123 | _ => False end.
Proof. vm_compute. auto. Qed.
Example ex_split_refused : let '(r, m', _, _) := split_off budget (finds Nat.compare (fun k => k) 77) bigmap 2 in
  m' = bigmap /\ r = Err AllocError.
Proof. vm_compute. auto. Qed.
(** equal keys that are different objects *)
Definition pmap : bmap (nat * nat) nat := mk cmp1 [((3, 30), 1); ((1, 10), 2); ((2, 20), 3)].
Example ex_existing : valid cmp1 pmap /\ In ((2, 20), 3) (entries pmap) /\ cmp1 (2, 99) (2, 20) = Eq /\
  (let '(r, m', _) := try_insert grant cmp1 (2, 99) 7 pmap tt in r = Ret (Some 3) /\ entries m' = [((1, 10), 2); ((2, 20), 7); ((3, 30), 1)]).
Proof. split; [apply (mk_valid cmp1_laws)|]. vm_compute. auto. Qed.
Example ex_append : let '(r, m', o', _, _) := append grant cmp1 pmap (mk cmp1 [((2, 99), 7); ((9, 0), 8)]) tt in
  r = Ret tt /\ entries m' = [((1, 10), 2); ((2, 99), 7); ((3, 30), 1); ((9, 0), 8)] /\ entries o' = [].
Proof. vm_compute. auto. Qed.
Definition copy_ {W} (x : nat) (w : W) : outcome reserve_error nat * W := (Ret x, w).
Example ex_clone : (forall k (w : unit) k' w', copy_ k w = (Ret k', w') -> Nat.compare k k' = Eq) /\
  (let '(r, _, _) := try_clone grant copy_ copy_ bigmap tt in match r with Ret m' => entries m' = entries bigmap | _ => False end) /\
  (let '(r, d, _) := try_clone budget copy_ copy_ bigmap 5 in r = Err AllocError /\ length d = 1).
Proof. split; [intros k w k' w' E; injection E; intros; subst; apply Nat.compare_refl|]. vm_compute. auto. Qed.

Print Assumptions C22_iter.
Print Assumptions C22_into_iter.
Print Assumptions C22_keys.
Print Assumptions C22_values.
Print Assumptions C22_values_mut.
Print Assumptions C22_each_once.
Print Assumptions C22_in_order.
Print Assumptions C22_exhausted.
Print Assumptions C23_range_panics.
Print Assumptions C23_range.
Print Assumptions C25_existing_key.
Print Assumptions C26_remove_entry.
Print Assumptions C26_remove.
Print Assumptions C26_get.
Print Assumptions C27_append.
Print Assumptions C28_split_off.
Print Assumptions C29_try_clone.
Print Assumptions C29_clone.
