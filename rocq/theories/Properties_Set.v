(** * Properties_Set: C31, C32, C34, C41 (BTreeSet) *)
From Coq Require Import List Arith Lia Bool Sorted.
From Verif Require Import Base MapSpec MergeSpec SpecFacts SetSpec BTreeModel BTreeInv BTreeLemmas BTreeSearch BTreeInsert BTreeRemove BTreeIterModel BTreeBulkModel BTreeOps BTreeSetModel BTreeSets BTreeCollect Examples.
Import ListNotations.
Set Implicit Arguments.

(** The specification vocabulary: [elems s] is the list of elements of the set
    in iteration order, [valid cmp s] the invariant every set reached through the API satisfies
    (Properties_History), [ascending], [member], [delivered], [steps]: SetSpec. *)

(** [it] delivers exactly the list [R], in its order, then [None] forever;
    after any number of calls the size hint is right *)
Definition yields {S T} (next : S -> outcome Empty_set (option T * S)) (hint : S -> nat * option nat) (it : S) (R : list T) : Prop :=
  forall n, exists it' lo hi, steps next n it = Ret (delivered n R, it') /\ hint it' = (lo, Some hi) /\ lo <= length (skipn n R) <= hi.

Lemma yields_of S T (next : S -> outcome Empty_set (option T * S)) hint (Rep : S -> list T -> Prop) :
  (forall s l, Rep s l -> exists s', next s = Ret (hd_error l, s') /\ Rep s' (tl l)) ->
  (forall s l, Rep s l -> exists lo hi, hint s = (lo, Some hi) /\ lo <= length l <= hi) ->
  forall it R, Rep it R -> yields next hint it R.
Proof.
  intros Hn Hh it R HR n. destruct (@steps_ok _ _ next Rep Hn n it R HR) as (it' & E & HR'). destruct (Hh _ _ HR') as (lo & hi & E2 & Hb).
  exists it', lo, hi. auto.
Qed.

Section SetProps.
  Variables (T : Type) (cmp : T -> T -> comparison).
  Hypothesis laws : ord_laws cmp.
  Implicit Types (a b s : bset T).

  (** ** C31 *)
  Theorem C31_difference : forall a b, valid cmp a -> valid cmp b ->
    exists it R, set_difference a b = Ret it /\ yields (diff_next cmp) (@diff_size_hint T) it R /\
      ascending cmp R /\ (forall x, In x R <-> In x (elems a) /\ ~ member cmp x (elems b)).
  Proof.
    intros a b Ha Hb. destruct (set_difference_ok Ha Hb) as (it & E & HR). exists it, (diffl cmp (elems a) (elems b)).
    split; [exact E|]. split; [|split].
    - apply (@yields_of _ _ _ _ (drep cmp)); auto; [apply (diff_next_ok laws)|apply (diff_hint_ok laws)].
    - apply asc_filter. now apply elems_asc.
    - intros x. apply diffl_In.
  Qed.

  Theorem C31_symmetric_difference : forall a b, valid cmp a -> valid cmp b ->
    exists it R, set_two a b = Ret it /\ yields (sym_next cmp) (@sym_size_hint T) it R /\
      ascending cmp R /\
      (forall x, In x R <-> (In x (elems a) /\ ~ member cmp x (elems b)) \/ (In x (elems b) /\ ~ member cmp x (elems a))).
  Proof.
    intros a b Ha Hb. destruct (set_two_ok (syml cmp) Ha Hb) as (it & E & HR). exists it, (syml cmp (elems a) (elems b)).
    pose proof (@syml_spec _ cmp laws _ _ _ (le_n _) (elems_asc Ha) (elems_asc Hb)) as (H1 & H2 & _).
    split; [exact E|]. split; [|split; auto].
    apply (@yields_of _ _ _ _ (two_rep cmp (syml cmp))); auto; [apply sym_next_ok|apply (sym_hint_ok laws)].
  Qed.

  Theorem C31_union : forall a b, valid cmp a -> valid cmp b ->
    exists it R, set_two a b = Ret it /\ yields (union_next cmp) (@union_size_hint T) it R /\
      ascending cmp R /\ (forall x, In x R <-> In x (elems a) \/ (In x (elems b) /\ ~ member cmp x (elems a))).
  Proof.
    intros a b Ha Hb. destruct (set_two_ok (unionl cmp) Ha Hb) as (it & E & HR). exists it, (unionl cmp (elems a) (elems b)).
    pose proof (@unionl_spec _ cmp laws _ _ _ (le_n _) (elems_asc Ha) (elems_asc Hb)) as (H1 & H2 & _).
    split; [exact E|]. split; [|split; auto].
    apply (@yields_of _ _ _ _ (two_rep cmp (unionl cmp))); auto; [apply union_next_ok|apply (union_hint_ok laws)].
  Qed.

  (** the elements are those of the smaller set (of [a] when equally large) *)
  Theorem C31_intersection : forall a b, valid cmp a -> valid cmp b ->
    exists it R, set_intersection a b = Ret it /\ yields (inter_next cmp) (@inter_size_hint T) it R /\
      ascending cmp R /\
      (forall x, In x R <-> if set_len a <=? set_len b then In x (elems a) /\ member cmp x (elems b)
                           else In x (elems b) /\ member cmp x (elems a)).
  Proof.
    intros a b Ha Hb. destruct (set_intersection_ok Ha Hb) as (it & E & HR). exists it, (small_first cmp a b).
    split; [exact E|]. split; [|split].
    - apply (@yields_of _ _ _ _ (irep cmp)); auto; [apply (inter_next_ok laws)|apply inter_hint_ok].
    - unfold small_first. destruct (_ <=? _); apply asc_filter; now apply elems_asc.
    - intros x. unfold small_first. destruct (_ <=? _); apply interl_In.
  Qed.

  (** in either case an element comparing equal to [x] is delivered iff both
      sets hold one *)
  Theorem C31_intersection_membership : forall a b x R, valid cmp a -> valid cmp b ->
    (forall y, In y R <-> if set_len a <=? set_len b then In y (elems a) /\ member cmp y (elems b)
                         else In y (elems b) /\ member cmp y (elems a)) ->
    (member cmp x R <-> member cmp x (elems a) /\ member cmp x (elems b)).
  Proof.
    intros a b x R Ha Hb HR.
    assert (Tr : forall u v l, cmp u v = Eq -> member cmp v l -> member cmp u l).
    { intros u v l E (z & Hz & Ez). exists z. split; auto. now rewrite (cmp_eq_l laws _ _ _ E). }
    split.
    - intros (y & Hy & E). apply HR in Hy. destruct (_ <=? _).
      + split; [exists y; tauto|]. eapply Tr; [exact E|tauto].
      + split; [|exists y; tauto]. eapply Tr; [exact E|tauto].
    - intros [(y & Hy & Ey) (z & Hz & Ez)]. destruct (set_len a <=? set_len b) eqn:El.
      + exists y. split; auto. apply HR. split; auto. exists z. split; auto. now rewrite <- (cmp_eq_l laws _ _ _ Ey).
      + exists z. split; auto. apply HR. split; auto. exists y. split; auto. now rewrite <- (cmp_eq_l laws _ _ _ Ez).
  Qed.

  (** ** C32 *)
  Theorem C32_is_subset : forall a b, valid cmp a -> valid cmp b ->
    exists r, is_subset cmp a b = Ret r /\ (r = true <-> forall x, In x (elems a) -> member cmp x (elems b)).
  Proof. intros. now apply is_subset_ok. Qed.
  Theorem C32_is_superset : forall a b, valid cmp a -> valid cmp b ->
    exists r, is_superset cmp a b = Ret r /\ (r = true <-> forall x, In x (elems b) -> member cmp x (elems a)).
  Proof. intros. now apply is_subset_ok. Qed.
  Theorem C32_is_disjoint : forall a b, valid cmp a -> valid cmp b ->
    exists r, is_disjoint cmp a b = Ret r /\ (r = true <-> forall x, In x (elems a) -> ~ member cmp x (elems b)).
  Proof. intros. now apply is_disjoint_ok. Qed.

  (** ** C34.  [x] is any borrowed form of an element. *)
  Section Borrowed.
    Variables (Q : Type) (qcmp : Q -> Q -> comparison) (borrow : T -> Q).
    Hypothesis blaws : borrow_laws cmp qcmp borrow.
    Definition looks_for (x : Q) : T -> comparison := fun k => qcmp x (borrow k).

    (** the stored element that compares equal to [x], if there is one *)
    Definition stored (x : Q) (l : list T) (r : option T) : Prop :=
      match r with
      | Some y => In y l /\ qcmp x (borrow y) = Eq
      | None => forall y, In y l -> qcmp x (borrow y) <> Eq
      end.

    Lemma stored_get x s : stored x (elems s) (option_map fst (s_get (looks_for x) (entries s))).
    Proof.
      unfold s_get. destruct (find _ _) as [[y u]|] eqn:E; cbn.
      - apply find_some in E. destruct E as [E1 E2]. split; [unfold elems; now apply (in_map fst) in E1|].
        unfold hit, looks_for in E2. cbn [fst] in E2. destruct (qcmp x (borrow y)); auto; discriminate.
      - intros y Hy. unfold elems in Hy. apply in_map_iff in Hy. destruct Hy as ([y' u] & <- & Hy). cbn.
        apply (find_none _ _ E) in Hy. unfold hit, looks_for in Hy. cbn [fst] in Hy. destruct (qcmp x (borrow y')); congruence.
    Qed.
    Lemma cutq_q x s : valid cmp s -> cutq (looks_for x) (entries s).
    Proof. intros [_ H]. exact (cutq_sorted x blaws H). Qed.

    Theorem C34_get : forall x s, valid cmp s ->
      exists r, set_get (looks_for x) s = Ret r /\ stored x (elems s) r.
    Proof.
      intros x s Hv. exists (option_map fst (s_get (looks_for x) (entries s))). split; [|apply stored_get].
      pose proof (search_ok (proj1 Hv) (cutq_q x Hv)) as Hs. unfold set_get. destruct (search _ s) as [[hd|hd]|]; [| |contradiction].
      - destruct Hs as (_ & y & l & r & -> & Hy & -> & Hl & Hr). now rewrite s_get_some.
      - destruct Hs as (_ & _ & _ & l & r & _ & _ & -> & Hl & Hr). now rewrite s_get_none.
    Qed.
    Theorem C34_contains : forall x s, valid cmp s ->
      exists r, set_contains (looks_for x) s = Ret r /\ (r = true <-> exists y, In y (elems s) /\ qcmp x (borrow y) = Eq).
    Proof.
      intros x s Hv. unfold set_contains, contains_key, get. rewrite (get_key_value_ok (proj1 Hv) (cutq_q x Hv)). cbn [omap].
      eexists. split; [reflexivity|]. pose proof (stored_get x s) as Hst. destruct (s_get _ _) as [[y []]|]; cbn in *.
      - split; auto. intros _. exists y. auto.
      - split; [discriminate|]. intros (y & Hy & E). now apply Hst in Hy.
    Qed.

    (** take: the stored element comes out, all others stay, in their order *)
    Theorem C34_take : forall x s, valid cmp s ->
      exists r s', set_take (looks_for x) s = (Ret r, s') /\ valid cmp s' /\ stored x (elems s) r /\
        elems s' = filter (fun y => match qcmp x (borrow y) with Eq => false | _ => true end) (elems s) /\
        set_len s' = match r with Some _ => set_len s - 1 | None => set_len s end.
    Proof.
      intros x s Hv. pose proof (remove_entry_ok (proj1 Hv) (cutq_q x Hv)) as HR.
      assert (E : set_take (looks_for x) s = let '(o, s') := remove_entry (looks_for x) s in (omap (option_map fst) o, s')).
      { unfold set_take, remove_entry. destruct (search _ s) as [[hd|hd]|]; auto. destruct (remove_entry_at s hd) as [[]]; auto. }
      rewrite E. destruct (remove_entry (looks_for x) s) as [o s']. destruct HR as (-> & Hs' & Ee & Hn & _). cbn [omap].
      eexists _, s'. split; [reflexivity|]. assert (Hv' : valid cmp s') by (split; auto; rewrite Ee; apply sorted_filter; apply Hv).
      split; [exact Hv'|]. split; [apply stored_get|]. split.
      - unfold elems. rewrite Ee. unfold s_remove. clear. induction (entries s) as [|[y u] l IH]; auto. cbn [filter map fst].
        change (hit (looks_for x) (y, u)) with (match qcmp x (borrow y) with Eq => true | _ => false end).
        destruct (qcmp x (borrow y)); cbn [negb map fst]; now rewrite IH.
      - pose proof (proj2 (proj2 (proj1 Hv))) as L1. pose proof (proj2 (proj2 Hs')) as L2. unfold set_len, len. rewrite L1, L2, Ee.
        pose proof (search_ok (proj1 Hv) (cutq_q x Hv)) as Hs. destruct (search _ s) as [[hd|hd]|]; [| |contradiction].
        + destruct Hs as (_ & y & l & r & _ & Hy & -> & Hl & Hr). rewrite s_get_some, s_remove_some by auto. cbn. rewrite !app_length. simpl. lia.
        + destruct Hs as (_ & _ & _ & l & r & _ & _ & -> & Hl & Hr). rewrite s_get_none, s_remove_none by auto. reflexivity.
    Qed.
    Theorem C34_remove : forall x s, valid cmp s ->
      exists r s', set_remove (looks_for x) s = (Ret r, s') /\ valid cmp s' /\ (r = true <-> exists y, In y (elems s) /\ qcmp x (borrow y) = Eq) /\
        elems s' = filter (fun y => match qcmp x (borrow y) with Eq => false | _ => true end) (elems s).
    Proof.
      intros x s Hv. destruct (C34_take x Hv) as (r & s' & E & Hv' & Hst & Ee & _).
      exists (match r with Some _ => true | None => false end), s'. split; [|split; [exact Hv'|split; [|exact Ee]]].
      - unfold set_take in E. unfold set_remove, remove, remove_entry. destruct (search _ s) as [[hd|hd]|]; [| |discriminate].
        + destruct (remove_entry_at s hd) as [o m']. inversion E; subst. destruct o; inversion H0; subst. reflexivity.
        + inversion E; subst. reflexivity.
      - destruct r as [y|]; cbn in Hst; split; auto; [intros _; exists y; auto|discriminate|]. intros (y & Hy & E2). now apply Hst in Hy.
    Qed.
  End Borrowed.

  Section Alloc.
    Variables (W : Type) (nalloc : bool -> W -> option reserve_error * W).
    (** the allocator refuses something.  (The theorems hold for every allocator,
        so a call that reports a refusal made one: an allocator refusing only
        requests the call never makes could be replaced by one that refuses nothing.) *)
    Definition was_refused : Prop := exists (leaf : bool) w e w', nalloc leaf w = (Some e, w').

    Lemma refused_was e : refused nalloc e -> was_refused.
    Proof. intros (b & w & w' & E). exists b, w, e, w'. exact E. Qed.

    Lemma insert_In x (s s' : bset T) : sorted cmp (entries s) -> entries s' = s_insert cmp x tt (entries s) -> ~ member cmp x (elems s) ->
      forall z, In z (elems s') <-> z = x \/ In z (elems s).
    Proof.
      unfold elems, member. intros Hs -> Hm z. induction (entries s) as [|[y []] l IH]; cbn.
      - intuition congruence.
      - apply sorted_cons in Hs. destruct Hs as [Hs _]. destruct (cmp x y) eqn:E; cbn.
        + exfalso. apply Hm. exists y. cbn. auto.
        + intuition congruence.
        + rewrite IH; auto; [intuition congruence|]. intros (u & Hu & Eu). apply Hm. exists u. cbn. auto.
    Qed.

    (** try_insert: true iff the element was absent (and it is in the set now);
        false: nothing changed, the stored element stays and nothing was allocated *)
    Theorem C34_try_insert : forall x s w, valid cmp s ->
      let '(o, s', w') := set_try_insert cmp nalloc x s w in
      match o with
      | Ret true => ~ member cmp x (elems s) /\ valid cmp s' /\ (forall z, In z (elems s') <-> z = x \/ In z (elems s)) /\
                    set_len s' = set_len s + 1
      | Ret false => member cmp x (elems s) /\ valid cmp s' /\ elems s' = elems s /\ set_len s' = set_len s /\ w' = w
      | Err _ => ~ member cmp x (elems s) /\ was_refused
      | _ => False
      end.
    Proof.
      intros x s w Hv. pose proof (set_try_insert_ok nalloc laws x w Hv) as H. pose proof (member_get cmp x s) as HM.
      destruct (set_try_insert cmp nalloc x s w) as [[o s'] w']. destruct o as [[|]|e| | |]; try contradiction.
      - destruct H as (H1 & H2 & H3 & _). assert (Hm : ~ member cmp x (elems s)) by now apply H1. split; [exact Hm|]. split; [exact H2|].
        split; [apply insert_In; auto; apply Hv|]. rewrite (elems_len Hv), (elems_len H2). unfold elems. rewrite !map_length, H3, (s_insert_length laws).
        + destruct (s_get (cmp x) (entries s)) eqn:Eg; [|lia]. exfalso. apply Hm. apply HM. discriminate.
        + apply Hv.
      - destruct H as (H1 & H2 & H3 & H4). destruct (H4 eq_refl) as [H5 H6].
        assert (Hm : member cmp x (elems s)).
        { rewrite <- (memb_ok cmp) in *. destruct (memb cmp x (elems s)); auto. exfalso. assert (false = true); [|discriminate]. apply H1. discriminate. }
        split; [exact Hm|]. split; [exact H2|]. split; [exact H5|]. split; [|exact H6]. now rewrite (elems_len Hv), (elems_len H2), H5.
      - destruct H as (H1 & H2 & _). split; auto. eapply refused_was; eauto.
    Qed.

    (** replace: the new object takes the place of the stored equal one, which
        is returned; an absent element is inserted *)
    Theorem C34_replace : forall x s w, valid cmp s ->
      let '(o, s', w') := set_replace cmp nalloc x s w in
      match o with
      | Ret (Some y) => In y (elems s) /\ cmp x y = Eq /\ valid cmp s' /\
          elems s' = map (fun z => match cmp x z with Eq => x | _ => z end) (elems s) /\ set_len s' = set_len s /\ w' = w
      | Ret None => ~ member cmp x (elems s) /\ valid cmp s' /\ (forall z, In z (elems s') <-> z = x \/ In z (elems s)) /\
          set_len s' = set_len s + 1
      | Err _ => ~ member cmp x (elems s) /\ was_refused
      | _ => False
      end.
    Proof.
      intros x s w Hv. pose proof (@replace_key_ok T unit W nalloc cmp laws x tt s w (proj1 Hv) (proj2 Hv)) as H. pose proof (member_get cmp x s) as HM.
      unfold set_replace. destruct (replace_key nalloc cmp x tt s w) as [[o s'] w']. destruct o as [old|e| | |]; try contradiction.
      - destruct H as (E & Hs' & Ee & Hw). destruct (s_get (cmp x) (entries s)) as [[y []]|] eqn:Eg; cbn in E; subst old.
        + assert (Hv' : valid cmp s') by (split; auto; rewrite Ee; apply (s_rekey_sorted laws); apply Hv).
          unfold s_get in Eg. apply find_some in Eg. destruct Eg as [Hin Hh]. unfold hit in Hh. cbn [fst] in Hh.
          split; [unfold elems; now apply (in_map fst) in Hin|]. split; [destruct (cmp x y); auto; discriminate|]. split; [exact Hv'|].
          split; [|split; [|apply Hw; discriminate]].
          * unfold elems. rewrite Ee. unfold s_rekey. rewrite !map_map. apply map_ext. intros z. unfold hit. now destruct (cmp x (fst z)).
          * rewrite (elems_len Hv), (elems_len Hv'). unfold elems. rewrite Ee. unfold s_rekey. now rewrite !map_length.
        + assert (Hv' : valid cmp s') by (split; auto; rewrite Ee; apply (s_insert_sorted laws); apply Hv).
          assert (Hm : ~ member cmp x (elems s)) by (rewrite HM; congruence).
          split; [exact Hm|]. split; [exact Hv'|]. split; [apply insert_In; auto; apply Hv|].
          rewrite (elems_len Hv), (elems_len Hv'). unfold elems. rewrite !map_length, Ee, (s_insert_length laws); [rewrite Eg; lia|apply Hv].
      - destruct H as (H1 & H2 & _). split; [rewrite HM; congruence|]. eapply refused_was; eauto.
    Qed.

    (** ** C41.  [tclone]: the Clone of the element type, whose copies compare
        equal to the original; it may panic. *)
    Variable tclone : T -> W -> outcome Empty_set T * W.
    Hypothesis lawful : clone_lawful cmp tclone.

    (** the outcome of an operator: a set of copies of [R] in the same order,
        or a panic because memory was refused, or whatever a failing clone did *)
    Definition built (r : outcome Empty_set unit * bset T * W) (R : list T) : Prop :=
      let '(o, s, _) := r in
      match o with
      | Ret _ => valid cmp s /\ Forall2 (fun x y => exists w w', tclone x w = (Ret y, w')) R (elems s)
      | _ => (o = Panic /\ was_refused) \/ exists x w o' w', tclone x w = (o', w') /\ omap (fun _ => tt) o' = o
      end.
    Lemma built_of r R : (let '(o, s', w') := r in
      match o with Ret _ => set_valid cmp s' /\ Forall2 (copy_of tclone) R (elems s') | _ => oom_or_clone nalloc cmp tclone o s' end) -> built r R.
    Proof.
      destruct r as [[o s] w]. unfold built. destruct o; auto; intros [[H0 [e0 He]]|[H _]]; auto; left; (split; [exact H0|eapply refused_was; eauto]).
    Qed.

    Theorem C41_sub : forall a b w, valid cmp a -> valid cmp b ->
      exists R, built (set_sub cmp nalloc tclone a b w) R /\ ascending cmp R /\
        (forall x, In x R <-> In x (elems a) /\ ~ member cmp x (elems b)).
    Proof.
      intros a b w Ha Hb. destruct (set_difference_ok Ha Hb) as (it & E & HR). exists (diffl cmp (elems a) (elems b)).
      pose proof (asc_filter (fun x => negb (memb cmp x (elems b))) (elems_asc Ha)) as HA. split; [|split; [exact HA|intros x; apply diffl_In]].
      apply built_of. unfold set_sub. eapply (@started_ok T W nalloc cmp tclone laws lawful _ _ (drep cmp)); eauto; [apply (diff_next_ok laws)|].
      pose proof (diffl_length laws (elems b) (elems_asc Ha)). rewrite (elems_len Ha). lia.
    Qed.
    Theorem C41_bitxor : forall a b w, valid cmp a -> valid cmp b ->
      exists R, built (set_bitxor cmp nalloc tclone a b w) R /\ ascending cmp R /\
        (forall x, In x R <-> (In x (elems a) /\ ~ member cmp x (elems b)) \/ (In x (elems b) /\ ~ member cmp x (elems a))).
    Proof.
      intros a b w Ha Hb. destruct (set_two_ok (syml cmp) Ha Hb) as (it & E & HR). exists (syml cmp (elems a) (elems b)).
      pose proof (@syml_spec _ cmp laws _ _ _ (le_n _) (elems_asc Ha) (elems_asc Hb)) as (H1 & H2 & _ & H3). split; [|split; auto].
      apply built_of. unfold set_bitxor. eapply (@started_ok T W nalloc cmp tclone laws lawful _ _ (two_rep cmp (syml cmp))); eauto; [apply sym_next_ok|].
      rewrite (elems_len Ha), (elems_len Hb). lia.
    Qed.
    Theorem C41_bitor : forall a b w, valid cmp a -> valid cmp b ->
      exists R, built (set_bitor cmp nalloc tclone a b w) R /\ ascending cmp R /\
        (forall x, In x R <-> In x (elems a) \/ (In x (elems b) /\ ~ member cmp x (elems a))).
    Proof.
      intros a b w Ha Hb. destruct (set_two_ok (unionl cmp) Ha Hb) as (it & E & HR). exists (unionl cmp (elems a) (elems b)).
      pose proof (@unionl_spec _ cmp laws _ _ _ (le_n _) (elems_asc Ha) (elems_asc Hb)) as (H1 & H2 & _ & H3). split; [|split; auto].
      apply built_of. unfold set_bitor. eapply (@started_ok T W nalloc cmp tclone laws lawful _ _ (two_rep cmp (unionl cmp))); eauto; [apply union_next_ok|].
      rewrite (elems_len Ha), (elems_len Hb). lia.
    Qed.
    Theorem C41_bitand : forall a b w, valid cmp a -> valid cmp b ->
      exists R, built (set_bitand cmp nalloc tclone a b w) R /\ ascending cmp R /\
        (forall x, In x R <-> if set_len a <=? set_len b then In x (elems a) /\ member cmp x (elems b)
                             else In x (elems b) /\ member cmp x (elems a)).
    Proof.
      intros a b w Ha Hb. destruct (set_intersection_ok Ha Hb) as (it & E & HR). exists (small_first cmp a b).
      assert (HA : ascending cmp (small_first cmp a b)) by (unfold small_first; destruct (_ <=? _); apply asc_filter; now apply elems_asc).
      split; [|split; [exact HA|]].
      - apply built_of. unfold set_bitand. eapply (@started_ok T W nalloc cmp tclone laws lawful _ _ (irep cmp)); eauto; [apply (inter_next_ok laws)|].
        rewrite (elems_len Ha), (elems_len Hb). unfold small_first.
        pose proof (interl_length cmp (elems a) (elems b)). pose proof (interl_length cmp (elems b) (elems a)). destruct (_ <=? _); lia.
      - intros x. unfold small_first. destruct (_ <=? _); apply interl_In.
    Qed.
  End Alloc.
End SetProps.

(** ** Concrete cases meeting the hypotheses *)
Definition evens : bset nat := nset (map (fun i => 2 * i) (seq 0 30)).
Definition threes : bset nat := nset (map (fun i => 3 * i) (seq 0 20)).
Definition few : bset nat := nset [1; 5; 1000].
Definition many : bset nat := nset (seq 0 100).

Example ex_sets : valid Nat.compare evens /\ valid Nat.compare threes /\ valid Nat.compare few /\ valid Nat.compare many /\
  bheight evens = 1 /\ bheight many = 2.
Proof. do 4 (split; [apply nset_valid|]). vm_compute. auto. Qed.

Definition run {S} (o : outcome Empty_set S) (next : S -> outcome Empty_set (option nat * S)) (n : nat) : option (list (option nat)) :=
  match o with Ret it => match steps next n it with Ret (l, _) => Some l | _ => None end | _ => None end.
(** both strategies occur *)
Example ex_difference : run (set_difference few many) (diff_next Nat.compare) 3 = Some [Some 1000; None; None] /\
  (match set_difference few many with Ret (DSearch _ _) => true | _ => false end) = true /\
  run (set_difference evens threes) (diff_next Nat.compare) 4 = Some [Some 2; Some 4; Some 8; Some 10] /\
  (match set_difference evens threes with Ret (DStitch _ _) => true | _ => false end) = true.
Proof. vm_compute. auto. Qed.
Example ex_intersection : run (set_intersection many few) (inter_next Nat.compare) 3 = Some [Some 1; Some 5; None] /\
  run (set_intersection evens threes) (inter_next Nat.compare) 4 = Some [Some 0; Some 6; Some 12; Some 18].
Proof. vm_compute. auto. Qed.
Example ex_union : run (set_two evens threes) (union_next Nat.compare) 5 = Some [Some 0; Some 2; Some 3; Some 4; Some 6] /\
  run (set_two evens threes) (sym_next Nat.compare) 5 = Some [Some 2; Some 3; Some 4; Some 8; Some 9].
Proof. vm_compute. auto. Qed.
Example ex_relations : is_subset Nat.compare (nset [1; 5]) many = Ret true /\ is_subset Nat.compare few many = Ret false /\
  is_disjoint Nat.compare few threes = Ret true /\ is_disjoint Nat.compare evens threes = Ret false.
Proof. vm_compute. auto. Qed.

(** equal but different objects *)
Definition pset : bset (nat * nat) := mk cmp1 [((3, 30), tt); ((1, 10), tt); ((2, 20), tt)].
Example ex_pset : valid cmp1 pset /\ set_get (looks_for Nat.compare fst 2) pset = Ret (Some (2, 20)) /\
  (let '(o, s', _) := set_replace cmp1 grant (2, 99) pset tt in o = Ret (Some (2, 20)) /\ elems s' = [(1, 10); (2, 99); (3, 30)]) /\
  (let '(o, s', _) := set_try_insert cmp1 grant (2, 99) pset tt in o = Ret false /\ elems s' = [(1, 10); (2, 20); (3, 30)]) /\
  (let '(o, s') := set_take (looks_for Nat.compare fst 1) pset in o = Ret (Some (1, 10)) /\ elems s' = [(2, 20); (3, 30)]).
Proof. split; [apply (mk_valid cmp1_laws)|]. vm_compute. auto 10. Qed.

Definition copy (x : nat) (w : unit) : outcome Empty_set nat * unit := (Ret x, w).
Example ex_operators : clone_lawful Nat.compare copy /\
  (let '(o, s, _) := set_bitand Nat.compare grant copy evens threes tt in o = Ret tt /\ elems s = map (fun i => 6 * i) (seq 0 10)).
Proof. split; [intros x w y w' E; injection E; intros; subst; apply Nat.compare_refl|]. vm_compute. auto. Qed.

Print Assumptions C31_difference.
Print Assumptions C31_symmetric_difference.
Print Assumptions C31_union.
Print Assumptions C31_intersection.
Print Assumptions C31_intersection_membership.
Print Assumptions C32_is_subset.
Print Assumptions C32_is_superset.
Print Assumptions C32_is_disjoint.
Print Assumptions C34_get.
Print Assumptions C34_contains.
Print Assumptions C34_take.
Print Assumptions C34_remove.
Print Assumptions C34_try_insert.
Print Assumptions C34_replace.
Print Assumptions C41_sub.
Print Assumptions C41_bitxor.
Print Assumptions C41_bitor.
Print Assumptions C41_bitand.
