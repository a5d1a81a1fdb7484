(** * HistoryProofs: every step of a program refines the specification *)
From Coq Require Import List Arith Lia Bool Sorted Permutation.
From Verif Require Import Base MapSpec MergeSpec SpecFacts IterSpec BTreeModel BTreeInv BTreeLemmas BTreeSearch BTreeInsert BTreeRemove
  BTreeIterModel BTreeStep BTreeIterProofs BTreeRange BTreeBulkModel BTreeBorder BTreeSplit BTreeAppend BTreeClone BTreeOps BTreeEntry BTreeSetModel BTreeViewModel BTreeViews
  BTreeSets BTreeCollect BTreeWrites Properties_BTree Properties_BTree2 HistoryModel HistorySpec.
Import ListNotations.
Set Implicit Arguments.

Section Proofs.
  Variables (K V Q : Type) (cmp : K -> K -> comparison) (qcmp : Q -> Q -> comparison) (borrow : K -> Q).
  Hypothesis laws : ord_laws cmp.
  Hypothesis blaws : borrow_laws cmp qcmp borrow.
  Notation kv := (K * V)%type.
  Variables (W : Type) (nalloc : bool -> W -> option reserve_error * W).
  Variables (kclone : K -> W -> outcome reserve_error K * W) (vclone : V -> W -> outcome reserve_error V * W).
  Hypothesis kclone_same : forall k w k' w', kclone k w = (Ret k', w') -> cmp k k' = Eq.
  Variables (eqb : kv -> kv -> bool) (pcmp : kv -> kv -> option comparison).

  (** the allocator refuses with [e] in some state; an element's clone function,
      or the allocator, ends with [u] in some state *)
  Definition no_memory (e : reserve_error) : Prop := exists internal w w', nalloc internal w = (Some e, w').
  Definition clone_fails (u : outcome reserve_error unit) : Prop :=
    (exists e, u = Err e /\ no_memory e) \/
    (exists k w, omap (fun _ => tt) (fst (kclone k w)) = u) \/ (exists v w, omap (fun _ => tt) (fst (vclone v w)) = u).

  Notation step := (step nalloc cmp qcmp borrow kclone vclone eqb pcmp).
  Notation copy := (cloned kclone vclone).
  Notation spec := (spec cmp qcmp borrow eqb pcmp no_memory copy clone_fails).
  Notation gave_up := (gave_up cmp no_memory).

  Definition rep (s : regs K V) (S : nat -> list kv) : Prop := forall r, valid cmp (s r) /\ entries (s r) = S r.

  Lemma rep_upd s S r m l : rep s S -> valid cmp m -> entries m = l -> rep (upd s r m) (upd S r l).
  Proof. intros H Hm El i. unfold upd. destruct (i =? r); auto. Qed.
  Lemma rep_same s S S' : rep s S -> same S S' -> rep s S'.
  Proof. intros H E i. rewrite E. apply H. Qed.
  Lemma same_refl (S : nat -> list kv) : same S S.
  Proof. intros i. reflexivity. Qed.

  Lemma drop_all_ok (l : list (bmap K V)) : Forall (@droppable K V) l -> drop_all l = Ret tt.
  Proof. induction 1 as [|m l Hm H IH]; auto. cbn [drop_all]. destruct (C30_drop Hm) as (fr & -> & _). exact IH. Qed.
  Lemma drop_one (m : bmap K V) : valid cmp m -> drop_all [m] = Ret tt.
  Proof. intros H. apply drop_all_ok. constructor; [|constructor]. eapply valid_droppable; eauto. Qed.
  Lemma new_ok : valid cmp (@new K V) /\ entries (@new K V) = [].
  Proof. split; [split; [apply new_sound|constructor]|reflexivity]. Qed.

  Lemma refused_no_memory e : refused nalloc e -> no_memory e.
  Proof. intros H. exact H. Qed.

  (** the lists of split_off *)
  Lemma cut_filter (q : K -> comparison) (l r : list kv) : allq q Gt l -> notgt q r -> s_below q (l ++ r) = l /\ s_from q (l ++ r) = r.
  Proof.
    intros Hl Hr. unfold s_below, s_from. rewrite !filter_app.
    assert (E1 : filter (smaller q) l = l /\ filter (fun e : kv => negb (smaller q e)) l = []).
    { induction Hl as [|x l Hx Hl [I1 I2]]; auto. cbn [filter].
      assert (Ex : smaller q x = true) by (unfold smaller; now rewrite Hx). rewrite Ex. cbn [negb]. now rewrite I1. }
    assert (E2 : filter (smaller q) r = [] /\ filter (fun e : kv => negb (smaller q e)) r = r).
    { induction Hr as [|x r Hx Hr [I1 I2]]; auto. cbn [filter].
      assert (Ex : smaller q x = false) by (unfold smaller; destruct (q (fst x)); congruence). rewrite Ex. cbn [negb]. now rewrite I2. }
    destruct E1 as [-> ->], E2 as [-> ->]. cbn [app]. now rewrite app_nil_r.
  Qed.

  (** writes through the chosen references *)
  Fixpoint pairs_of (outs : list (option (item K V))) (ws : list (nat * (V -> V))) : list (addr * (K * (V -> V))) :=
    match ws with
    | [] => []
    | (i, f) :: ws' => match nth_error outs i with Some (Some x) => (snd x, (fst (fst x), f)) :: pairs_of outs ws' | _ => pairs_of outs ws' end
    end.
  Lemma pairs_chosen outs ws : chosen outs ws = map (fun w => (fst w, snd (snd w))) (pairs_of outs ws).
  Proof. induction ws as [|[i f] ws IH]; auto. cbn [chosen pairs_of]. destruct (nth_error outs i) as [[x|]|]; cbn [map]; now rewrite IH. Qed.
  Lemma pairs_s_chosen (outs : list (option (item K V))) ws : s_chosen (map (option_map fst) outs) ws = map snd (pairs_of outs ws).
  Proof.
    induction ws as [|[i f] ws IH]; auto. cbn [s_chosen pairs_of].
    assert (E : nth_error (map (option_map fst) outs) i = option_map (option_map fst) (nth_error outs i)) by apply nth_error_map. rewrite E.
    destruct (nth_error outs i) as [[x|]|]; cbn [option_map map fst snd]; now rewrite IH.
  Qed.
  Lemma pairs_place (m : bmap K V) (outs : list (option (item K V))) ws : Forall (points (bheight m) (bnode m)) (somes outs) ->
    Forall (fun w => place_of m (fst w) (fst (snd w))) (pairs_of outs ws).
  Proof.
    intros HF. assert (HI : forall i x, nth_error outs i = Some (Some x) -> In x (somes outs)).
    { clear. induction outs as [|y outs IH]; intros [|i] x H; cbn [nth_error] in H; try discriminate.
      - inversion H; subst. cbn. auto.
      - apply IH in H. destruct y; cbn; auto. }
    rewrite Forall_forall in HF. induction ws as [|[i f] ws IH]; cbn [pairs_of]; [constructor|].
    destruct (nth_error outs i) as [[x|]|] eqn:E; auto. constructor; auto. apply HI in E. destruct (HF _ E) as [H1 H2].
    split; cbn [fst snd]; [|exact H2]. exact (f_equal (option_map fst) H1).
  Qed.
  Lemma writes_ok (m : bmap K V) (outs : list (option (item K V))) ws : valid cmp m -> Forall (points (bheight m) (bnode m)) (somes outs) ->
    exists m', write_all (chosen outs ws) m = Some m' /\ valid cmp m' /\
      entries m' = s_writes cmp (s_chosen (map (option_map fst) outs) ws) (entries m).
  Proof.
    intros Hv HF. destruct (@write_all_ok K V cmp laws (pairs_of outs ws) m Hv (pairs_place m outs ws HF)) as (m' & E & H1 & _ & H2 & _).
    exists m'. rewrite pairs_chosen, pairs_s_chosen. auto.
  Qed.

  Definition good (c : op K V Q) (S : nat -> list kv) (res : outcome reserve_error (obs K V) * regs K V * W) : Prop :=
    let '(o, s', _) := res in (exists S', spec c S o S' /\ rep s' S') \/ gave_up c S o.

  Ltac eleft_ Sx := left; exists Sx; split.
  Lemma rep_keep s S r : rep s S -> rep (upd s r (s r)) S.
  Proof. intros H i. unfold upd. destruct (Nat.eqb_spec i r) as [->|]; auto. Qed.
  Lemma bad_dec lo hi : s_bad qcmp lo hi \/ ~ s_bad qcmp lo hi.
  Proof.
    destruct (bad_range qcmp lo hi) eqn:Eb; [left; now apply bad_range_spec|right]. intros Hb. apply bad_range_spec in Hb. congruence.
  Qed.
  Lemma s_get_update q f (l : list kv) : s_get q (s_update q f l) = option_map (fun x => (fst x, f (snd x))) (s_get q l).
  Proof.
    unfold s_get, s_update. induction l as [|x l IH]; auto. cbn [map find]. destruct (hit q x) eqn:Eh; [|rewrite Eh; exact IH].
    assert (E : hit q (fst x, f (snd x)) = true) by exact Eh. now rewrite E.
  Qed.
  Lemma s_update_id q f (l : list kv) : s_get q l = None -> s_update q f l = l.
  Proof.
    intros Eg. unfold s_update. rewrite <- (map_id l) at 2. apply map_ext_in. intros e He.
    assert (Hh : hit q e = false) by (eapply find_none in Eg; eauto). now rewrite Hh.
  Qed.

  Lemma insert_step r k v s S w : rep s S -> good (Insert r k v) S (step (Insert r k v) s w).
  Proof.
    intros H. destruct (H r) as [[Hm Hs] E]. unfold good. cbn [HistoryModel.step].
    pose proof (@try_insert_ok K V W nalloc cmp laws k v (s r) w Hm Hs) as HI.
    destruct (try_insert nalloc cmp k v (s r) w) as [[o m'] w']. destruct o; try contradiction; cbn [fmap omap].
    - destruct HI as (-> & Hm' & E' & _). eleft_ (upd S r (s_insert cmp k v (S r))).
      + left. rewrite E. split; auto. apply same_refl.
      + apply rep_upd; auto; [|now rewrite E', E]. split; auto. rewrite E'. now apply s_insert_sorted.
    - destruct HI as (Hr & Hg & [[-> E0]|(_ & H11 & _)]).
      + eleft_ S.
        * right. exists e. rewrite <- E. repeat (split; auto). 
        * intros i. unfold upd. destruct (Nat.eqb_spec i r) as [->|]; auto.
      + right. exists e. rewrite <- E. auto.
  Qed.
  Lemma replace_step r k v s S w : rep s S -> good (Replace r k v) S (step (Replace r k v) s w).
  Proof.
    intros H. destruct (H r) as [[Hm Hs] E]. unfold good. cbn [HistoryModel.step].
    pose proof (@replace_key_ok K V W nalloc cmp laws k v (s r) w Hm Hs) as HI.
    destruct (replace_key nalloc cmp k v (s r) w) as [[o m'] w']. destruct o; try contradiction; cbn [fmap omap].
    - destruct HI as (-> & Hm' & E' & _). eleft_ (upd S r (entries m')).
      + left. rewrite <- E, <- E'. split; auto. apply same_refl.
      + apply rep_upd; auto. split; auto. rewrite E'. destruct (s_get (cmp k) (entries (s r))); [now apply s_rekey_sorted|now apply s_insert_sorted].
    - destruct HI as (Hr & Hg & [[-> E0]|(_ & H11 & _)]).
      + eleft_ S.
        * right. exists e. rewrite <- E. repeat (split; auto).
        * apply rep_keep; auto.
      + right. exists e. rewrite <- E. auto.
  Qed.

  Lemma take_step r x s S w : rep s S -> good (Take r x) S (step (Take r x) s w).
  Proof.
    intros H. destruct (H r) as [Hv E]. unfold good. cbn [HistoryModel.step].
    destruct (C26_remove_entry blaws x Hv) as (m' & E1 & Hv' & E2 & _). unfold look. unfold finds in *. rewrite E1. cbn [cast fmap omap].
    eleft_ (upd S r (entries m')); [|apply rep_upd; auto]. cbn [HistorySpec.spec]. rewrite <- E, <- E2. split; auto. apply same_refl.
  Qed.
  Lemma remove_step r x s S w : rep s S -> good (Remove r x) S (step (Remove r x) s w).
  Proof.
    intros H. destruct (H r) as [Hv E]. unfold good. cbn [HistoryModel.step].
    destruct (C26_remove blaws x Hv) as (m' & E1 & Hv' & E2 & _). unfold look. unfold finds in *. rewrite E1. cbn [cast fmap omap].
    eleft_ (upd S r (entries m')); [|apply rep_upd; auto]. cbn [HistorySpec.spec]. rewrite <- E, <- E2. split; auto. apply same_refl.
  Qed.

  Lemma get_step r x s S w : rep s S -> good (Get r x) S (step (Get r x) s w) /\ good (GetKeyValue r x) S (step (GetKeyValue r x) s w) /\ good (Contains r x) S (step (Contains r x) s w) /\ good (Index r x) S (step (Index r x) s w).
  Proof.
    intros H. destruct (H r) as [Hv E]. unfold good. cbn [HistoryModel.step]. unfold look.
    destruct (C26_get blaws x Hv) as (E1 & E2 & E3 & E4). unfold finds in *. rewrite E1, E2, E3, E4. cbn [cast fmap omap]. rewrite E.
    split; [|split; [|split]]; (eleft_ S; [cbn [HistorySpec.spec]; split; [|apply same_refl]|auto]); try reflexivity.
    destruct (s_get _ (S r)); reflexivity.
  Qed.

  Lemma get_mut_step r x f s S w : rep s S -> good (GetMut r x f) S (step (GetMut r x f) s w).
  Proof.
    intros H. destruct (H r) as [[Hm Hs] E]. unfold good. cbn [HistoryModel.step]. unfold look.
    pose proof (cutq_sorted x blaws Hs) as Hq. pose proof (get_mut_ok Hm Hq) as HG.
    destruct (s_get (fun k => qcmp x (borrow k)) (entries (s r))) as [y|] eqn:Eg.
    - destruct HG as (a & -> & Hp). cbn [cast].
      destruct (update_at_ok (write_val f) Hm Hp) as (m' & l & l' & Eu & Hm' & E1 & E2 & _). rewrite Eu.
      assert (Hy : qcmp x (borrow (fst y)) = Eq).
      { apply find_some in Eg. destruct Eg as [_ Eg]. unfold hit in Eg. destruct (qcmp x (borrow (fst y))); congruence. }
      assert (Ee : entries m' = s_update (fun k => qcmp x (borrow k)) f (entries (s r))).
      { rewrite E1 in Hs. destruct (sorted_mid_q laws _ _ _ Hs) as [A1 A2]. rewrite E1, E2, s_update_some; auto.
        - eapply Forall_impl; [|exact A1]. cbn beta. intros e He. now rewrite (cmp_eq_l (q_laws blaws) _ _ _ Hy), (b_same blaws).
        - eapply Forall_impl; [|exact A2]. cbn beta. intros e He. now rewrite (cmp_eq_l (q_laws blaws) _ _ _ Hy), (b_same blaws). }
      eleft_ (upd S r (entries m')).
      + cbn [HistorySpec.spec]. rewrite <- E, Eg, Ee. split; auto. apply same_refl.
      + apply rep_upd; auto. split; auto. rewrite Ee. now apply s_update_sorted.
    - rewrite HG. cbn [cast]. eleft_ S; [|auto]. cbn [HistorySpec.spec]. rewrite <- E, Eg. split; auto.
      intros i. unfold upd. destruct (Nat.eqb_spec i r) as [->|]; auto. rewrite <- E. symmetry.
      unfold s_update. rewrite <- (map_id (entries (s r))) at 2. apply map_ext_in. intros e He.
      assert (Hh : hit (fun k => qcmp x (borrow k)) e = false) by (eapply find_none in Eg; eauto). now rewrite Hh.
  Qed.

  Lemma len_step r s S w : rep s S -> good (Len r) S (step (Len r) s w) /\ good (IsEmpty r) S (step (IsEmpty r) s w).
  Proof.
    intros H. destruct (H r) as [[(_ & _ & Hl) _] E]. unfold good. cbn [HistoryModel.step]. unfold is_empty, len. rewrite Hl, E.
    split; (eleft_ S; [cbn [HistorySpec.spec]; split; [|apply same_refl]|auto]); auto. destruct (S r); reflexivity.
  Qed.

  Lemma clear_step r s S w : rep s S -> good (New r) S (step (New r) s w) /\ good (Clear r) S (step (Clear r) s w).
  Proof.
    intros H. destruct (H r) as [Hv E]. unfold good. cbn [HistoryModel.step]. rewrite drop_one by auto. cbn [after].
    split; (eleft_ (upd S r ([] : list kv)); [cbn [HistorySpec.spec]; split; [reflexivity|apply same_refl]|]);
      apply rep_upd; auto; apply new_ok.
  Qed.

  Lemma append_step r t s S w : r <> t -> rep s S -> good (Append r t) S (step (Append r t) s w).
  Proof.
    intros Hne H. destruct (H r) as [[Hm Hs] E]. destruct (H t) as [[Hm2 Hs2] E2]. unfold good. cbn [HistoryModel.step].
    pose proof (@append_ok K V W nalloc cmp (s r) (s t) w Hm Hm2) as HA.
    destruct (append nalloc cmp (s r) (s t) w) as [[[[o m] m2] mi] w']. destruct o; try contradiction.
    - destruct HA as (G1 & G2 & G3 & G4 & G5). rewrite merge2_append in G3 by auto.
      assert (HG : exists S', spec (Append r t) S (Ret OUnit) S' /\ rep (upd (upd s r m) t m2) S').
      { exists (upd (upd S r (entries m)) t (entries m2)). split.
        - cbn [HistorySpec.spec]. split; auto. rewrite G3, G4, E, E2. apply same_refl.
        - apply rep_upd; auto; [apply rep_upd; auto; split; auto; rewrite G3; now apply s_append_sorted|].
          split; auto. rewrite G4. constructor. }
      destruct mi as [mi|]; [|cbn [cast fmap omap]; auto].
      destruct G5 as ((f1 & f2 & -> & -> & _) & _). cbn [cast fmap omap]. auto.
    - destruct HA as ((i & w0 & e & Hr) & _ & _ & mi' & -> & d & lo & l' & r' & _ & _ & (f1 & f2 & -> & -> & _) & _).
      right. cbn [HistorySpec.gave_up cast fmap omap]. split; auto. exists e, i, w0, w'. auto.
  Qed.

  Lemma split_step r x t s S w : r <> t -> rep s S -> good (SplitOff r x t) S (step (SplitOff r x t) s w).
  Proof.
    intros Hne H. destruct (H r) as [[Hm Hs] E]. destruct (H t) as [Hv2 E2]. unfold good. cbn [HistoryModel.step]. unfold look.
    pose proof (cutq_sorted x blaws Hs) as Hq. pose proof (@split_off_ok K V W nalloc _ (s r) w Hm Hq) as HS.
    destruct (split_off nalloc (fun k => qcmp x (borrow k)) (s r) w) as [[[o m] ds] w']. destruct HS as [Hd HS]. destruct o as [m2|e| | |]; try contradiction.
    - destruct HS as (-> & H1 & H2 & Ee & Hl & Hr). rewrite drop_one by auto. cbn [after].
      destruct (cut_filter Hl Hr) as [F1 F2]. rewrite <- Ee in F1, F2. rewrite Ee in Hs. apply sorted_app in Hs. destruct Hs as [S1 S2].
      eleft_ (upd (upd S r (entries m)) t (entries m2)).
      + left. split; auto. rewrite <- E, F1, F2. apply same_refl.
      + apply rep_upd; auto; [apply rep_upd; auto; split; auto|]. split; auto.
    - destruct HS as (-> & i & w0 & He). rewrite drop_all_ok by auto. cbn [after fmap omap]. eleft_ S.
      + right. exists e. split; auto. split; [exists i, w0, w'; auto|apply same_refl].
      + apply rep_keep; auto.
  Qed.

  Lemma fault_fails A (o : outcome reserve_error A) w' : fault nalloc kclone vclone o w' ->
    clone_fails (omap (fun _ => tt) o) /\ forall a, o <> Ret a.
  Proof.
    intros Hf. split; [|destruct o; [contradiction|discriminate..]]. unfold clone_fails.
    destruct o as [a|e| | |]; [contradiction| | | |]; cbn [fault omap] in *.
    - destruct Hf as [(i & w & Hf)|[(k & w & Hf)|(v & w & Hf)]]; [left; exists e; split; auto; exists i, w, w'; auto|right; left; exists k, w|right; right; exists v, w]; now rewrite Hf.
    - destruct Hf as [(k & w & Hf)|(v & w & Hf)]; right; [left; exists k, w|right; exists v, w]; now rewrite Hf.
    - destruct Hf as [(k & w & Hf)|(v & w & Hf)]; right; [left; exists k, w|right; exists v, w]; now rewrite Hf.
    - destruct Hf as [(k & w & Hf)|(v & w & Hf)]; right; [left; exists k, w|right; exists v, w]; now rewrite Hf.
  Qed.
  Lemma cloned_sorted l l' : Forall2 copy l l' -> sorted cmp l -> sorted cmp l'.
  Proof.
    intros HF Hs. eapply (sorted_alike laws); [|exact Hs]. clear -HF kclone_same.
    induction HF as [|x y l r [(w1 & w2 & H1) _] HF IH]; constructor; auto. eapply kclone_same; eauto.
  Qed.

  Lemma clone_step r t s S w : rep s S -> good (TryClone r t) S (step (TryClone r t) s w) /\ good (Clone r t) S (step (Clone r t) s w).
  Proof.
    intros H. destruct (H r) as [[Hm Hs] E]. destruct (H t) as [Hv2 E2]. unfold good. cbn [HistoryModel.step]. unfold clone.
    pose proof (@try_clone_ok K V W nalloc kclone vclone (s r) w Hm) as HC.
    destruct (try_clone nalloc kclone vclone (s r) w) as [[o d] w']. destruct HC as [Hd HC].
    destruct o as [m'|e| | |].
    1:{ destruct HC as (-> & Hm' & HF). rewrite drop_one by auto. cbn [after].
        assert (G : exists l, Forall2 copy (S r) l /\ same (upd S t l) (upd S t (entries m'))) by (exists (entries m'); rewrite <- E; split; auto; apply same_refl).
        assert (G2 : rep (upd s t m') (upd S t (entries m'))) by (apply rep_upd; auto; split; auto; eapply cloned_sorted; eauto).
        split; eleft_ (upd S t (entries m')); auto; left; auto. }
    all: destruct (fault_fails _ _ HC) as [Hf _]; cbn [omap] in Hf; rewrite drop_all_ok by auto; cbn [after cast fmap omap];
      (split; (eleft_ S; [right; eexists; split; [exact Hf|]; cbn [omap]; split; [reflexivity|]; split; [discriminate|apply same_refl]|auto])).
  Qed.

  Lemma extend_step r l s S w : rep s S -> good (Extend r l) S (step (Extend r l) s w).
  Proof.
    intros H. destruct (H r) as [Hv E]. unfold good. cbn [HistoryModel.step].
    pose proof (@extend_ok K V W nalloc cmp laws l (s r) w Hv) as HE.
    destruct (extend nalloc cmp l (s r) w) as [[o m'] w']. destruct o; try contradiction; cbn [cast fmap omap].
    - destruct HE as (Hv' & Ee). eleft_ (upd S r (entries m')); [|apply rep_upd; auto]. split; auto. rewrite Ee, E. apply same_refl.
    - destruct HE as (d & x & rest & m1 & e & _ & _ & _ & Hr & _). right. split; auto. exists e. exact Hr.
  Qed.

  Lemma iterate_step r cs s S w : rep s S -> good (Iterate r cs) S (step (Iterate r cs) s w).
  Proof.
    intros H. destruct (H r) as [Hv E]. unfold good. cbn [HistoryModel.step].
    destruct (C22_iter cs Hv) as (it & outs & it' & -> & -> & Hi). cbn [cast]. eleft_ S; [|auto]. cbn [HistorySpec.spec]. rewrite <- E.
    destruct (dq_run cs (entries (s r))) as [ideal rest]. destruct Hi as [-> ->]. cbn [fst]. split; auto. apply same_refl.
  Qed.
  Lemma into_step r cs s S w : rep s S -> good (IntoIter_ r cs) S (step (IntoIter_ r cs) s w).
  Proof.
    intros H. destruct (H r) as [Hv E]. unfold good. cbn [HistoryModel.step]. pose proof Hv as [((Hb1 & Hb2) & Hs & Hl) _].
    pose proof (kids_shape _ _ _ Hb2) as Hsh.
    destruct (map_into_iter_ok (s r) Hsh Hl) as (it & Ei & Hok); [apply Hs|]. rewrite Ei.
    destruct (into_calls cs Hok) as (outs & it' & a & b & E2 & Hok' & E3). rewrite E2. cbn [cast].
    destruct (drop_into_iter_ok Hsh Hok') as (fr & -> & _). cbn [cast fmap omap fst].
    eleft_ (upd S r ([] : list kv)); [|apply rep_upd; auto; apply new_ok]. cbn [HistorySpec.spec]. rewrite <- E.
    unfold entries in E3 at 1. rewrite seg_all in E3. unfold entries. rewrite E3. split; auto. apply same_refl.
  Qed.

  Lemma range_step r lo hi cs s S w : rep s S -> good (RangeOver r lo hi cs) S (step (RangeOver r lo hi cs) s w).
  Proof.
    intros H. destruct (H r) as [[((Hb1 & Hb2) & Hss & Hl) Hs] E]. unfold good. cbn [HistoryModel.step].
    pose proof (kids_shape _ _ _ Hb2) as Hsh. destruct (map_range_ok blaws lo hi (s r) Hsh Hs) as [R1 R2].
    destruct (bad_dec lo hi) as [Hb|Hb].
    - rewrite (R1 Hb). cbn [cast fmap omap]. eleft_ S; [|auto]. left. repeat (split; auto).
    - destruct (R2 Hb) as (it & a & b & -> & Hbt & Es). destruct (range_calls cs Hbt) as (outs & r' & a' & b' & -> & _ & E3 & _). cbn [cast].
      eleft_ S; [|auto]. right. split; auto. split; [|apply same_refl]. rewrite <- E. unfold entries in *. rewrite <- Es, E3. reflexivity.
  Qed.
  Lemma range_mut_step r lo hi cs ws s S w : rep s S -> good (RangeMut r lo hi cs ws) S (step (RangeMut r lo hi cs ws) s w).
  Proof.
    intros H. destruct (H r) as [Hv E]. pose proof Hv as [((Hb1 & Hb2) & Hss & Hl) Hs]. unfold good. cbn [HistoryModel.step].
    pose proof (kids_shape _ _ _ Hb2) as Hsh. destruct (map_range_ok blaws lo hi (s r) Hsh Hs) as [R1 R2].
    destruct (bad_dec lo hi) as [Hb|Hb].
    - rewrite (R1 Hb). cbn [cast fmap omap]. eleft_ S; [|auto]. left. repeat (split; auto).
    - destruct (R2 Hb) as (it & a & b & -> & Hbt & Es). destruct (range_calls cs Hbt) as (outs & r' & a' & b' & -> & _ & E3 & Hpt). cbn [cast].
      destruct (@writes_ok (s r) outs ws Hv Hpt) as (m' & -> & Hv' & Ee).
      assert (Eo : fst (dq_run cs (s_range qcmp borrow lo hi (S r))) = map (option_map fst) outs).
      { rewrite <- E. unfold entries in *. rewrite <- Es, E3. reflexivity. }
      eleft_ (upd S r (entries m')); [|apply rep_upd; auto]. right. split; auto. rewrite Eo. split; auto. rewrite <- E, <- Ee. apply same_refl.
  Qed.
  Lemma iter_mut_step r cs ws s S w : rep s S -> good (IterMut r cs ws) S (step (IterMut r cs ws) s w).
  Proof.
    intros H. destruct (H r) as [Hv E]. pose proof Hv as [((Hb1 & Hb2) & Hss & Hl) Hs]. unfold good. cbn [HistoryModel.step].
    pose proof (kids_shape _ _ _ Hb2) as Hsh. destruct (map_iter_ok (s r) Hsh Hl) as (it & -> & Hok).
    destruct (iter_calls cs Hok) as (outs & it' & a & b & -> & _ & E3 & Hpt). cbn [cast].
    destruct (@writes_ok (s r) outs ws Hv Hpt) as (m' & -> & Hv' & Ee).
    assert (Eo : fst (dq_run cs (S r)) = map (option_map fst) outs).
    { rewrite <- E. unfold entries in E3 at 1. rewrite seg_all in E3. unfold entries. rewrite E3. reflexivity. }
    eleft_ (upd S r (entries m')); [|apply rep_upd; auto]. cbn [HistorySpec.spec]. cbv zeta. rewrite Eo. split; auto. rewrite <- E, <- Ee. apply same_refl.
  Qed.

  Lemma entry_or_step r k f v s S w : rep s S -> good (EntryOr r k f v) S (step (EntryOr r k f v) s w).
  Proof.
    intros H. destruct (H r) as [Hv E]. unfold good. cbn [HistoryModel.step].
    pose proof (@try_entry_stands K V cmp laws W nalloc k (s r) w Hv) as HT.
    destruct (try_entry nalloc cmp k (s r) w) as [[o m1] w1]. destruct o as [en|e| | |]; try contradiction.
    - destruct HT as (Hv1 & Hst & E1 & Hb1 & _).
      destruct (@and_modify_stands K V cmp laws m1 k en f Hv1 Hst) as (en' & m2 & -> & Hv2 & Hst2 & E2 & _ & _).
      pose proof (@or_insert_stands K V cmp laws W nalloc m2 k en' (fun w => (Ret v, w)) w1 Hv2 Hst2) as HO.
      destruct (or_try_insert_with nalloc m2 en' (fun w => (Ret v, w)) w1) as [[o3 m3] w3]. cbv beta in HO.
      rewrite E2, E1, E in HO. rewrite s_get_update in HO. cbn [HistorySpec.spec HistorySpec.gave_up].
      destruct (s_get (cmp k) (S r)) as [x|] eqn:Eg; cbn [option_map] in HO.
      + destruct HO as (a & -> & -> & -> & Hr). destruct Hr as (_ & -> & _). cbn [snd].
        left. exists (upd S r (entries m2)). split; [split; auto; rewrite E2, E1, E; apply same_refl|]. apply rep_upd; auto.
      + assert (Hu : s_update (cmp k) f (S r) = S r) by (now apply s_update_id).
        destruct o3 as [a|e| | |]; try contradiction.
        * destruct HO as (Hv3 & E3 & _ & -> & _). cbn [snd]. left. exists (upd S r (entries m3)).
          split; [left; split; auto; rewrite E3, Hu; apply same_refl|]. apply rep_upd; auto.
        * destruct HO as (Hr & [[-> E0]|(_ & H11 & _)]); cbn [fmap omap].
          -- left. exists S. split; [right; exists e; split; auto; split; auto; split; [rewrite E2, E1, E, Hu in E0; exact E0|apply same_refl]|].
             intros i. unfold upd. destruct (Nat.eqb_spec i r) as [->|]; [|auto]. split; auto. now rewrite E2, E1, E.
          -- right. exists e. split; auto. split; auto. split; [exact Eg|]. rewrite E2, E1, E, Hu in H11. exact H11.
    - destruct HT as (Hr & -> & He). cbn [fmap omap]. left. exists S. cbn [HistorySpec.spec]. rewrite <- E, He. cbn.
      split; [right; exists e; split; auto; split; auto; split; [reflexivity|apply same_refl]|]. apply rep_keep; auto.
  Qed.
  Lemma entry_remove_step r k s S w : rep s S -> good (EntryRemove r k) S (step (EntryRemove r k) s w).
  Proof.
    intros H. destruct (H r) as [Hv E]. unfold good. cbn [HistoryModel.step].
    pose proof (@try_entry_stands K V cmp laws W nalloc k (s r) w Hv) as HT.
    destruct (try_entry nalloc cmp k (s r) w) as [[o m1] w1]. destruct o as [[hd|k' hd]|e| | |]; try contradiction.
    - destruct HT as (Hv1 & Hst & E1 & _ & -> & _).
      destruct (remove_at_stands laws Hv Hst) as (x & m' & Eg & -> & Hv' & E2 & _). cbn [cast fmap omap].
      eleft_ (upd S r (entries m')); [|apply rep_upd; auto]. left. rewrite <- E, Eg, <- E2. split; auto. apply same_refl.
    - destruct HT as (Hv1 & (_ & _ & _ & _ & _ & Eg & l & r' & _ & _ & El & Hl & Hr) & E1 & _).
      eleft_ (upd S r (entries m1)); [|apply rep_upd; auto]. left. rewrite <- E, <- E1, Eg. split; auto.
      rewrite El at 1. rewrite s_remove_none, <- El by auto. apply same_refl.
    - destruct HT as (Hr & -> & He). cbn [fmap omap]. eleft_ S; [|apply rep_keep; auto]. right. exists e. split; auto. split; auto.
      split; [congruence|apply same_refl].
  Qed.

  Lemma compare_step r t s S w : rep s S -> good (Equal r t) S (step (Equal r t) s w) /\ good (Compare r t) S (step (Compare r t) s w).
  Proof.
    intros H. destruct (H r) as [[Hm Hs] E]. destruct (H t) as [[Hm2 Hs2] E2]. unfold good. cbn [HistoryModel.step].
    rewrite (@map_partial_cmp_ok K V) by auto. destruct (map_eq_ok eqb Hm Hm2) as (b & -> & Hb). cbn [cast fmap omap].
    rewrite E, E2 in *. split; (eleft_ S; [|auto]); cbn [HistorySpec.spec].
    - exists b. split; auto. split; auto. apply same_refl.
    - split; auto. apply same_refl.
  Qed.

  Theorem step_good c s S w : legal c -> rep s S -> good c S (step c s w).
  Proof.
    intros Hl H. destruct c; cbn [legal] in Hl.
    - now apply clear_step.
    - now apply insert_step.
    - now apply replace_step.
    - now apply remove_step.
    - now apply take_step.
    - now apply get_step.
    - now apply get_step.
    - now apply get_step.
    - now apply get_step.
    - now apply get_mut_step.
    - now apply len_step.
    - now apply len_step.
    - now apply clear_step.
    - now apply append_step.
    - now apply split_step.
    - now apply clone_step.
    - now apply clone_step.
    - now apply extend_step.
    - now apply iterate_step.
    - now apply range_step.
    - now apply iter_mut_step.
    - now apply range_mut_step.
    - now apply into_step.
    - now apply entry_or_step.
    - now apply entry_remove_step.
    - now apply compare_step.
    - now apply compare_step.
  Qed.

  Theorem run_agrees (P : regs K V -> (nat -> list kv) -> Prop) : (forall s S, rep s S -> P s S) ->
    forall l s S w, Forall (@legal K V Q) l -> rep s S ->
    agrees cmp qcmp borrow eqb pcmp no_memory copy clone_fails P S l (run nalloc cmp qcmp borrow kclone vclone eqb pcmp l s w).
  Proof.
    intros HP. induction l as [|c l IH]; intros s S w HL H; cbn [run]; [constructor|].
    inversion HL as [|? ? Hc HL']; subst. pose proof (@step_good c s S w Hc H) as HG.
    destruct (HistoryModel.step nalloc cmp qcmp borrow kclone vclone eqb pcmp c s w) as [[o s'] w']. destruct HG as [(S' & Hsp & Hr)|HG].
    - destruct o; try (eapply A_step; [exact Hsp|now apply HP|discriminate|discriminate|now apply IH]); (eapply A_dead; [exact Hsp|auto]).
    - now apply A_gave_up.
  Qed.
End Proofs.
