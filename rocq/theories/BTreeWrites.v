(** * BTreeWrites: writing through references delivered by the map *)
From Coq Require Import List Arith Lia Bool Sorted Permutation.
From Verif Require Import Base MapSpec SpecFacts MergeSpec IterSpec BTreeModel BTreeIterModel BTreeInv BTreeLemmas BTreeSearch BTreeInsert BTreeIter BTreeStep
  BTreeIterProofs BTreeRange BTreeOps BTreeViews.
Import ListNotations.
Set Implicit Arguments.

Section Writes.
  Variables (K V : Type) (cmp : K -> K -> comparison).
  Hypothesis laws : ord_laws cmp.
  Notation kv := (K * V)%type.
  Notation node := (node K V).
  Notation bmap := (bmap K V).
  Notation item := (item K V).
  Implicit Types (m : bmap).

  (** a write (the new value is [f] of the old one) through each of the references [fst w], in order *)
  Fixpoint write_all (ws : list (addr * (V -> V))) m : option bmap :=
    match ws with
    | [] => Some m
    | (a, f) :: ws' => match update_at a (write_val f) m with Some m' => write_all ws' m' | None => None end
    end.

  Lemma update_node_keys (p : list nat) (i : nat) (f : V -> V) : forall (n n' : node), update_node p i (write_val f) n = Some n' ->
    forall a, option_map fst (kv_at n' a) = option_map fst (kv_at n a).
  Proof.
    induction p as [|j p IH]; intros n n' E [pa ia]; cbn [update_node] in E.
    - destruct (pick i (kvs n)) as [[[a x] z]|] eqn:Ep; [|discriminate]. inversion E; subst. pose proof (pick_some _ _ Ep) as [Ek Hl].
      unfold kv_at. cbn [fst snd]. destruct pa as [|ja pa]; cbn [node_at edges]; [|reflexivity]. cbn [kvs].
      rewrite <- !nth_error_map, Ek, !map_app. reflexivity.
    - destruct (pick j (edges n)) as [[[a x] z]|] eqn:Ep; [|discriminate].
      destruct (update_node p i (write_val f) x) as [e'|] eqn:Eu; [|discriminate]. inversion E; subst. pose proof (pick_some _ _ Ep) as [Ek Hl].
      unfold kv_at. cbn [fst snd]. destruct pa as [|ja pa]; cbn [node_at kvs]; [reflexivity|]. cbn [edges]. rewrite Ek.
      destruct (Nat.eq_dec ja (length a)) as [->|Hne].
      + rewrite !nth_error_app2, Nat.sub_diag by lia. cbn [nth_error]. specialize (IH x e' Eu (pa, ia)). exact IH.
      + assert (E0 : nth_error (a ++ e' :: z) ja = nth_error (a ++ x :: z) ja); [|now rewrite E0].
        destruct (le_lt_dec (length a) ja); [rewrite !nth_error_app2 by lia|rewrite !nth_error_app1 by lia; reflexivity].
        destruct (ja - length a) eqn:Ed; [lia|reflexivity].
  Qed.

  (** the place of the key [k] *)
  Definition place_of m (a : addr) (k : K) : Prop := option_map fst (kv_at (bnode m) a) = Some k /\ length (fst a) <= bheight m.
  Lemma place_placed m a k : place_of m a k -> exists v, placed m a (k, v).
  Proof. intros [H1 H2]. destruct (kv_at (bnode m) a) as [[k0 v]|] eqn:E; inversion H1; subst. exists v. split; auto. Qed.

  (** the writes, said about lists: each changes the value of its key *)
  Definition s_writes (ws : list (K * (V -> V))) (l : list kv) : list kv :=
    fold_left (fun l w => s_update (cmp (fst w)) (snd w) l) ws l.

  Lemma write_all_ok (ws : list (addr * (K * (V -> V)))) : forall m, valid cmp m -> Forall (fun w => place_of m (fst w) (fst (snd w))) ws ->
    exists m', write_all (map (fun w => (fst w, snd (snd w))) ws) m = Some m' /\ valid cmp m' /\ len m' = len m /\
      entries m' = s_writes (map snd ws) (entries m) /\ map fst (entries m') = map fst (entries m).
  Proof.
    induction ws as [|[a [k f]] ws IH]; intros m [Hm Hs] HF; cbn [map write_all].
    - exists m. split; auto. split; [split; auto|]. auto.
    - inversion HF as [|? ? Ha HF']; subst. cbn [fst snd] in *. destruct (place_placed Ha) as [v Hp].
      destruct (write_ok laws f Hm Hs Hp) as (m1 & E & Hm1 & E1 & _ & Hh). rewrite E.
      assert (Hs1 : sorted cmp (entries m1)) by (rewrite E1; now apply s_update_sorted).
      destruct (IH m1 (conj Hm1 Hs1)) as (m' & E2 & Hv & El & Ee & Ek).
      { eapply Forall_impl; [|exact HF']. intros [b [kb fb]] [H1 H2]. cbn [fst snd] in *. split; [|now rewrite Hh].
        unfold update_at in E. destruct (update_node _ _ _ _) as [n'|] eqn:Eu; [|discriminate]. inversion E; subst. cbn [bnode].
        rewrite (update_node_keys _ _ _ _ Eu). exact H1. }
      exists m'. split; auto. split; auto. cbn [fst] in E1. split; [|split].
      + rewrite El. unfold len. rewrite (proj2 (proj2 Hm)), (proj2 (proj2 Hm1)), E1. unfold s_update. now rewrite map_length.
      + rewrite Ee, E1. reflexivity.
      + rewrite Ek, E1. apply s_update_keys.
  Qed.

  (** items of an iterator over [m]: distinct entries at their places *)
  Definition items_ok m (its : list item) : Prop :=
    Forall (fun x => placed m (snd x) (fst x)) its /\ NoDup (map snd its).

  Lemma sorted_NoDup (l : list kv) : sorted cmp l -> NoDup l.
  Proof.
    induction 1 as [|x l Hs IH HF]; constructor; auto. intros Hin. rewrite Forall_forall in HF. apply HF in Hin.
    rewrite (cmp_refl laws) in Hin. discriminate.
  Qed.
  Lemma NoDup_appl A (l r : list A) : NoDup (l ++ r) -> NoDup l.
  Proof. induction l as [|x l IH]; intros H; constructor; inversion H; subst; auto. intros Hin. apply H2. apply in_or_app. auto. Qed.
  Lemma NoDup_map_inv_fun A B (f : A -> B) l : NoDup (map f l) -> NoDup l.
  Proof. apply NoDup_map_inv. Qed.

  Lemma somes_map A B (f : A -> B) l : somes (map (option_map f) l) = map f (somes l).
  Proof. induction l as [|[x|] l IH]; simpl; auto. now rewrite IH. Qed.

  Lemma items_dq m ops l outs rest (its : list (option item)) : sorted cmp l -> dq_run ops l = (outs, rest) -> map (option_map fst) its = outs ->
    Forall (points (bheight m) (bnode m)) (somes its) -> items_ok m (somes its).
  Proof.
    intros Hs Hd Ho HF. split; [exact HF|].
    assert (Hn : NoDup (map fst (somes its))).
    { pose proof (dq_run_perm ops l) as HP. rewrite Hd in HP. subst outs. rewrite somes_map in HP.
      apply Permutation_sym in HP. eapply NoDup_appl. eapply Permutation_NoDup; [apply Permutation_sym, HP|]. now apply sorted_NoDup. }
    apply (NoDup_map_inv (fun a => kv_at (bnode m) a)). rewrite map_map.
    assert (E : map (fun x => kv_at (bnode m) (snd x)) (somes its) = map (fun x => Some (fst x)) (somes its)).
    { apply map_ext_in. intros x Hx. rewrite Forall_forall in HF. destruct (HF x Hx) as [H _]. exact H. }
    rewrite E, <- (map_map fst (@Some kv)). apply FinFun.Injective_map_NoDup; [|exact Hn]. intros x y Exy. congruence.
  Qed.

  Lemma items_place m its (ws : list (item * (V -> V))) : items_ok m its -> Forall (fun w => In (fst w) its) ws ->
    Forall (fun w => place_of m (fst w) (fst (snd w))) (map (fun w => (snd (fst w), (fst (fst (fst w)), snd w))) ws).
  Proof.
    intros [HF _] Hin. rewrite Forall_map. eapply Forall_impl; [|exact Hin]. intros w Hw. cbn [fst snd]. rewrite Forall_forall in HF.
    destruct (HF _ Hw) as [H1 H2]. split; cbn [fst snd]; [|exact H2]. exact (f_equal (option_map fst) H1).
  Qed.
End Writes.
