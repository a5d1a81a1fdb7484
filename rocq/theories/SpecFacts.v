(** * SpecFacts: the sorted-list specification is the one meant.  Laws of
    MapSpec and preservation of sortedness.  Nothing here refers to trees. *)
From Coq Require Import List Arith Lia Bool Sorted.
From Verif Require Import MapSpec MergeSpec.
Import ListNotations.
Set Implicit Arguments.

Section Facts.
  Variables (K V : Type) (cmp : K -> K -> comparison).
  Hypothesis laws : ord_laws cmp.
  Notation kv := (K * V)%type.
  Implicit Types (l r : list kv) (x y : kv).

  Lemma sorted_app l r : sorted cmp (l ++ r) -> sorted cmp l /\ sorted cmp r.
  Proof.
    induction l as [|x l IH]; simpl; intros H; [split; auto; constructor|]. apply sorted_cons in H. destruct H as [H1 H2].
    apply IH in H1. unfold above in H2. apply Forall_app in H2. destruct H2. split; [|tauto]. apply sorted_cons. split; [tauto|auto].
  Qed.
  Lemma sorted_filter p l : sorted cmp l -> sorted cmp (filter p l).
  Proof.
    induction l as [|x l IH]; simpl; intros H; auto. apply sorted_cons in H. destruct H as [H1 H2].
    destruct (p x); auto. apply sorted_cons. split; auto. now apply above_filter.
  Qed.
  (** the keys of the two lists compare alike, position by position *)
  Lemma sorted_alike l r : Forall2 (fun x y => cmp (fst x) (fst y) = Eq) l r -> sorted cmp l -> sorted cmp r.
  Proof.
    induction 1 as [|x y l r Hxy HF IH]; intros H; auto. apply sorted_cons in H. destruct H as [H1 H2].
    apply sorted_cons. split; auto. clear IH H1. unfold above in *. induction HF as [|a b l r Hab HF IH]; constructor; inversion H2; subst; auto.
    rewrite <- (cmp_eq_l laws _ _ _ Hxy). apply (cmp_eq_sym laws) in Hab.
    rewrite (cmp_antisym laws (fst b)), (cmp_eq_l laws _ _ _ Hab), <- (cmp_antisym laws). auto.
  Qed.

  Lemma above_insert x k v l : above cmp x l -> cmp (fst x) k = Lt -> above cmp x (s_insert cmp k v l).
  Proof.
    unfold above. induction l as [|[a b] l IH]; simpl; intros H Hk; [repeat constructor; auto|].
    inversion H; subst. destruct (cmp k a); repeat (constructor; auto).
  Qed.
  Lemma s_insert_sorted k v l : sorted cmp l -> sorted cmp (s_insert cmp k v l).
  Proof.
    induction l as [|[a b] l IH]; simpl; intros H; [repeat constructor|].
    pose proof H as H0. apply sorted_cons in H. destruct H as [H1 H2]. destruct (cmp k a) eqn:E.
    - apply sorted_cons. split; [auto|exact H2].
    - apply sorted_cons. split; auto. constructor; auto. apply (@above_trans K V cmp laws (k, v) (a, b) l E H2).
    - apply sorted_cons. split; auto. apply above_insert; auto. now apply (cmp_gt laws).
  Qed.
  Lemma s_remove_sorted q l : sorted cmp l -> sorted cmp (s_remove q l).
  Proof. apply sorted_filter. Qed.
  Lemma s_update_alike q f l : Forall2 (fun x y => cmp (fst x) (fst y) = Eq) l (s_update q f l).
  Proof. induction l as [|x l IH]; simpl; constructor; auto. destruct (hit q x); apply (cmp_refl laws). Qed.
  Lemma s_update_sorted q f l : sorted cmp l -> sorted cmp (s_update q f l).
  Proof. apply sorted_alike, s_update_alike. Qed.
  Lemma s_rekey_sorted k l : sorted cmp l -> sorted cmp (s_rekey (cmp k) k l).
  Proof.
    apply sorted_alike. induction l as [|x l IH]; simpl; constructor; auto. unfold hit. destruct (cmp k (fst x)) eqn:E; try apply (cmp_refl laws).
    now apply (cmp_eq_sym laws).
  Qed.
  Lemma s_append_sorted l r : sorted cmp l -> sorted cmp r -> sorted cmp (s_append cmp l r).
  Proof. intros. rewrite <- merge2_append; auto. apply merge2_sorted; auto. Qed.

  (** ** The usual laws *)
  Lemma s_get_below k l : Forall (fun y => cmp k (fst y) = Lt) l -> s_get (cmp k) l = None.
  Proof. unfold s_get. induction 1 as [|y l Hy H IH]; simpl; auto. unfold hit at 1. now rewrite Hy. Qed.

  (** an inserted key is found, with the new value and the key object that was
      there first *)
  Theorem s_get_insert_same k v l : sorted cmp l ->
    s_get (cmp k) (s_insert cmp k v l) = Some (match s_get (cmp k) l with Some (k0, _) => k0 | None => k end, v).
  Proof.
    induction l as [|[a b] l IH]; intros Hs; cbn [s_insert].
    - unfold s_get. simpl. unfold hit. simpl. now rewrite (cmp_refl laws).
    - apply sorted_cons in Hs. destruct Hs as [Hs Ha]. destruct (cmp k a) eqn:E.
      + unfold s_get. simpl. unfold hit. simpl. now rewrite E.
      + rewrite (s_get_below (k := k) (l := (a, b) :: l)).
        * unfold s_get. simpl. unfold hit. simpl. now rewrite (cmp_refl laws).
        * constructor; auto. eapply Forall_impl; [|exact Ha]. simpl. intros y Hy. exact (cmp_lt_trans laws _ _ _ E Hy).
      + unfold s_get in *. simpl. unfold hit at 1 3. simpl. rewrite E. apply IH. auto.
  Qed.
  (** inserting a present key is changing the value of that entry *)
  Theorem s_insert_present k v l : sorted cmp l -> s_get (cmp k) l <> None ->
    s_insert cmp k v l = s_update (cmp k) (fun _ => v) l.
  Proof.
    induction l as [|[a b] l IH]; intros Hs Hg; [now destruct Hg|]. apply sorted_cons in Hs. destruct Hs as [Hs Ha].
    cbn [s_insert s_update map]. unfold hit at 1. cbn [fst snd]. destruct (cmp k a) eqn:E.
    - f_equal. unfold above in Ha. cbn [fst] in Ha. clear -Ha E laws. induction Ha as [|y l Hy Ha IH]; auto. cbn [map]. rewrite <- IH.
      unfold hit. now rewrite (cmp_eq_l laws _ _ _ E), Hy.
    - exfalso. apply Hg. apply s_get_below. constructor; auto. eapply Forall_impl; [|exact Ha]. cbn [fst]. intros y Hy. exact (cmp_lt_trans laws _ _ _ E Hy).
    - f_equal. apply IH; auto. intros H. apply Hg. unfold s_get in *. cbn [find]. unfold hit at 1. cbn [fst]. now rewrite E.
  Qed.
  Lemma s_update_keys q f l : map fst (s_update q f l) = map fst l.
  Proof. unfold s_update. rewrite map_map. apply map_ext. intros x. now destruct (hit q x). Qed.
  (** inserting an absent key adds one entry *)
  Lemma s_insert_length k v l : sorted cmp l ->
    length (s_insert cmp k v l) = match s_get (cmp k) l with Some _ => length l | None => S (length l) end.
  Proof.
    induction l as [|[a b] l IH]; intros Hs; [reflexivity|]. apply sorted_cons in Hs. destruct Hs as [Hs Ha]. cbn [s_insert].
    unfold s_get in *. cbn [find]. unfold hit at 1. cbn [fst]. destruct (cmp k a) eqn:E; cbn [length]; auto.
    - assert (G : s_get (cmp k) l = None). { apply s_get_below. eapply Forall_impl; [|exact Ha]. cbn [fst]. intros y Hy. exact (cmp_lt_trans laws _ _ _ E Hy). }
      unfold s_get in G. now rewrite G.
    - rewrite IH by auto. destruct (find _ _); auto.
  Qed.

  (** other keys are found as before *)
  Theorem s_get_insert_other k v k' l : cmp k' k <> Eq -> s_get (cmp k') (s_insert cmp k v l) = s_get (cmp k') l.
  Proof.
    intros Hk. unfold s_get. induction l as [|[a b] l IH]; simpl.
    - unfold hit. simpl. destruct (cmp k' k); congruence.
    - destruct (cmp k a) eqn:E; simpl.
      + unfold hit at 1 3. simpl. destruct (cmp k' a) eqn:E'; auto. exfalso. apply Hk. apply (cmp_eq_sym laws) in E.
        apply (cmp_eq_sym laws). rewrite <- (cmp_eq_l laws _ _ _ E). now apply (cmp_eq_sym laws).
      + unfold hit at 1. simpl. destruct (cmp k' k); congruence.
      + unfold hit at 1 3. simpl. destruct (cmp k' a); auto.
  Qed.
  (** a removed key is not found, the others as before *)
  Theorem s_get_remove_same q l : s_get q (s_remove q l) = None.
  Proof.
    unfold s_get, s_remove. induction l as [|x l IH]; simpl; auto. destruct (hit q x) eqn:E; simpl; auto. now rewrite E.
  Qed.
  Theorem s_get_remove_other q k l : q k <> Eq -> (forall a, cmp k a = Eq -> q a = q k) ->
    s_get (cmp k) (s_remove q l) = s_get (cmp k) l.
  Proof.
    intros Hk Hq. unfold s_get, s_remove. induction l as [|x l IH]; simpl; auto. destruct (hit q x) eqn:E; simpl.
    - rewrite IH. unfold hit at 2. destruct (cmp k (fst x)) eqn:E'; auto. exfalso. apply Hq in E'. unfold hit in E.
      destruct (q (fst x)) eqn:E2; congruence.
    - destruct (hit (cmp k) x); auto.
  Qed.
End Facts.
