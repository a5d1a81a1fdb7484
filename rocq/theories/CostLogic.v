(** * CostLogic: the calls of user code that each function of HostileModel makes (C54).

    [pays m n P]: started with any memory whose nodes have room for at most 11 keys, [m] makes at most [n]
    calls, minus [P a] if it returns [a]: what is left over can pay for what follows. *)
From Coq Require Import List Arith Lia Bool.
From Verif Require Import Base IterSpec BTreeModel BTreeIterModel HeapModel HistoryModel HeapMapModel HostileModel CostHeap.
Import ListNotations.
Set Implicit Arguments.

Section Pays.
  Variables (K V W : Type) (cnt : W -> nat).
  Notation kv := (K * V)%type.
  Notation heap := (heap K V).
  Notation HM := (HM K V).
  Notation AM := (AM K V W).
  Notation lift := (@lift K V W _).
  Notation aret := (@aret K V W _).
  Notation slim := (@slim K V).
  Notation "x <~ m ;~ k" := (hbind m (fun x => k)) (at level 80, m at level 79, right associativity).
  Notation "x <- m ;- k" := (abind m (fun x => k)) (at level 80, m at level 79, right associativity).

  Definition pays (A : Type) (m : AM A) (n : nat) (P : A -> nat) : Prop :=
    forall hp w, slim hp -> let '(o, hp', w') := m hp w in
      slim hp' /\ cnt w' + match o with Ret a => P a | _ => 0 end <= cnt w + n.
  Arguments pays {A} m n P.
  Notation free m := (pays m 0 (fun _ => 0)).
  (** user code is called once *)
  Definition single (A : Type) (q : asks W A) : Prop := forall w, cnt (snd (q w)) <= S (cnt w).
  Arguments single {A} q.

  Lemma p_ret A (a : A) n (P : A -> nat) : P a <= n -> pays (aret a) n P.
  Proof. intros H hp w S. cbn. split; [exact S|lia]. Qed.
  Lemma p_ub A n (P : A -> nat) : pays (@aub K V W A) n P.
  Proof. intros hp w S. cbn. split; [exact S|lia]. Qed.
  Lemma p_panic A n (P : A -> nat) : pays (fun hp w => (Panic, hp, w)) n P.
  Proof. intros hp w S. cbn. split; [exact S|lia]. Qed.
  Lemma p_bind A B (m : AM A) (f : A -> AM B) n P R : pays m n P -> (forall a, pays (f a) (P a) R) -> pays (abind m f) n R.
  Proof.
    intros H1 H2 hp w S. unfold abind. specialize (H1 hp w S). destruct (m hp w) as [[o hp1] w1]. destruct H1 as [S1 L1].
    destruct o as [a|e| | |]; try (split; [exact S1|lia]). specialize (H2 a hp1 w1 S1). destruct (f a hp1 w1) as [[o hp2] w2]. destruct H2 as [S2 L2]. split; [exact S2|lia].
  Qed.
  Lemma p_mono A (m : AM A) n n' P P' : pays m n P -> n <= n' -> (forall a, P' a + n <= P a + n') -> pays m n' P'.
  Proof.
    intros H L1 L2 hp w S. specialize (H hp w S). destruct (m hp w) as [[o hp1] w1]. destruct H as [S1 L]. split; [exact S1|].
    destruct o as [a|e| | |]; try lia. specialize (L2 a). lia.
  Qed.
  Lemma p_weak A (m : AM A) n n' P : pays m n P -> n <= n' -> pays m n' P.
  Proof. intros H L. eapply p_mono; [exact H|exact L|intros; cbv beta; lia]. Qed.
  (** first [a], then the rest with [b] *)
  Lemma p_seq A B (m : AM A) (f : A -> AM B) a b R : pays m a (fun _ => 0) -> (forall x, pays (f x) b R) -> pays (abind m f) (a + b) R.
  Proof. intros H1 H2. eapply p_bind with (P := fun _ => b); [|exact H2]. eapply p_mono; [exact H1|lia|intros; cbv beta; lia]. Qed.
  Lemma p_lift A (m : HM A) n (P : A -> nat) : keeps m -> (forall hp a hp', m hp = Some (a, hp') -> P a <= n) -> pays (lift m) n P.
  Proof.
    intros H1 H2 hp w S. unfold HeapModel.lift. destruct (m hp) as [[a hp1]|] eqn:E.
    - split; [exact (H1 _ _ _ S E)|]. specialize (H2 _ _ _ E). lia.
    - split; [exact S|lia].
  Qed.
  Lemma p_lift0 A (m : HM A) n : keeps m -> pays (lift m) n (fun _ => n).
  Proof. intros H. apply p_lift; [exact H|intros; cbv beta; lia]. Qed.
  Lemma p_lift00 A (m : HM A) n : keeps m -> pays (lift m) n (fun _ => 0).
  Proof. intros H. apply p_lift; [exact H|intros; cbv beta; lia]. Qed.
  Lemma p_ask A (q : asks W A) n : single q -> pays (ask q) (S n) (fun _ => n).
  Proof.
    intros H hp w S. unfold ask. specialize (H w). destruct (q w) as [[a|] w1]; cbn in H; (split; [exact S|lia]).
  Qed.

  (** ** search.rs *)
  Section Search.
    Variable q : K -> asks W comparison.
    Hypothesis Hq : forall k, single (q k).
    Lemma linear_pays l : pays (hx_linear q l) (length l) (fun _ => 0).
    Proof.
      induction l as [|k l IH]; cbn [hx_linear length]; [apply p_ret; lia|].
      eapply p_bind; [apply p_ask; apply Hq|]. intros []; try (apply p_ret; lia).
      eapply p_bind; [exact IH|]. intros r. apply p_ret. lia.
    Qed.
    Lemma node_pays r : pays (hx_search_linear q r) CAPACITY (fun _ => 0).
    Proof.
      intros hp w S. unfold hx_search_linear, abind, HeapModel.lift. destruct (n_keys r hp) as [[l hp1]|] eqn:E; [|split; [exact S|lia]].
      destruct (keys_len _ S E) as [L ->]. pose proof (linear_pays l w S) as P. destruct (hx_linear q l hp w) as [[o hp2] w2].
      destruct P as [S2 P]. split; [exact S2|]. lia.
    Qed.
    Lemma tree_pays fuel : forall r, pays (hx_search_tree fuel q r) (CAPACITY * fuel) (fun _ => 0).
    Proof.
      induction fuel as [|fuel IH]; intros r; cbn [hx_search_tree]; [apply p_ub|].
      replace (CAPACITY * S fuel) with (CAPACITY + CAPACITY * fuel) by lia. apply p_seq; [apply node_pays|]. intros s.
      destruct (snd s); [apply p_lift; [ks|intros; cbv beta; lia]|]. eapply p_bind; [apply p_lift0; auto with slim|]. intros e.
      destruct (rh r); [apply p_ret; lia|]. eapply p_bind; [apply p_lift0; auto with slim|]. intros c. apply IH.
    Qed.
    Lemma search_pays m : pays (hx_search q m) (CAPACITY * S (rh (mroot m))) (fun _ => 0).
    Proof. apply tree_pays. Qed.
    Lemma get_pays m : pays (hx_get_key_value q m) (CAPACITY * S (rh (mroot m))) (fun _ => 0).
    Proof. eapply p_bind; [apply search_pays|]. intros [h|h]; [apply p_lift00; ks|apply p_ret; lia]. Qed.
    Lemma get_mut_pays m : pays (hx_get_mut q m) (CAPACITY * S (rh (mroot m))) (fun _ => 0).
    Proof. eapply p_bind; [apply search_pays|]. intros [h|h]; [apply p_lift00; ks|apply p_ret; lia]. Qed.
    Lemma remove_pays m : pays (hx_remove_entry q m) (CAPACITY * S (rh (mroot m))) (fun _ => 0).
    Proof. eapply p_bind; [apply search_pays|]. intros [h|h]; [apply p_lift00; ks|apply p_ret; lia]. Qed.
    Lemma split_loop_pays fuel : forall l r, pays (hx_split_loop fuel q l r) (CAPACITY * fuel) (fun _ => 0).
    Proof.
      induction fuel as [|fuel IH]; intros l r; cbn [hx_split_loop]; [apply p_ub|].
      replace (CAPACITY * S fuel) with (CAPACITY + CAPACITY * fuel) by lia. apply p_seq; [apply node_pays|]. intros s.
      eapply p_bind; [apply p_lift0; ks|]. intros e. eapply p_bind; [apply p_lift0; auto with slim|]. intros ?.
      destruct (rh l), (rh r); try apply p_ub; [apply p_ret; lia|].
      eapply p_bind; [apply p_lift0; auto with slim|]. intros cl. eapply p_bind; [apply p_lift0; auto with slim|]. intros fe.
      eapply p_bind; [apply p_lift0; auto with slim|]. intros cr. apply IH.
    Qed.
  End Search.

  (** ** range_search *)
  Section Range.
    Variables (Q : Type) (qcmp : Q -> K -> asks W comparison) (qeq qgt : Q -> Q -> asks W bool) (view : bound_ Q -> asks W (bound_ Q)).
    Hypotheses (H1 : forall x k, single (qcmp x k)) (H2 : forall x y, single (qeq x y)) (H3 : forall x y, single (qgt x y)) (H4 : forall b, single (view b)).
    Lemma bad_pays lo hi : pays (hx_bad (K := K) (V := V) qeq qgt view lo hi) 4 (fun _ => 0).
    Proof.
      unfold hx_bad. eapply p_bind; [apply (p_ask 3); apply H4|]. intros a. eapply p_bind; [apply (p_ask 2); apply H4|]. intros b.
      destruct a as [x|x|], b as [y|y|]; try (apply p_ret; lia); try (eapply p_mono; [apply (p_ask 0); apply H3|lia|intros; cbn; lia]).
      eapply p_bind; [apply (p_ask 1); apply H2|]. intros [|]; [apply p_ret; lia|]. eapply p_mono; [apply (p_ask 0); apply H3|lia|intros; cbn; lia].
    Qed.
    Lemma min_pays f lo r : pays (hx_min_edge (V := V) qcmp view f lo r) (1 + CAPACITY) (fun _ => 0).
    Proof.
      unfold hx_min_edge. eapply p_bind; [apply p_ask; apply H4|]. intros a.
      assert (forall x, pays (s <- hx_search_linear (V := V) (qcmp x) r ;- aret (if snd s then fst s + 1 else fst s, snd s)) CAPACITY (fun _ => 0)) as HS.
      { intros x. eapply p_bind; [apply node_pays; auto|]. intros s. apply p_ret. lia. }
      destruct f, a; try (apply p_ret; lia); try (apply node_pays; auto); auto. apply p_lift00. ks.
    Qed.
    Lemma max_pays f hi r : pays (hx_max_edge (V := V) qcmp view f hi r) (1 + CAPACITY) (fun _ => 0).
    Proof.
      unfold hx_max_edge. eapply p_bind; [apply p_ask; apply H4|]. intros a.
      assert (forall x, pays (s <- hx_search_linear (V := V) (qcmp x) r ;- aret (if snd s then fst s + 1 else fst s, snd s)) CAPACITY (fun _ => 0)) as HS.
      { intros x. eapply p_bind; [apply node_pays; auto|]. intros s. apply p_ret. lia. }
      destruct f, a; try (apply p_ret; lia); try (apply node_pays; auto); auto; apply p_lift00; ks.
    Qed.
    Lemma loop_pays fuel : forall lo hi a b x y d, pays (hx_range_loop (V := V) qcmp view fuel lo hi a b x y d) (2 * (1 + CAPACITY) * fuel) (fun _ => 0).
    Proof.
      induction fuel as [|fuel IH]; intros lo hi a b x y d; cbn [hx_range_loop]; [apply p_ub|].
      replace (2 * (1 + CAPACITY) * S fuel) with ((1 + CAPACITY) + ((1 + CAPACITY) + 2 * (1 + CAPACITY) * fuel)) by lia.
      apply p_seq; [apply min_pays|]. intros u. apply p_seq; [apply max_pays|]. intros v. destruct (_ && _); [apply p_panic|].
      eapply p_bind; [apply p_lift0; auto with slim|]. intros f. eapply p_bind; [apply p_lift0; auto with slim|]. intros g.
      destruct (rh a), (rh b); try apply p_ub; [apply p_ret; lia|].
      eapply p_bind; [apply p_lift0; auto with slim|]. intros c. eapply p_bind; [apply p_lift0; auto with slim|]. intros e. apply IH.
    Qed.
    Lemma range_pays lo hi m : pays (hx_range (V := V) qcmp qeq qgt view lo hi m) (4 + 2 * (1 + CAPACITY) * S (rh (mroot m))) (fun _ => 0).
    Proof. apply p_seq; [apply bad_pays|]. intros [|]; [apply p_panic|apply loop_pays]. Qed.
  End Range.

  (** ** == and partial_cmp *)
  Lemma inext_len f (it : hiter) hp o it' hp' : @h_iter_next K V f it hp = Some ((o, it'), hp') ->
    match o with Some _ => xlen it = S (xlen it') | None => xlen it' = xlen it end.
  Proof.
    unfold h_iter_next. destruct (xlen it =? 0) eqn:E; [intros [= <- <- <-]; reflexivity|]. apply Nat.eqb_neq in E.
    unfold hbind, hret. destruct (h_next_unchecked _ _ _) as [[s hp1]|]; [|discriminate]. intros [= <- <- <-]. cbn. lia.
  Qed.
  Lemma iter_len m hp it hp' : @h_iter K V m hp = Some (it, hp') -> xlen it = mlen m.
  Proof.
    unfold h_iter, hbind, hret. destruct (h_first_leaf_edge _ _ _) as [[a hp1]|]; [|discriminate]. destruct (h_last_leaf_edge _ _ _) as [[b hp2]|]; [|discriminate].
    intros [= <- <-]. reflexivity.
  Qed.
  Lemma p_inext f it n (P : option (hitem K V) * hiter -> nat) :
    (forall o it', match o with Some _ => xlen it = S (xlen it') | None => xlen it' = xlen it end -> P (o, it') <= n) -> pays (lift (h_iter_next f it)) n P.
  Proof. intros H. apply p_lift; [auto with slim|]. intros hp [o it'] hp' E. apply H. exact (inext_len _ _ _ E). Qed.
  Lemma p_iter m n (P : hiter -> nat) : (forall it, xlen it = mlen m -> P it <= n) -> pays (lift (@h_iter K V m)) n P.
  Proof. intros H. apply p_lift; [auto with slim|]. intros hp it hp' E. apply H. exact (iter_len _ _ E). Qed.

  Lemma zip_pays eqb fa fb : (forall x y, single (eqb x y)) -> forall fuel (a b : hiter), pays (hx_zip_all (K := K) (V := V) eqb fa fb fuel a b) (min (xlen a) (xlen b)) (fun _ => 0).
  Proof.
    intros He. induction fuel as [|fuel IH]; intros a b; cbn [hx_zip_all]; [apply p_ub|].
    apply p_bind with (P := fun x => match fst x with Some _ => min (S (xlen (snd x))) (xlen b) | None => 0 end).
    { apply p_inext. intros [u|] it' EL; cbn [fst snd]; lia. }
    intros [[u|] a']; cbn [fst snd]; [|apply p_ret; lia].
    apply p_bind with (P := fun y => match fst y with Some _ => S (min (xlen a') (xlen (snd y))) | None => 0 end).
    { apply p_inext. intros [v|] it' EL; cbn [fst snd]; lia. }
    intros [[v|] b']; cbn [fst snd]; [|apply p_ret; lia].
    eapply p_bind; [apply p_ask; apply He|]. intros [|]; [apply IH|apply p_ret; lia].
  Qed.
  Lemma eq_pays eqb m1 m2 : (forall x y, single (eqb x y)) ->
    pays (hx_eq (K := K) (V := V) eqb m1 m2) (if mlen m1 =? mlen m2 then mlen m1 else 0) (fun _ => 0).
  Proof.
    intros He. unfold hx_eq. destruct (mlen m1 =? mlen m2) eqn:E; [|apply p_ret; lia]. apply Nat.eqb_eq in E.
    apply p_bind with (P := fun a => min (xlen a) (mlen m2)); [apply p_iter; intros; cbv beta; lia|]. intros a.
    apply p_bind with (P := fun b => min (xlen a) (xlen b)); [apply p_iter; intros; cbv beta; lia|]. intros b. apply zip_pays. exact He.
  Qed.
  Lemma icmp_pays c fa fb : (forall x y, single (c x y)) -> forall fuel (a b : hiter), pays (hx_iter_cmp (K := K) (V := V) c fa fb fuel a b) (min (xlen a) (xlen b)) (fun _ => 0).
  Proof.
    intros He. induction fuel as [|fuel IH]; intros a b; cbn [hx_iter_cmp]; [apply p_ub|].
    apply p_bind with (P := fun x => match fst x with Some _ => min (S (xlen (snd x))) (xlen b) | None => 0 end).
    { apply p_inext. intros [u|] it' EL; cbn [fst snd]; lia. }
    intros [[u|] a']; cbn [fst snd].
    - apply p_bind with (P := fun y => match fst y with Some _ => S (min (xlen a') (xlen (snd y))) | None => 0 end).
      { apply p_inext. intros [v|] it' EL; cbn [fst snd]; lia. }
      intros [[v|] b']; cbn [fst snd]; [|apply p_ret; lia].
      eapply p_bind; [apply p_ask; apply He|]. intros [[]|]; try (apply p_ret; lia). apply IH.
    - eapply p_bind; [apply p_lift00; auto with slim|]. intros y. apply p_ret. lia.
  Qed.
  Lemma cmp_pays c m1 m2 : (forall x y, single (c x y)) -> pays (hx_cmp (K := K) (V := V) c m1 m2) (min (mlen m1) (mlen m2)) (fun _ => 0).
  Proof.
    intros He. unfold hx_cmp.
    apply p_bind with (P := fun a => min (xlen a) (mlen m2)); [apply p_iter; intros; cbv beta; lia|]. intros a.
    apply p_bind with (P := fun b => min (xlen a) (xlen b)); [apply p_iter; intros; cbv beta; lia|]. intros b. apply icmp_pays. exact He.
  Qed.

  (** ** Functions that also return a map, or another structure, with every outcome *)
  Definition spends (A X : Type) (f : heap -> W -> outcome reserve_error A * X * heap * W) (n : nat) : Prop :=
    forall hp w, slim hp -> let '(_, _, hp', w') := f hp w in slim hp' /\ cnt w' <= cnt w + n.
  Arguments spends {A X} f n.

  Section Alloc.
    Variable nalloc : bool -> W -> option reserve_error * W.
    Variable place : heap -> W -> loc.
    Hypothesis Ha : forall b w, cnt (snd (nalloc b w)) = cnt w.

    Lemma box_pays b n : pays (new_box nalloc place b) n (fun _ => n).
    Proof.
      intros hp w S. unfold new_box. specialize (Ha b w). destruct (nalloc b w) as [[e|] w1]; cbn in Ha; (split; [|lia]); [exact S|].
      apply slim_set; [exact S|apply thin_fresh].
    Qed.
    Lemma leaf_pays n : pays (h_new_leaf nalloc place) n (fun _ => n).
    Proof. eapply p_bind; [apply box_pays|]. intros l. apply p_ret. lia. Qed.
    Lemma level_pays r n : pays (h_push_level nalloc place r) n (fun _ => n).
    Proof. eapply p_bind; [apply p_lift0; auto with slim|]. intros ?. eapply p_bind; [apply box_pays|]. intros l. apply p_lift0. ks. Qed.
    Lemma linsert_pays h x n : pays (h_leaf_insert nalloc place h x) n (fun _ => n).
    Proof.
      unfold h_leaf_insert. destruct h as [r i]. eapply p_bind; [apply p_lift0; auto with slim|]. intros m. destruct (m <? CAPACITY); [apply p_lift0; ks|].
      eapply p_bind; [apply p_lift0; ks|]. intros ?. eapply p_bind; [apply box_pays|]. intros l. apply p_lift0. ks.
    Qed.
    Lemma iinsert_pays h x e n : pays (h_internal_insert nalloc place h x e) n (fun _ => n).
    Proof.
      unfold h_internal_insert. destruct h as [r i]. eapply p_bind; [apply p_lift0; ks|]. intros ?. eapply p_bind; [apply p_lift0; auto with slim|].
      intros m. destruct (m <? CAPACITY); [apply p_lift0; ks|].
      eapply p_bind; [apply p_lift0; ks|]. intros ?. eapply p_bind; [apply box_pays|]. intros l. apply p_lift0. ks.
    Qed.
    Lemma up_pays fuel : forall root l x r, spends (h_insert_up nalloc place fuel root l x r) 0.
    Proof.
      induction fuel as [|fuel IH]; intros root l x r hp w S; cbn [h_insert_up]; [split; [exact S|lia]|].
      pose proof (p_lift00 (m := ascend l) 0 (k_ascend _) w S) as H. destruct (lift (ascend l) hp w) as [[o hp1] w1]. destruct H as [S1 L1].
      destruct o as [[p|]|e| | |]; try (split; [exact S1|lia]).
      - pose proof (iinsert_pays p x r 0 w1 S1) as H. destruct (h_internal_insert nalloc place p x r hp1 w1) as [[o hp2] w2]. destruct H as [S2 L2].
        destruct o as [[h|l' y r']|e| | |]; try (split; [exact S2|lia]).
        specialize (IH root l' y r' hp2 w2 S2). destruct (h_insert_up nalloc place fuel root l' y r' hp2 w2) as [[[o3 root3] hp3] w3]. destruct IH. split; [assumption|lia].
      - pose proof (level_pays root 0 w1 S1) as H. destruct (h_push_level nalloc place root hp1 w1) as [[o hp2] w2]. destruct H as [S2 L2].
        destruct o as [root'|e| | |]; try (split; [exact S2|lia]). destruct (internal_push root' x r hp2) as [[u hp3]|] eqn:E; (split; [|lia]); [|exact S2].
        exact (k_ipush _ _ _ S2 E).
    Qed.
    Lemma vacant_pays m h x : spends (h_vacant_insert nalloc place m h x) 0.
    Proof.
      intros hp w S. unfold h_vacant_insert. pose proof (linsert_pays h x 0 w S) as H. destruct (h_leaf_insert nalloc place h x hp w) as [[o hp1] w1]. destruct H as [S1 L1].
      destruct o as [[[[r i]|l y r] p]|e| | |]; try (split; [exact S1|lia]).
      pose proof (up_pays (Datatypes.S (rh (mroot m))) (mroot m) l y r w1 S1) as H. destruct (h_insert_up _ _ _ _ _ _ _ _ _) as [[[o2 root2] hp2] w2]. destruct H. split; [assumption|lia].
    Qed.
    Lemma ensure_pays m : forall hp w, slim hp -> let '(_, m', hp', w') := h_ensure_root_is_owned nalloc place m hp w in slim hp' /\ cnt w' <= cnt w /\ rh (mroot m') <= rh (mroot m).
    Proof.
      intros hp w S. unfold h_ensure_root_is_owned. destruct (rl (mroot m) =? sroot); [|split; [exact S|lia]].
      unfold h_new_leaf, abind. pose proof (box_pays false 0 w S) as H.
      destruct (new_box nalloc place false hp w) as [[o hp1] w1]. destruct H as [S1 L1]. destruct o; cbn; (split; [exact S1|lia]).
    Qed.
    Lemma levels_pays n : forall r, spends (h_push_levels nalloc place n r) 0.
    Proof.
      induction n as [|n IH]; intros r hp w S; cbn [h_push_levels]; [split; [exact S|lia]|].
      pose proof (level_pays r 0 w S) as H. destruct (h_push_level nalloc place r hp w) as [[o hp1] w1]. destruct H as [S1 L1].
      destruct o as [r'|e| | |]; try (split; [exact S1|lia]).
      specialize (IH r' hp1 w1 S1). destruct (h_push_levels nalloc place n r' hp1 w1) as [[[o2 r2] hp2] w2]. destruct IH. split; [assumption|lia].
    Qed.
    Lemma or_pays m en f : (forall w, cnt (snd (f w)) <= cnt w) -> spends (h_or_try_insert_with nalloc place m en f) 0.
    Proof.
      intros Hf hp w S. destruct en as [h|k h]; cbn [h_or_try_insert_with].
      - pose proof (p_lift00 (m := @h_kv_mut K V h) 0 (k_kvmut _) w S) as H. destruct (lift _ hp w) as [[o hp1] w1]. destruct H. split; [assumption|lia].
      - specialize (Hf w). destruct (f w) as [o w1]. cbn in Hf. destruct o as [v|e| | |]; try (split; [exact S|lia]).
        pose proof (vacant_pays m h (k, v) w1 S) as H. destruct (h_vacant_insert _ _ _ _ _ _ _) as [[[o2 m2] hp2] w2]. destruct H. split; [assumption|lia].
    Qed.

    Variable kcmp : K -> K -> asks W comparison.
    Hypothesis Hk : forall a b, single (kcmp a b).

    Lemma entry_pays k m : forall hp w, slim hp -> let '(_, _, hp', w') := hx_try_entry nalloc place kcmp k m hp w in slim hp' /\ cnt w' <= cnt w + CAPACITY * S (rh (mroot m)).
    Proof.
      intros hp w S. unfold hx_try_entry. pose proof (ensure_pays m w S) as H. destruct (h_ensure_root_is_owned nalloc place m hp w) as [[[o m1] hp1] w1].
      destruct H as (S1 & L1 & LR). destruct o as [u|e| | |]; try (split; [exact S1|lia]).
      pose proof (search_pays (kcmp k) (fun b => Hk k b) m1 w1 S1) as H. destruct (hx_search (kcmp k) m1 hp1 w1) as [[o2 hp2] w2]. destruct H as [S2 L2].
      assert (cnt w2 <= cnt w + CAPACITY * Datatypes.S (rh (mroot m))) as L.
      { pose proof (Nat.mul_le_mono_l _ _ CAPACITY (le_n_S _ _ LR)). destruct o2; lia. }
      destruct o2 as [[h|h]|e| | |]; (split; [exact S2|exact L]).
    Qed.
    Lemma insert_pays k v m : spends (hx_try_insert nalloc place kcmp k v m) (CAPACITY * S (rh (mroot m))).
    Proof.
      intros hp w S. unfold hx_try_insert. pose proof (entry_pays k m w S) as H. destruct (hx_try_entry nalloc place kcmp k m hp w) as [[[o m1] hp1] w1].
      destruct H as [S1 L1]. destruct o as [[h|k' h]|e| | |]; try (split; [exact S1|exact L1]).
      - pose proof (p_lift00 (m := @h_occupied_insert K V h v) 0 (k_occ _ _) w1 S1) as H. destruct (lift _ hp1 w1) as [[o2 hp2] w2]. destruct H. split; [assumption|lia].
      - pose proof (vacant_pays m1 h (k', v) w1 S1) as H. destruct (h_vacant_insert _ _ _ _ _ _ _) as [[[o2 m2] hp2] w2]. destruct H. split; [assumption|lia].
    Qed.
    Lemma replace_pays k v m : spends (hx_replace_key nalloc place kcmp k v m) (CAPACITY * S (rh (mroot m))).
    Proof.
      intros hp w S. unfold hx_replace_key. pose proof (entry_pays k m w S) as H. destruct (hx_try_entry nalloc place kcmp k m hp w) as [[[o m1] hp1] w1].
      destruct H as [S1 L1]. destruct o as [[h|k' h]|e| | |]; try (split; [exact S1|exact L1]).
      - assert (keeps (hbind (@h_kv_mut K V h) (fun a => ref_write_key a k))) as KK by ks.
        pose proof (p_lift00 0 KK w1 S1) as H. destruct (lift _ hp1 w1) as [[o2 hp2] w2]. destruct H. split; [assumption|lia].
      - pose proof (vacant_pays m1 h (k', v) w1 S1) as H. destruct (h_vacant_insert _ _ _ _ _ _ _) as [[[o2 m2] hp2] w2]. destruct H. split; [assumption|lia].
    Qed.

    (** ** append: what the two sides still hold pays for the comparisons *)
    Definition left_in (p : hpeekable K V) : nat :=
      hleft (hpinner p) + match hpk p with Some (Some _) => 1 | _ => 0 end.
    Lemma inton_len f (it : hinto) hp o it' hp' : @h_into_next K V f it hp = Some ((o, it'), hp') ->
      match o with Some _ => hleft it = S (hleft it') | None => hleft it' = hleft it end.
    Proof.
      unfold h_into_next. destruct (hleft it =? 0) eqn:E; [intros [= <- <- <-]; reflexivity|]. apply Nat.eqb_neq in E. unfold hbind, hret.
      repeat match goal with
      | |- match ?x with _ => _ end = _ -> _ => destruct x as [[? ?]|]; [|discriminate]
      | |- match ?x with _ => _ end _ = _ -> _ => destruct x
      end; intros [= <- <- <-]; cbn; lia.
    Qed.
    Lemma peek_left (p : hpeekable K V) hp o p' hp' : h_peek p hp = Some ((o, p'), hp') -> left_in p' = left_in p /\ hpk p' = Some o.
    Proof.
      unfold h_peek, left_in. destruct (hpk p) as [x|] eqn:E; [intros [= <- <- <-]; rewrite E; auto|]. unfold hbind, hret.
      destruct (h_into_next _ _ _) as [[[x it'] hp1]|] eqn:E1; [|discriminate]. intros [= <- <- <-]. cbn [fst snd hpk hpinner].
      pose proof (inton_len _ _ _ E1). destruct x; split; auto; lia.
    Qed.
    Lemma pnext_left (p : hpeekable K V) x hp o p' hp' : hpk p = Some (Some x) -> h_pnext p hp = Some ((o, p'), hp') -> left_in p = S (left_in p').
    Proof. unfold h_pnext, left_in. intros ->. unfold hret. intros [= <- <- <-]. cbn. lia. Qed.
    Definition both_left (mi : hmerge K V) : nat := left_in (hml mi) + left_in (hmr mi).
    Lemma merge_pays mi : forall hp w, slim hp -> let '(o, mi', hp', w') := hx_merge_next kcmp mi hp w in
      slim hp' /\ cnt w' + match o with Ret _ => both_left mi' | _ => 0 end <= cnt w + both_left mi.
    Proof.
      intros hp w S. unfold hx_merge_next.
      assert (keeps (a <~ h_peek (hml mi) ;~ b <~ h_peek (hmr mi) ;~ hret (a, b))) as KK by ks.
      pose proof (p_lift00 0 KK w S) as H. unfold HeapModel.lift at 1 in H. unfold HeapModel.lift at 1.
      destruct ((a <~ h_peek (hml mi) ;~ b <~ h_peek (hmr mi) ;~ hret (a, b)) hp) as [[[a b] hp1]|] eqn:E; [|cbn; split; [exact S|lia]].
      destruct H as [S1 _].
      assert (both_left (HMerge (snd a) (snd b)) = both_left mi /\ hpk (snd a) = Some (fst a) /\ hpk (snd b) = Some (fst b)) as (EL & Ea & Eb).
      { unfold hbind, hret in E. destruct (h_peek (hml mi) hp) as [[[o1 p1] hpa]|] eqn:E1; [|discriminate].
        destruct (h_peek (hmr mi) hpa) as [[[o2 p2] hpb]|] eqn:E2; [|discriminate]. injection E as <- <- <-.
        destruct (peek_left _ _ E1), (peek_left _ _ E2). unfold both_left. cbn [hml hmr fst snd]. split; [lia|auto]. }
      unfold both_left in EL. cbn [hml hmr] in EL.
      assert (forall n (m : HM (option kv * hmerge K V)) hp2 w2, keeps m -> (forall hp o mi' hp', m hp = Some ((o, mi'), hp') -> both_left mi' + n <= both_left mi) ->
        n <= both_left mi -> slim hp2 -> cnt w2 <= cnt w + n ->
        let '(o, mi', hp', w') :=
          match lift m hp2 w2 with
          | (Ret (o, mi'), hp', w') => (Ret o, mi', hp', w')
          | (o, hp', w') => (pass o, HMerge (snd a) (snd b), hp', w')
          end in slim hp' /\ cnt w' + match o with Ret _ => both_left mi' | _ => 0 end <= cnt w + both_left mi) as GO.
      { intros n m hp2 w2 Km Hm Hn S2 L. unfold HeapModel.lift. destruct (m hp2) as [[[o mi'] hp3]|] eqn:E3.
        - split; [exact (Km _ _ _ S2 E3)|]. specialize (Hm _ _ _ _ E3). lia.
        - cbn. split; [exact S2|lia]. }
      assert (forall n, (exists x, fst a = Some x) -> n <= 1 -> forall hp o mi' hp', (r <~ h_pnext (snd a) ;~ hret (fst r, HMerge (snd r) (snd b))) hp = Some ((o, mi'), hp') -> both_left mi' + n <= both_left mi) as GL.
      { intros n [x Hx] Hn hp2 o mi' hp3. rewrite Hx in Ea. unfold hbind, hret. destruct (h_pnext (snd a) hp2) as [[[o4 p4] hp4]|] eqn:E4; [|discriminate].
        intros [= <- <- <-]. pose proof (pnext_left _ _ Ea E4). unfold both_left. cbn [hml hmr fst snd]. lia. }
      assert (forall n, (exists x, fst b = Some x) -> n <= 1 -> forall hp o mi' hp', (r <~ h_pnext (snd b) ;~ hret (fst r, HMerge (snd a) (snd r))) hp = Some ((o, mi'), hp') -> both_left mi' + n <= both_left mi) as GR.
      { intros n [x Hx] Hn hp2 o mi' hp3. rewrite Hx in Eb. unfold hbind, hret. destruct (h_pnext (snd b) hp2) as [[[o4 p4] hp4]|] eqn:E4; [|discriminate].
        intros [= <- <- <-]. pose proof (pnext_left _ _ Eb E4). unfold both_left. cbn [hml hmr fst snd]. lia. }
      assert (forall x, fst a = Some x -> 1 <= both_left mi) as PA. { intros x Hx. unfold both_left. rewrite <- EL. unfold left_in. rewrite Ea, Hx. lia. }
      assert (forall x, fst b = Some x -> 1 <= both_left mi) as PB. { intros x Hx. unfold both_left. rewrite <- EL. unfold left_in. rewrite Eb, Hx. lia. }
      destruct (fst a) as [x|] eqn:Fa, (fst b) as [y|] eqn:Fb.
      - specialize (Hk (fst x) (fst y) w). destruct (kcmp (fst x) (fst y) w) as [[[]|] w2] eqn:Ek; cbn in Hk.
        + apply (GO 1); [ks| |eauto|exact S1|lia].
          intros hp2 o mi' hp3. unfold hbind, hret. destruct (h_pnext (snd a) hp2) as [[[o4 p4] hp4]|] eqn:E4; [|discriminate].
          destruct (h_pnext (snd b) hp4) as [[[o5 p5] hp5]|] eqn:E5; [|discriminate]. intros [= <- <- <-].
          pose proof (pnext_left _ _ Ea E4). pose proof (pnext_left _ _ Eb E5). unfold both_left. cbn [hml hmr fst snd]. lia.
        + apply (GO 1); [ks|apply GL; eauto|eauto|exact S1|lia].
        + apply (GO 1); [ks|apply GR; eauto|eauto|exact S1|lia].
        + split; [exact S1|]. specialize (PA _ eq_refl). lia.
      - apply (GO 0); [ks|apply GL; eauto; lia|lia|exact S1|lia].
      - apply (GO 0); [ks|apply GR; eauto; lia|lia|exact S1|lia].
      - split; [exact S1|]. unfold both_left. cbn [hml hmr]. lia.
    Qed.

    Lemma sp_lift A (m : HM A) hp w : keeps m -> slim hp -> let '(_, hp', w') := lift m hp w in slim hp' /\ w' = w.
    Proof. intros KK S. unfold HeapModel.lift. destruct (m hp) as [[a hp1]|] eqn:E; (split; [|reflexivity]); [exact (KK _ _ _ S E)|exact S]. Qed.
    Lemma open_pays fuel : forall root r, spends (h_find_open nalloc place fuel root r) 0.
    Proof.
      induction fuel as [|fuel IH]; intros root r hp w S; cbn [h_find_open]; [split; [exact S|lia]|].
      match goal with |- context [HeapModel.lift ?m hp w] => assert (keeps m) as KK by ks; pose proof (sp_lift w KK S) as H; destruct (HeapModel.lift m hp w) as [[o hp1] w1] end.
      destruct H as [S1 ->]. destruct o as [[[p n]|]|e| | |]; try (split; [exact S1|lia]).
      - destruct (n <? CAPACITY); [split; [exact S1|lia]|]. apply IH. exact S1.
      - pose proof (level_pays root 0 w S1) as H. destruct (h_push_level nalloc place root hp1 w) as [[o hp2] w2]. destruct H. destruct o; (split; [assumption|lia]).
    Qed.
    Lemma sorted_pays x root cur : spends (h_push_sorted nalloc place x root cur) 0.
    Proof.
      intros hp w S. unfold h_push_sorted. pose proof (sp_lift w (k_nlen (V := V) cur) S) as H. destruct (lift _ hp w) as [[o hp0] w0]. destruct H as [S0 ->].
      destruct o as [n|e| | |]; try (split; [exact S0|lia]). destruct (n <? CAPACITY).
      - pose proof (sp_lift w (k_lpush cur x) S0) as H. destruct (lift _ hp0 w) as [[o hp1] w1]. destruct H as [S1 ->]. split; [exact S1|lia].
      - pose proof (open_pays (Datatypes.S (rh root)) root cur w S0) as H. destruct (h_find_open _ _ _ _ _ _ _) as [[[o root1] hp1] w1]. destruct H as [S1 L1].
        destruct o as [opn|e| | |]; try (split; [exact S1|lia]).
        pose proof (leaf_pays 0 w1 S1) as H. destruct (h_new_leaf nalloc place hp1 w1) as [[o hp2] w2]. destruct H as [S2 L2].
        destruct o as [leaf|e| | |]; try (split; [exact S2|lia]).
        pose proof (levels_pays (rh opn - 1) leaf w2 S2) as H. destruct (h_push_levels _ _ _ _ _ _) as [[[o chain] hp3] w3]. destruct H as [S3 L3].
        destruct o as [u|e| | |]; try (split; [exact S3|lia]).
        match goal with |- context [HeapModel.lift ?m hp3 w3] => assert (keeps m) as KK by ks; pose proof (sp_lift w3 KK S3) as H; destruct (HeapModel.lift m hp3 w3) as [[o hp4] w4] end.
        destruct H as [S4 ->]. split; [exact S4|lia].
    Qed.
    Lemma from_sorted_pays fuel : forall mi root cur len hp w, slim hp ->
      let '(_, _, _, hp', w') := hx_from_sorted nalloc place kcmp fuel mi root cur len hp w in slim hp' /\ cnt w' <= cnt w + both_left mi.
    Proof.
      induction fuel as [|fuel IH]; intros mi root cur len hp w S; cbn [hx_from_sorted]; [split; [exact S|lia]|].
      pose proof (merge_pays mi w S) as H. destruct (hx_merge_next kcmp mi hp w) as [[[o mi'] hp1] w1]. destruct H as [S1 L1].
      destruct o as [[x|]|e| | |]; try (split; [exact S1|lia]).
      pose proof (sorted_pays x root cur w1 S1) as H. destruct (h_push_sorted _ _ _ _ _ _ _) as [[[o root'] hp2] w2]. destruct H as [S2 L2].
      destruct o as [cur'|e| | |]; try (split; [exact S2|lia]).
      specialize (IH mi' root' cur' (len + 1) hp2 w2 S2). destruct (hx_from_sorted _ _ _ _ _ _ _ _ _ _) as [[[[o3 m3] mi3] hp3] w3]. destruct IH. split; [assumption|lia].
    Qed.
    Lemma intoit_len m hp it hp' : @h_into_iter K V m hp = Some (it, hp') -> hleft it = mlen m.
    Proof.
      unfold h_into_iter, hbind, hret. destruct (h_first_leaf_edge _ _ _) as [[a hp1]|]; [|discriminate]. destruct (h_last_leaf_edge _ _ _) as [[b hp2]|]; [|discriminate].
      intros [= <- <-]. reflexivity.
    Qed.
    Lemma append_pays m o : forall hp w, slim hp ->
      let '(_, _, _, hp', w') := hx_append nalloc place kcmp m o hp w in slim hp' /\ cnt w' <= cnt w + (mlen m + mlen o).
    Proof.
      intros hp w S. unfold hx_append. destruct (mlen o =? 0); [split; [exact S|lia]|]. destruct (mlen m =? 0); [split; [exact S|lia]|].
      match goal with |- context [HeapModel.lift ?mm hp w] => assert (keeps mm) as KK by ks; pose proof (sp_lift w KK S) as H;
        assert (forall mi hp', mm hp = Some (mi, hp') -> both_left mi = mlen m + mlen o) as EL; [|unfold HeapModel.lift at 1 in H; unfold HeapModel.lift at 1; destruct (mm hp) as [[mi hp1]|] eqn:E] end.
      { intros mi hp'. unfold hbind at 1. destruct (h_into_iter m hp) as [[li hpa]|] eqn:E1; [|discriminate]. unfold hbind.
        destruct (h_into_iter o hpa) as [[ri hpb]|] eqn:E2; [|discriminate]. intros [= <- <-]. unfold both_left, left_in. cbn [hml hmr hpinner hpk].
        rewrite (intoit_len _ _ E1), (intoit_len _ _ E2). lia. }
      2:{ split; [exact S|lia]. }
      specialize (EL _ _ eq_refl). clear E. destruct H as [S1 _].
      pose proof (ensure_pays h_new w S1) as H. destruct (h_ensure_root_is_owned nalloc place h_new hp1 w) as [[[o2 m1] hp2] w2]. destruct H as (S2 & L2 & _).
      destruct o2 as [u|e| | |]; try (split; [exact S2|lia]).
      - match goal with |- context [HeapModel.lift ?m hp2 w2] => assert (keeps m) as KK2 by ks; pose proof (sp_lift w2 KK2 S2) as H; destruct (HeapModel.lift m hp2 w2) as [[o3 hp3] w3] end.
        destruct H as [S3 ->]. destruct o3 as [cur|e| | |]; try (split; [exact S3|lia]).
        pose proof (from_sorted_pays (mlen m + mlen o + 1) mi (mroot m1) cur 0 w2 S3) as H. destruct (hx_from_sorted _ _ _ _ _ _ _ _ _ _) as [[[[o4 m4] mi4] hp4] w4]. destruct H as [S4 L4].
        destruct o4 as [u4|e| | |]; try (split; [exact S4|lia]).
        + match goal with |- context [HeapModel.lift ?m hp4 w4] => assert (keeps m) as KK4 by ks; pose proof (sp_lift w4 KK4 S4) as H; destruct (HeapModel.lift m hp4 w4) as [[o5 hp5] w5] end.
          destruct H as [S5 ->]. split; [exact S5|lia].
        + pose proof (sp_lift w4 (k_dropm mi4) S4) as H; destruct (lift (h_drop_merge mi4) hp4 w4) as [[o5 hp5] w5].
          destruct H as [S5 ->]. split; [exact S5|lia].
      - pose proof (sp_lift w2 (k_dropm mi) S2) as H; destruct (lift (h_drop_merge mi) hp2 w2) as [[o5 hp5] w5]. destruct H as [S5 ->]. split; [exact S5|lia].
    Qed.
    Lemma split_pays q m : (forall k, single (q k)) -> spends (hx_split_off nalloc place q m) (CAPACITY * S (rh (mroot m))).
    Proof.
      intros Hq hp w S. unfold hx_split_off. destruct (mlen m =? 0); [split; [exact S|lia]|].
      pose proof (leaf_pays 0 w S) as H. destruct (h_new_leaf nalloc place hp w) as [[o hp1] w1]. destruct H as [S1 L1].
      assert (forall (x : hmap) hp w, slim hp -> cnt w <= cnt w1 + CAPACITY * Datatypes.S (rh (mroot m)) -> forall (oo : outcome reserve_error hmap), let '(_, _, hp', w') :=
        match h_drop x hp with Some (_, hp2) => (oo, m, hp2, w) | None => (UB, m, hp, w) end in slim hp' /\ cnt w' <= cnt w1 + CAPACITY * Datatypes.S (rh (mroot m))) as DR.
      { intros x hpx wx Sx Lx oo. destruct (h_drop x hpx) as [[u hp2]|] eqn:E; (split; [|exact Lx]); [exact (k_drop _ Sx E)|exact Sx]. }
      assert (forall y : outcome reserve_error hmap * hmap * heap * W, (let '(_, _, hp', w') := y in slim hp' /\ cnt w' <= cnt w1 + CAPACITY * Datatypes.S (rh (mroot m))) ->
        let '(_, _, hp', w') := y in slim hp' /\ cnt w' <= cnt w + CAPACITY * Datatypes.S (rh (mroot m))) as WK.
      { intros [[[y1 y2] y3] y4] [Y1 Y2]. split; [exact Y1|]. lia. }
      destruct o as [leaf|e| | |]; try (apply WK, DR; [exact S1|lia]).
      pose proof (levels_pays (rh (mroot m)) leaf w1 S1) as H. destruct (h_push_levels _ _ _ _ _ _) as [[[o r] hp2] w2]. destruct H as [S2 L2].
      destruct o as [u|e| | |]; try (apply WK, DR; [exact S2|lia]).
      pose proof (split_loop_pays q Hq (Datatypes.S (rh (mroot m))) (mroot m) r w2 S2) as H. destruct (hx_split_loop _ _ _ _ _ _) as [[o hp3] w3]. destruct H as [S3 L3].
      destruct o as [u3|e| | |]; try (split; [exact S3|lia]); [|apply WK, DR; [exact S3|lia]].
      match goal with |- context [HeapModel.lift ?m hp3 w3] => assert (keeps m) as KK by ks; pose proof (sp_lift w3 KK S3) as H; destruct (HeapModel.lift m hp3 w3) as [[o4 hp4] w4] end.
      destruct H as [S4 ->]. destruct o4 as [[rm self]|e| | |]; (split; [exact S4|lia]).
    Qed.

    (** ** clones ask nothing *)
    Section Clone.
      Variables (kclone : K -> W -> outcome reserve_error K * W) (vclone : V -> W -> outcome reserve_error V * W).
      Hypotheses (Hkc : forall k w, cnt (snd (kclone k w)) = cnt w) (Hvc : forall v w, cnt (snd (vclone v w)) = cnt w).
      Lemma kvc_pays x n : pays (h_kv_clone kclone vclone x) n (fun _ => n).
      Proof.
        intros hp w S. unfold h_kv_clone. specialize (Hkc (fst x) w). destruct (kclone (fst x) w) as [o w1]. cbn in Hkc.
        destruct o as [k|e| | |]; try (cbn; split; [exact S|lia]). specialize (Hvc (snd x) w1). destruct (vclone (snd x) w1) as [o2 w2]. cbn in Hvc.
        destruct o2 as [v|e| | |]; cbn; (split; [exact S|lia]).
      Qed.
      Lemma unwind_pays A (o : outcome reserve_error A) out n : pays (unwind (W := W) o out) n (fun _ => n).
      Proof.
        intros hp w S. unfold unwind. destruct o as [a|e| | |]; try (cbn; split; [exact S|lia]);
          (destruct (h_drop out hp) as [[u hp1]|] eqn:E; cbn; (split; [|lia]); [exact (k_drop _ S E)|exact S]).
      Qed.
      Lemma cleaf_pays n fuel : forall e out, pays (h_clone_leaf kclone vclone fuel e out) n (fun _ => n).
      Proof.
        induction fuel as [|fuel IH]; intros e out hp w S; cbn [h_clone_leaf]; [split; [exact S|lia]|].
        match goal with |- context [HeapModel.lift ?m hp w] => assert (keeps m) as KK by ks; pose proof (sp_lift w KK S) as H; destruct (HeapModel.lift m hp w) as [[o hp1] w1] end.
        destruct H as [S1 ->]. destruct o as [[[x e']|]|er| | |]; try (cbn; split; [exact S1|lia]).
        pose proof (kvc_pays x 0 w S1) as H. destruct (h_kv_clone kclone vclone x hp1 w) as [[o hp2] w2]. destruct H as [S2 L2].
        assert (cnt w2 <= cnt w) as L by (destruct o; lia). clear L2.
        destruct o as [y|er| | |];
          try (match goal with |- context [unwind ?o ?out hp2 w2] => pose proof (unwind_pays o out n w2 S2) as H; destruct (unwind o out hp2 w2) as [[? ?] ?]; destruct H; split; [assumption|lia] end).
        pose proof (sp_lift w2 (k_lpush (mroot out) y) S2) as H. destruct (lift _ hp2 w2) as [[o hp3] w3]. destruct H as [S3 ->].
        destruct o as [u|er| | |]; try (cbn; split; [exact S3|lia]).
        specialize (IH e' (HMap (mroot out) (mlen out + 1)) hp3 w2 S3). destruct (h_clone_leaf _ _ _ _ _ _ _) as [[o hp4] w4]. destruct IH. split; [assumption|lia].
      Qed.
      Lemma cint_pays sub fuel : (forall r, pays (sub r) 0 (fun _ => 0)) -> forall e out, pays (h_clone_internal kclone vclone sub fuel e out) 0 (fun _ => 0).
      Proof.
        intros HS. induction fuel as [|fuel IH]; intros e out hp w S; cbn [h_clone_internal]; [split; [exact S|lia]|].
        match goal with |- context [HeapModel.lift ?m hp w] => assert (keeps m) as KK by ks; pose proof (sp_lift w KK S) as H; destruct (HeapModel.lift m hp w) as [[o hp1] w1] end.
        destruct H as [S1 ->]. destruct o as [[[x e']|]|er| | |]; try (cbn; split; [exact S1|lia]).
        pose proof (kvc_pays x 0 w S1) as H. destruct (h_kv_clone kclone vclone x hp1 w) as [[o hp2] w2]. destruct H as [S2 L2].
        assert (cnt w2 <= cnt w) as L by (destruct o; lia). clear L2.
        destruct o as [y|er| | |];
          try (match goal with |- context [unwind ?o ?out hp2 w2] => pose proof (unwind_pays o out 0 w2 S2) as H; destruct (unwind o out hp2 w2) as [[? ?] ?]; destruct H; split; [assumption|lia] end).
        assert (pays (abind (lift (h_descend e')) sub) 0 (fun _ => 0)) as PS by (eapply p_bind; [apply p_lift0; auto with slim|exact HS]).
        specialize (PS hp2 w2 S2). destruct (abind (lift (h_descend e')) sub hp2 w2) as [[o hp3] w3]. destruct PS as [S3 L3'].
        assert (cnt w3 <= cnt w) as L3 by (destruct o; lia). clear L3'.
        destruct o as [s|er| | |];
          try (match goal with |- context [unwind ?o ?out hp3 w3] => pose proof (unwind_pays o out 0 w3 S3) as H; destruct (unwind o out hp3 w3) as [[? ?] ?]; destruct H; split; [assumption|lia] end).
        pose proof (sp_lift w3 (k_ipush (mroot out) y (mroot s)) S3) as H. destruct (lift _ hp3 w3) as [[o hp4] w4]. destruct H as [S4 ->].
          destruct o as [u|er| | |]; try (cbn; split; [exact S4|lia]).
          specialize (IH e' (HMap (mroot out) (mlen out + (1 + mlen s))) hp4 w3 S4). destruct (h_clone_internal _ _ _ _ _ _ _ _) as [[o hp5] w5]. destruct IH. split; [assumption|lia].
      Qed.
      Lemma csub_pays fuel : forall r, pays (h_clone_subtree nalloc place kclone vclone fuel r) 0 (fun _ => 0).
      Proof.
        induction fuel as [|fuel IH]; intros r hp w S; cbn [h_clone_subtree]; [split; [exact S|lia]|]. destruct (rh r).
        - pose proof (leaf_pays 0 w S) as H. destruct (h_new_leaf nalloc place hp w) as [[o hp1] w1]. destruct H as [S1 L1].
          assert (cnt w1 <= cnt w) as L by (destruct o; lia). clear L1. destruct o as [leaf|er| | |]; try (cbn; split; [exact S1|lia]).
          match goal with |- context [abind ?m ?f hp1 w1] => assert (pays (abind m f) 0 (fun _ => 0)) as PS end.
          { eapply p_bind; [apply p_lift0; auto with slim|]. intros e. apply (cleaf_pays 0). }
          specialize (PS hp1 w1 S1). destruct (abind _ _ hp1 w1) as [[o hp2] w2]. destruct PS. split; [assumption|lia].
        - match goal with |- context [abind ?m ?f hp w] => assert (pays (abind m f) 0 (fun _ => 0)) as PS end.
          { eapply p_bind; [apply p_lift0; ks|]. intros e. apply IH. }
          specialize (PS hp w S). destruct (abind _ _ hp w) as [[o hp1] w1]. destruct PS as [S1 L1].
          assert (cnt w1 <= cnt w) as L by (destruct o; lia). clear L1. destruct o as [out|er| | |]; try (cbn; split; [exact S1|lia]).
          pose proof (level_pays (mroot out) 0 w1 S1) as H. destruct (h_push_level nalloc place (mroot out) hp1 w1) as [[o hp2] w2]. destruct H as [S2 L2'].
          assert (cnt w2 <= cnt w) as L2 by (destruct o; lia). clear L2'.
          destruct o as [root'|er| | |];
            try (match goal with |- context [unwind ?o ?out hp2 w2] => pose proof (unwind_pays o out 0 w2 S2) as H; destruct (unwind o out hp2 w2) as [[? ?] ?]; destruct H; split; [assumption|lia] end).
          match goal with |- context [abind ?m ?f hp2 w2] => assert (pays (abind m f) 0 (fun _ => 0)) as PS end.
          { eapply p_bind; [apply p_lift0; auto with slim|]. intros e. apply cint_pays. exact IH. }
          specialize (PS hp2 w2 S2). destruct (abind _ _ hp2 w2) as [[o hp3] w3]. destruct PS. split; [assumption|lia].
      Qed.
      Lemma tclone_pays m : pays (h_try_clone nalloc place kclone vclone m) 0 (fun _ => 0).
      Proof. unfold h_try_clone. destruct (mlen m =? 0); [intros hp w S; split; [exact S|lia]|apply csub_pays]. Qed.
      Lemma clone_pays m : pays (h_clone nalloc place kclone vclone m) 0 (fun _ => 0).
      Proof.
        intros hp w S. unfold h_clone. pose proof (tclone_pays m w S) as H. destruct (h_try_clone _ _ _ _ _ _ _) as [[o hp1] w1]. destruct H as [S1 L1].
        split; [exact S1|]. destruct o; cbn; lia.
      Qed.
    End Clone.
  End Alloc.
End Pays.
