(** * BTreeCollect: extend, from_iter, collecting into sets, comparison, hashing, cost *)
From Coq Require Import List Arith Lia Bool Sorted.
From Verif Require Import Base MapSpec MergeSpec SpecFacts SetSpec IterSpec BTreeModel BTreeInv BTreeLemmas BTreeSearch BTreeInsert BTreeIterModel BTreeIterProofs BTreeOps BTreeBulkModel BTreeSetModel BTreeSets.
Import ListNotations.
Set Implicit Arguments.

Section Collect.
  Variables (K V W : Type) (nalloc : bool -> W -> option reserve_error * W) (cmp : K -> K -> comparison).
  Hypothesis laws : ord_laws cmp.
  Notation kv := (K * V)%type.
  Notation bmap := (bmap K V).
  Implicit Types (m : bmap) (l : list kv).

  (** inserting the pairs one after the other *)
  Definition s_insert_all l (s : list kv) : list kv := fold_left (fun s x => s_insert cmp (fst x) (snd x) s) l s.

  Lemma extend_ok l : forall m w, valid cmp m ->
    let '(o, m', w') := extend nalloc cmp l m w in
    match o with
    | Ret _ => valid cmp m' /\ entries m' = s_insert_all l (entries m)
    | Panic => exists done x rest m1 e, l = done ++ x :: rest /\ valid cmp m1 /\ entries m1 = s_insert_all done (entries m) /\
        refused nalloc e /\ s_get (cmp (fst x)) (entries m1) = None /\ torn cmp m1 m' (fst x) (snd x)
    | _ => False
    end.
  Proof.
    induction l as [|x l IH]; intros m w [Hm Hs]; cbn [extend]; [split; [split; auto|reflexivity]|].
    pose proof (@try_insert_ok K V W nalloc cmp laws (fst x) (snd x) m w Hm Hs) as HT.
    destruct (try_insert nalloc cmp (fst x) (snd x) m w) as [[o m1] w1]. destruct o as [old|e| | |]; try contradiction.
    - destruct HT as (_ & Hm1 & E1 & _). assert (Hv : valid cmp m1) by (split; auto; rewrite E1; now apply s_insert_sorted).
      specialize (IH m1 w1 Hv). destruct (extend nalloc cmp l m1 w1) as [[o2 m2] w2]. destruct o2; try contradiction.
      + destruct IH as [H1 H2]. split; auto. rewrite H2, E1. reflexivity.
      + destruct IH as (done & y & rest & m3 & e & -> & Hm3 & E3 & R). exists (x :: done), y, rest, m3, e. split; auto. split; auto.
        split; [|auto]. rewrite E3, E1. reflexivity.
    - destruct HT as (Hr & Hg & Ht). exists [], x, l, m, e. split; auto. split; [split; auto|]. split; auto.
  Qed.

  Lemma Forall2_len A B (P : A -> B -> Prop) (l1 : list A) (l2 : list B) : Forall2 P l1 l2 -> length l1 = length l2.
  Proof. induction 1; simpl; auto. Qed.

  (** ** Comparison and hashing *)
  Definition iholds (it : iter K V) l : Prop := exists H T a b, iter_ok H T a b it /\ seg (inorder T) a b = l.
  Lemma inext_ok it l : iholds it l ->
    match l with
    | [] => exists it', iter_next it = Ret (None, it') /\ iholds it' []
    | x :: l' => exists ad it', iter_next it = Ret (Some (x, ad), it') /\ iholds it' l'
    end.
  Proof.
    intros (H & Tn & a & b & Hok & E). pose proof (iter_next_ok Hok) as Hn.
    destruct (Nat.eqb_spec a b) as [->|Hab].
    - destruct Hn as (it' & -> & Hok'). rewrite seg_nil in E. subst l. exists it'. split; auto.
      exists H, Tn, b, b. split; auto. now rewrite seg_nil.
    - destruct Hn as ([x ad] & it' & -> & Hx & _ & Hok'). pose proof (between_bound (proj1 Hok)) as Hb.
      rewrite (@seg_front _ _ a b x) in E by (auto; lia). subst l. exists ad, it'. split; auto.
      exists H, Tn, (S a), b. auto.
  Qed.
  Lemma miter_ok m : sound m -> exists it, map_iter m = Ret it /\ iholds it (entries m).
  Proof.
    intros (Hb & _ & Hl). destruct (map_iter_ok m) as (it & E & Hok); auto.
    { destruct Hb as [_ Hb]. eapply kids_weaken; [|exact Hb]. now unfold any. }
    exists it. split; auto. exists (bheight m), (bnode m), 0, (length (entries m)). split; auto.
    unfold entries. now rewrite seg_all.
  Qed.

  Fixpoint pairs_all (eqb : kv -> kv -> bool) l r : bool :=
    match l, r with x :: l', y :: r' => eqb x y && pairs_all eqb l' r' | _, _ => true end.
  Lemma zip_all_ok eqb fuel : forall a b l r, iholds a l -> iholds b r -> length l < fuel ->
    zip_all eqb fuel a b = Ret (pairs_all eqb l r).
  Proof.
    induction fuel as [|fuel IH]; intros a b l r Ha Hb Hf; [lia|]. cbn [zip_all]. pose proof (inext_ok Ha) as Hn. pose proof (inext_ok Hb) as Hn2.
    destruct l as [|x l]; [destruct Hn as (a' & -> & _); reflexivity|]. destruct Hn as (ad & a' & -> & Ha').
    destruct r as [|y r]; [destruct Hn2 as (b' & -> & _); reflexivity|]. destruct Hn2 as (ad2 & b' & -> & Hb').
    cbn [fst pairs_all]. destruct (eqb x y); auto. cbn [andb]. apply IH; auto. simpl in Hf. lia.
  Qed.
  Lemma pairs_all_Forall2 eqb l : forall r, length l = length r -> (pairs_all eqb l r = true <-> Forall2 (fun x y => eqb x y = true) l r).
  Proof.
    induction l as [|x l IH]; intros [|y r] H; try discriminate; simpl.
    - split; constructor.
    - rewrite andb_true_iff, IH by (simpl in H; lia). split; [intros []; constructor; auto|]. intros HF. inversion HF; auto.
  Qed.
  Lemma map_eq_ok eqb m1 m2 : sound m1 -> sound m2 ->
    exists b, map_eq eqb m1 m2 = Ret b /\ (b = true <-> Forall2 (fun x y => eqb x y = true) (entries m1) (entries m2)).
  Proof.
    intros H1 H2. unfold map_eq. assert (E1 : len m1 = length (entries m1)) by apply H1. assert (E2 : len m2 = length (entries m2)) by apply H2.
    rewrite E1, E2. destruct (Nat.eqb_spec (length (entries m1)) (length (entries m2))) as [E|E].
    - destruct (miter_ok H1) as (a & -> & Ha). destruct (miter_ok H2) as (b & -> & Hb).
      rewrite (@zip_all_ok eqb _ a b _ _ Ha Hb) by lia. eexists. split; [reflexivity|]. now apply pairs_all_Forall2.
    - exists false. split; auto. split; [discriminate|]. intros HF. apply Forall2_len in HF. lia.
  Qed.

  (** lexicographic comparison; [None]: two entries are not comparable *)
  Fixpoint lex (c : kv -> kv -> option comparison) l r : option comparison :=
    match l, r with
    | [], [] => Some Eq
    | [], _ :: _ => Some Lt
    | _ :: _, [] => Some Gt
    | x :: l', y :: r' => match c x y with Some Eq => lex c l' r' | o => o end
    end.
  Lemma iter_cmp_ok c fuel : forall a b l r, iholds a l -> iholds b r -> length l < fuel -> iter_cmp c fuel a b = Ret (lex c l r).
  Proof.
    induction fuel as [|fuel IH]; intros a b l r Ha Hb Hf; [lia|]. cbn [iter_cmp]. pose proof (inext_ok Ha) as Hn. pose proof (inext_ok Hb) as Hn2.
    destruct l as [|x l].
    - destruct Hn as (a' & -> & _). destruct r as [|y r]; [destruct Hn2 as (b' & -> & _)|destruct Hn2 as (ad2 & b' & -> & Hb')]; reflexivity.
    - destruct Hn as (ad & a' & -> & Ha'). destruct r as [|y r]; [destruct Hn2 as (b' & -> & _); reflexivity|]. destruct Hn2 as (ad2 & b' & -> & Hb').
      cbn [fst lex]. simpl in Hf. destruct (c x y) as [[| |]|]; auto. apply IH; auto. lia.
  Qed.
  Lemma map_partial_cmp_ok c m1 m2 : sound m1 -> sound m2 -> map_partial_cmp c m1 m2 = Ret (lex c (entries m1) (entries m2)).
  Proof.
    intros H1 H2. unfold map_partial_cmp. assert (E1 : len m1 = length (entries m1)) by apply H1.
    destruct (miter_ok H1) as (a & -> & Ha). destruct (miter_ok H2) as (b & -> & Hb). apply iter_cmp_ok; auto. lia.
  Qed.
  Lemma hash_loop_ok St (feed : kv -> St -> St) fuel : forall a l s, iholds a l -> length l < fuel ->
    hash_loop feed fuel a s = Ret (fold_left (fun s x => feed x s) l s).
  Proof.
    induction fuel as [|fuel IH]; intros a l s Ha Hf; [lia|]. cbn [hash_loop]. pose proof (inext_ok Ha) as Hn.
    destruct l as [|x l]; [destruct Hn as (a' & -> & _); reflexivity|]. destruct Hn as (ad & a' & -> & Ha'). cbn [fst fold_left].
    apply IH; auto. simpl in Hf. lia.
  Qed.
  Lemma map_hash_ok St (feed : kv -> St -> St) m s : sound m -> map_hash feed m s = Ret (fold_left (fun s x => feed x s) (entries m) s).
  Proof.
    intros H1. unfold map_hash. assert (E1 : len m = length (entries m)) by apply H1. destruct (miter_ok H1) as (a & -> & Ha).
    apply hash_loop_ok; auto. lia.
  Qed.
End Collect.

(** ** Collecting the clones of an ascending sequence into a set *)
Section CollectSet.
  Variables (T W : Type) (nalloc : bool -> W -> option reserve_error * W) (cmp : T -> T -> comparison).
  Variable tclone : T -> W -> outcome Empty_set T * W.
  Hypothesis laws : ord_laws cmp.
  (** a clone compares equal to its original *)
  Definition clone_lawful : Prop := forall x w y w', tclone x w = (Ret y, w') -> cmp x y = Eq.
  Definition copy_of (x y : T) : Prop := exists w w', tclone x w = (Ret y, w').
  Hypothesis lawful : clone_lawful.

  Lemma member_get x s : member cmp x (elems s) <-> s_get (cmp x) (entries s) <> None.
  Proof. rewrite <- (memb_ok cmp). unfold memb, elems. rewrite <- find_map_fst. unfold s_get. destruct (find _ _); split; congruence. Qed.

  Lemma set_try_insert_ok x s w : set_valid cmp s ->
    let '(o, s', w') := set_try_insert cmp nalloc x s w in
    match o with
    | Ret b => (b = true <-> ~ member cmp x (elems s)) /\ set_valid cmp s' /\
        entries s' = s_insert cmp x tt (entries s) /\ (b = false -> elems s' = elems s /\ w' = w)
    | Err e => refused nalloc e /\ ~ member cmp x (elems s) /\ torn cmp s s' x tt
    | _ => False
    end.
  Proof.
    intros [Hm Hs]. unfold set_try_insert. pose proof (@try_insert_ok T unit W nalloc cmp laws x tt s w Hm Hs) as HT.
    pose proof (member_get x s) as HM.
    destruct (try_insert nalloc cmp x tt s w) as [[o s1] w1]. destruct o as [old|e| | |]; try contradiction; cbn [omap].
    - destruct HT as (Eo & Hm1 & E1 & Hw).
      assert (Hv1 : set_valid cmp s1) by (split; auto; rewrite E1; now apply s_insert_sorted).
      split; [|split; [exact Hv1|split; [exact E1|]]].
      + rewrite HM, Eo. destruct (s_get _ _); cbn; intuition congruence.
      + intros Hb. assert (Ho : old <> None) by (destruct old; discriminate || congruence). split; [|auto].
        assert (Hg : s_get (cmp x) (entries s) <> None) by (intros H; rewrite H in Eo; auto).
        unfold elems. rewrite E1, s_insert_present, s_update_keys; auto.
    - destruct HT as (Hr & Hg & Ht). split; auto. split; auto. rewrite HM. congruence.
  Qed.

  (** appending at the end *)
  Lemma s_insert_last x (l : list (T * unit)) : Forall (fun y => cmp (fst y) x = Lt) l -> s_insert cmp x tt l = l ++ [(x, tt)].
  Proof.
    induction 1 as [|[a []] l Hy H IH]; simpl; auto. cbn [fst] in Hy. rewrite (cmp_antisym laws a x), Hy. simpl. now rewrite IH.
  Qed.

  Section Run.
    Variables (St : Type) (next : St -> outcome Empty_set (option T * St)) (R : St -> list T -> Prop).
    Hypothesis step_ok : forall s l, R s l -> exists s', next s = Ret (hd_error l, s') /\ R s' (tl l).

    Definition oom_or_clone (o : outcome Empty_set unit) (s' : bset T) : Prop :=
      (o = Panic /\ exists e, refused nalloc e) \/ ((exists x w o' w', tclone x w = (o', w') /\ omap (fun _ => tt) o' = o) /\ set_valid cmp s').

    Lemma collect_cloned_ok fuel : forall st l s w orig, R st l -> ascending cmp (orig ++ l) -> set_valid cmp s ->
      Forall2 copy_of orig (elems s) -> length l < fuel ->
      let '(o, s', w') := collect_cloned cmp nalloc tclone next fuel st s w in
      match o with
      | Ret _ => set_valid cmp s' /\ Forall2 copy_of (orig ++ l) (elems s')
      | _ => oom_or_clone o s'
      end.
    Proof.
      induction fuel as [|fuel IH]; intros st l s w orig HR HA Hv HC Hf; [lia|]. cbn [collect_cloned].
      destruct (step_ok HR) as (st' & -> & HR'). destruct l as [|x l]; cbn [hd_error tl] in *; [rewrite app_nil_r; auto|].
      destruct (tclone x w) as [oc w1] eqn:Ec. destruct oc as [y|e| | |]; try (right; split; [exists x, w; eexists _, w1; split; [exact Ec|reflexivity]|exact Hv]).
      pose proof (@set_try_insert_ok y s w1 Hv) as HI. destruct (set_try_insert cmp nalloc y s w1) as [[o s2] w2].
      destruct o as [b|e| | |]; try contradiction; [|left; split; [reflexivity|exists e; tauto]].
      destruct HI as (_ & Hv2 & E2 & _).
      assert (Ey : entries s2 = entries s ++ [(y, tt)]).
      { rewrite E2. apply s_insert_last. pose proof (lawful Ec) as Hxy.
        assert (G : Forall (fun z => cmp z y = Lt) (elems s)).
        { clear -HA HC laws lawful Hxy. revert HA. induction HC as [|a b la lb Hab HC IH]; simpl; intros HA; constructor.
          - apply asc_cons in HA. destruct HA as [_ HF]. rewrite Forall_app in HF. destruct HF as [_ HF]. inversion HF; subst.
            destruct Hab as (wa & wa' & Hab). apply lawful in Hab. rewrite <- (cmp_eq_l laws _ _ _ Hab). rewrite <- (@cmp_eq_r _ _ laws _ _ a Hxy). auto.
          - apply IH. now apply asc_cons in HA. }
        unfold elems in G. rewrite Forall_map in G. exact G. }
      replace (orig ++ x :: l) with ((orig ++ [x]) ++ l) in HA |- * by (rewrite <- app_assoc; reflexivity).
      apply IH; auto.
      - unfold elems in *. rewrite Ey, map_app. apply Forall2_app; auto. constructor; [exists w, w1; exact Ec|constructor].
      - simpl in Hf. lia.
    Qed.

    Lemma new_set_valid : set_valid cmp (set_new T).
    Proof.
      split; [|constructor]. split; [|split; auto]. split; [split; [apply Nat.le_0_l|cbn; lia]|reflexivity].
    Qed.

    Lemma started_ok (o : outcome Empty_set St) st l fuel w : o = Ret st -> R st l -> ascending cmp l -> length l < fuel ->
      let '(o, s', w') := started cmp nalloc tclone o next fuel w in
      match o with
      | Ret _ => set_valid cmp s' /\ Forall2 copy_of l (elems s')
      | _ => oom_or_clone o s'
      end.
    Proof.
      intros -> HR HA Hf. cbn [started]. apply (@collect_cloned_ok fuel st l (set_new T) w []); auto. apply new_set_valid. constructor.
    Qed.
  End Run.
End CollectSet.
