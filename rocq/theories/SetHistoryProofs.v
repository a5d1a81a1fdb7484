(** * SetHistoryProofs: every step of a program over sets refines the specification *)
From Coq Require Import List Arith Lia Bool Sorted Permutation.
From Verif Require Import Base MapSpec MergeSpec SpecFacts IterSpec SetSpec BTreeModel BTreeInv BTreeLemmas BTreeSearch BTreeInsert BTreeRemove
  BTreeIterModel BTreeStep BTreeIterProofs BTreeRange BTreeBulkModel BTreeSplit BTreeAppend BTreeClone BTreeOps BTreeEntry BTreeSetModel BTreeViewModel BTreeViews
  BTreeSets BTreeCollect BTreeWrites Properties_BTree Properties_BTree2 HistoryModel HistorySpec HistoryProofs Properties_History Properties_Set
  SetHistoryModel SetHistorySpec.
Import ListNotations.
Set Implicit Arguments.

(** dropping a map ends or is undefined behaviour: it neither panics nor aborts (elements aside) *)
Lemma drop_map_outcome K V (m : bmap K V) : match drop_map m with Panic | Abort => False | _ => True end.
Proof.
  unfold drop_map. destruct (map_into_iter m) as [it| | | |] eqn:Ei; auto;
    [|unfold map_into_iter in Ei; repeat match type of Ei with context [match ?x with _ => _ end] => destruct x end; discriminate..].
  unfold drop_into_iter. clear Ei m.
  assert (N : forall (it : into_iter K V), match into_next it with Panic | Abort => False | _ => True end).
  { intros i. unfold into_next. destruct (nleft_ i =? 0); auto. destruct (negb _); auto. destruct (next_unchecked _); auto.
    destruct (dealloc_all _ _ _); auto. destruct (spine_alive _ _); auto. }
  assert (D : forall n (it : into_iter K V), match drain n it with Panic | Abort => False | _ => True end).
  { induction n as [|n IH]; intros i; cbn [drain]; specialize (N i); destruct (into_next i) as [[[x|] i']| | | |]; auto.
    specialize (IH i'). destruct (drain n i') as [[]| | | |]; auto. }
  specialize (D (nleft_ it) it). destruct (drain (nleft_ it) it) as [[l it']| | | |]; auto.
  destruct (nshared it'); auto. destruct (dealloc_all _ _ _); auto.
Qed.
Lemma drop_one_outcome K V (m : bmap K V) : drop_all [m] = Ret tt \/ drop_all [m] = UB.
Proof. pose proof (drop_map_outcome m) as H. cbn [drop_all]. destruct (drop_map m) as [[]|[]| | |]; auto; contradiction. Qed.

Section Proofs.
  Variables (T Q : Type) (cmp : T -> T -> comparison) (qcmp : Q -> Q -> comparison) (borrow : T -> Q).
  Hypothesis laws : ord_laws cmp.
  Hypothesis blaws : borrow_laws cmp qcmp borrow.
  Variables (W : Type) (nalloc : bool -> W -> option reserve_error * W).
  Variables (tclone : T -> W -> outcome Empty_set T * W) (teq : T -> T -> bool) (tpcmp : T -> T -> option comparison).
  Hypothesis lawful : clone_lawful cmp tclone.
  Notation kclone := (kclone_ tclone).
  Notation vclone := (@vclone_ W).
  Notation eqb := (eqb_ teq).
  Notation pcmp := (pcmp_ tpcmp).
  Notation mstep := (step nalloc cmp qcmp borrow kclone vclone eqb pcmp).
  Notation sstep := (sstep nalloc cmp qcmp borrow tclone teq tpcmp).
  Definition tclone_ends (u : outcome Empty_set unit) : Prop := exists x w, omap (fun _ => tt) (fst (tclone x w)) = u.
  Notation sspec := (sspec cmp qcmp borrow teq tpcmp (no_memory nalloc) (copy_of tclone) tclone_ends).
  Notation sgave_up := (@sgave_up T Q cmp (no_memory nalloc)).
  Notation mspec := (spec cmp qcmp borrow eqb pcmp (no_memory nalloc) (cloned kclone vclone) (clone_fails nalloc kclone vclone)).

  Definition srep (s : sregs T) (S : nat -> list T) : Prop := forall r, valid cmp (s r) /\ elems (s r) = S r.
  Definition sgood (c : sop T Q) (S : nat -> list T) (res : outcome reserve_error (sobs T) * sregs T * W) : Prop :=
    let '(o, s', _) := res in (exists S', sspec c S o S' /\ srep s' S') \/ sgave_up c S o.

  Lemma kclone_same : forall k w k' w', kclone k w = (Ret k', w') -> cmp k k' = Eq.
  Proof. unfold kclone_. intros k w k' w' E. destruct (tclone k w) as [[y|[]| | |] w1] eqn:Ec; inversion E; subst. eapply lawful; eauto. Qed.

  Lemma srep_rep s S : srep s S -> rep cmp s (fun r => entries (s r)).
  Proof. intros H r. split; [apply H|reflexivity]. Qed.
  Lemma rep_srep (s : sregs T) S1 : rep cmp s S1 -> srep s (fun r => map fst (S1 r)).
  Proof. intros H r. destruct (H r) as [Hv <-]. split; auto. Qed.
  Lemma srep_upd s S r m l : srep s S -> valid cmp m -> elems m = l -> srep (upd s r m) (upd S r l).
  Proof. intros H Hm El i. unfold upd. destruct (i =? r); auto. Qed.
  Lemma unchanged_refl (S : nat -> list T) : unchanged S S.
  Proof. intros i. reflexivity. Qed.

  (** facts about (x, ()) lists *)
  Lemma found_get x (l : list (T * unit)) : option_map fst (s_get (fun k => qcmp x (borrow k)) l) = found qcmp borrow x (map fst l).
  Proof.
    unfold s_get, found. induction l as [|[y u] l IH]; auto. cbn [find map fst]. unfold hit at 1. cbn [fst eqc].
    unfold eqc at 1. destruct (qcmp x (borrow y)); auto.
  Qed.
  Lemma find_get x (l : list (T * unit)) : option_map fst (s_get (cmp x) l) = find (fun y => eqc (cmp x y)) (map fst l).
  Proof.
    unfold s_get. induction l as [|[y u] l IH]; auto. cbn [find map fst]. unfold hit at 1. cbn [fst]. unfold eqc at 1. destruct (cmp x y); auto.
  Qed.
  Lemma inb_get x (l : list (T * unit)) : inb cmp x (map fst l) = is_some (s_get (cmp x) l).
  Proof.
    unfold s_get, inb. induction l as [|[y u] l IH]; auto. cbn [find map fst existsb]. unfold hit at 1. cbn [fst]. unfold eqc at 1. destruct (cmp x y); auto.
  Qed.
  Lemma without_remove x (l : list (T * unit)) : map fst (s_remove (fun k => qcmp x (borrow k)) l) = without qcmp borrow x (map fst l).
  Proof.
    unfold s_remove, without. induction l as [|[y u] l IH]; auto. cbn [filter map fst]. unfold hit at 1. cbn [fst]. unfold eqc at 1.
    destruct (qcmp x (borrow y)); cbn [negb map fst]; now rewrite IH.
  Qed.
  Lemma filter_false A (f : A -> bool) l : Forall (fun x => f x = false) l -> filter f l = [].
  Proof. induction 1 as [|x l Hx H IH]; auto. cbn [filter]. now rewrite Hx. Qed.
  Lemma filter_true A (f : A -> bool) l : Forall (fun x => f x = true) l -> filter f l = l.
  Proof. induction 1 as [|x l Hx H IH]; auto. cbn [filter]. now rewrite Hx, IH. Qed.
  Lemma insert_inserted x (l : list (T * unit)) : sorted cmp l -> map fst (s_insert cmp x tt l) = inserted cmp x (map fst l).
  Proof.
    intros Hs. unfold inserted. rewrite inb_get. destruct (s_get (cmp x) l) eqn:Eg; cbn [is_some].
    - rewrite (s_insert_present laws), s_update_keys; auto. congruence.
    - revert Eg. induction l as [|[y u] l IH]; intros Eg; auto. apply sorted_cons in Hs. destruct Hs as [Hs Ha].
      unfold s_get in Eg. cbn [find] in Eg. unfold hit at 1 in Eg. cbn [fst] in Eg. cbn [s_insert map fst filter].
      destruct (cmp x y) eqn:Ec; [discriminate| |]; cbn [gtc ltc].
      + unfold above in Ha. cbn [fst] in Ha. cbn [map fst].
        rewrite filter_false, filter_true; auto; rewrite Forall_map; eapply Forall_impl; try exact Ha; cbn beta; intros z Hz;
          now rewrite (cmp_lt_trans laws _ _ _ Ec Hz).
      + cbn [map fst app]. rewrite IH by auto. reflexivity.
  Qed.
  Lemma rekey_replaced x (l : list (T * unit)) : map fst (s_rekey (cmp x) x l) = map (fun y => if eqc (cmp x y) then x else y) (map fst l).
  Proof. unfold s_rekey. rewrite !map_map. apply map_ext. intros [y u]. unfold hit, eqc. cbn [fst]. now destruct (cmp x y). Qed.
  Lemma range_between lo hi (l : list (T * unit)) : map fst (s_range qcmp borrow lo hi l) = between_ qcmp borrow lo hi (map fst l).
  Proof.
    unfold s_range, between_. induction l as [|[y u] l IH]; auto. cbn [filter map fst]. rewrite <- IH. unfold within, above_start, below_end. cbn [fst].
    destruct lo as [a|a|], hi as [b|b|]; cbn [andb]; rewrite ?andb_true_r; try destruct (qcmp a (borrow y)); try destruct (qcmp b (borrow y)); reflexivity.
  Qed.
  Lemma below_between x (l : list (T * unit)) : map fst (s_below (fun k => qcmp x (borrow k)) l) = between_ qcmp borrow Unbounded (Excluded x) (map fst l).
  Proof.
    unfold s_below, between_. induction l as [|[y u] l IH]; auto. cbn [filter map fst]. rewrite <- IH. unfold smaller at 1. cbn [fst andb gtc].
    unfold gtc. destruct (qcmp x (borrow y)); reflexivity.
  Qed.
  Lemma from_between x (l : list (T * unit)) : map fst (s_from (fun k => qcmp x (borrow k)) l) = between_ qcmp borrow (Included x) Unbounded (map fst l).
  Proof.
    unfold s_from, between_. induction l as [|[y u] l IH]; auto. cbn [filter map fst]. rewrite <- IH. unfold smaller at 1. cbn [fst].
    rewrite andb_true_r. unfold gtc. destruct (qcmp x (borrow y)); reflexivity.
  Qed.
  Lemma lex_lexi (l r : list (T * unit)) : lex pcmp l r = lexi tpcmp (map fst l) (map fst r).
  Proof.
    revert r. induction l as [|x l IH]; intros [|y r]; auto. cbn [lex lexi map]. rewrite <- IH. reflexivity.
  Qed.
  Lemma Forall2_eqb (l r : list (T * unit)) :
    Forall2 (fun x y => eqb x y = true) l r <-> Forall2 (fun x y => teq x y = true) (map fst l) (map fst r).
  Proof.
    revert r. induction l as [|x l IH]; intros [|y r]; cbn [map]; split; intros H; inversion H; subst; constructor; auto; now apply IH.
  Qed.
  Lemma insert_all_inserted l : forall s0 : list (T * unit), sorted cmp s0 ->
    map fst (s_insert_all cmp (map (fun x => (x, tt)) l) s0) = fold_left (fun s x => inserted cmp x s) l (map fst s0).
  Proof.
    induction l as [|x l IH]; intros s0 Hs; auto. unfold s_insert_all in *. cbn [map fold_left fst snd]. rewrite IH; [|now apply s_insert_sorted].
    now rewrite insert_inserted.
  Qed.
  Lemma set_extend_extend l : forall (s : bset T) (w : W), set_extend cmp nalloc l s w = extend nalloc cmp (map (fun x => (x, tt)) l) s w.
  Proof.
    induction l as [|x l IH]; intros s w; auto. cbn [set_extend map extend fst snd]. unfold set_try_insert.
    destruct (try_insert nalloc cmp x tt s w) as [[[]s1] w1]; cbn [omap]; auto.
  Qed.
  Lemma append_with a b : sorted cmp a -> sorted cmp b ->
    all_with cmp (fun x => minus cmp (map fst a) (map fst b) x \/ In x (map fst b)) (map fst (s_append cmp a b : list (T * unit))).
  Proof.
    intros Ha Hb. split; [now apply map_fst_asc, s_append_sorted|]. intros x. rewrite <- merge2_append by auto.
    assert (G : forall a b : list (T * unit), sorted cmp a -> sorted cmp b ->
       (In x (map fst (merge2 cmp a b)) <-> (In x (map fst a) /\ ~ member cmp x (map fst b)) \/ In x (map fst b))).
    { clear a b Ha Hb. induction a as [|[p []] a IH]; intros b Ha Hb; [rewrite merge2_nil_l; cbn; tauto|].
      induction b as [|[q []] b IHb]; [rewrite merge2_nil_r; cbn [map In]; split; [intros H; left; split; auto; intros (? & [] & _)|tauto]|].
      pose proof Ha as Ha0. pose proof Hb as Hb0. apply sorted_cons in Ha. apply sorted_cons in Hb. destruct Ha as [Ha Fa], Hb as [Hb Fb].
      unfold above in Fa, Fb. cbn [fst] in Fa, Fb. rewrite Forall_forall in Fa, Fb.
      assert (Ma : forall z, In z (map fst a) -> cmp p z = Lt) by (intros z Hz; apply in_map_iff in Hz; destruct Hz as (e & <- & He); auto).
      assert (Mb : forall z, In z (map fst b) -> cmp q z = Lt) by (intros z Hz; apply in_map_iff in Hz; destruct Hz as (e & <- & He); auto).
      rewrite merge2_cons. cbn [fst]. destruct (cmp p q) eqn:Ec; cbn [map fst In].
      - rewrite IH by auto. split.
        + intros [->|[[H1 H2]|H]]; auto. left. split; auto. intros (z & [<-|Hz] & Ez); [|apply H2; exists z; auto].
          apply Ma in H1. rewrite (cmp_eq_l laws _ _ _ Ec) in H1. apply (cmp_lt_gt laws) in H1. congruence.
        + intros [[[->|H1] H2]|[->|H]]; auto.
          * exfalso. apply H2. exists q. split; [now left|auto].
          * right. left. split; auto. intros (z & Hz & Ez). apply H2. exists z. split; [now right|auto].
      - rewrite IH by auto. cbn [map fst In]. split.
        + intros [->|[[H1 H2]|H]]; auto. left. split; auto. intros (z & [<-|Hz] & Ez); [congruence|].
          apply Mb in Hz. rewrite (cmp_lt_trans laws _ _ _ Ec Hz) in Ez. discriminate.
        + intros [[[->|H1] H2]|[->|H]]; auto.
      - rewrite IHb by auto. cbn [map fst In]. split.
        + intros [->|[[H1 H2]|H]]; auto. left. split; auto. intros (z & [<-|Hz] & Ez); [|apply H2; exists z; auto].
          apply (cmp_gt laws) in Ec. destruct H1 as [<-|H1]; [apply (cmp_lt_gt laws) in Ec; congruence|].
          apply Ma in H1. pose proof (cmp_lt_trans laws _ _ _ Ec H1) as H3. apply (cmp_lt_gt laws) in H3. congruence.
        + intros [[H1 H2]|[->|H]]; auto. right. left. split; auto. intros (z & Hz & Ez). apply H2. exists z. split; [now right|auto]. }
    apply G; auto.
  Qed.

  (** ** The steps *)
  Lemma mgood c s S w : legal c -> srep s S ->
    let '(o, s', _) := mstep c s w in
    (exists S1, mspec c (fun r => entries (s r)) o S1 /\ rep cmp s' S1) \/ gave_up cmp (no_memory nalloc) c (fun r => entries (s r)) o.
  Proof. intros Hl H. apply (@step_good _ _ _ cmp qcmp borrow laws blaws W nalloc kclone vclone kclone_same eqb pcmp c s _ w Hl (srep_rep H)). Qed.
  Lemma fst_upd (S1 : nat -> list (T * unit)) r l i : map fst (upd S1 r l i) = upd (fun j => map fst (S1 j)) r (map fst l) i.
  Proof. unfold upd. destruct (i =? r); auto. Qed.
  Lemma upd_ext (S1 S2 : nat -> list T) r l i : (forall j, S1 j = S2 j) -> upd S1 r l i = upd S2 r l i.
  Proof. intros H. unfold upd. destruct (i =? r); auto. Qed.
  (** from lists of entries to lists of elements *)
  Lemma same_unchanged s S S1 : srep s S -> same (fun r => entries (s r)) S1 -> unchanged S (fun r => map fst (S1 r)).
  Proof. intros H HS i. rewrite HS. apply H. Qed.
  Lemma same_upd s S S1 r l : srep s S -> same (upd (fun r => entries (s r)) r l) S1 -> unchanged (upd S r (map fst l)) (fun r => map fst (S1 r)).
  Proof. intros H HS i. rewrite HS, fst_upd. apply upd_ext. intros j. apply H. Qed.
  Lemma same_upd2 s S S1 r l t l2 : srep s S -> same (upd (upd (fun r => entries (s r)) r l) t l2) S1 ->
    unchanged (upd (upd S r (map fst l)) t (map fst l2)) (fun r => map fst (S1 r)).
  Proof. intros H HS i. rewrite HS, fst_upd. apply upd_ext. intros j. rewrite fst_upd. apply upd_ext. intros k. apply H. Qed.
  Lemma el s S r : srep s S -> map fst (entries (s r)) = S r.
  Proof. intros H. apply H. Qed.

  Lemma forward_good c c' s S w :
    legal c' -> srep s S -> sstep c s w = forward nalloc cmp qcmp borrow tclone teq tpcmp c' s w ->
    (forall o s' w' S1, mstep c' s w = (o, s', w') -> mspec c' (fun r => entries (s r)) o S1 -> rep cmp s' S1 ->
       sspec c S (omap (@plain_obs T) o) (fun r => map fst (S1 r))) ->
    (forall o, gave_up cmp (no_memory nalloc) c' (fun r => entries (s r)) o -> sgave_up c S (omap (@plain_obs T) o)) ->
    sgood c S (sstep c s w).
  Proof.
    intros Hl H -> H1 H2. unfold forward. pose proof (@mgood c' s S w Hl H) as HG.
    destruct (mstep c' s w) as [[o s'] w'] eqn:Em. destruct HG as [(S1 & Hsp & Hr)|HG]; [|right; now apply H2].
    left. exists (fun r => map fst (S1 r)). split; [eapply H1; eauto|now apply rep_srep].
  Qed.

  Lemma insert_sgood r x s S w : srep s S -> sgood (SInsert r x) S (sstep (SInsert r x) s w).
  Proof.
    intros H. pose proof (@mgood (Insert r x tt) s S w I H) as HG. cbn [step] in HG. unfold sgood. cbn [SetHistoryModel.sstep]. unfold set_try_insert.
    destruct (try_insert nalloc cmp x tt (s r) w) as [[o m] w']. destruct HG as [(S1 & Hsp & Hr)|HG].
    - left. exists (fun r => map fst (S1 r)). split; [|now apply rep_srep]. cbn [spec] in Hsp. cbn [SetHistorySpec.sspec].
      rewrite <- (el r H), inb_get. destruct Hsp as [[Eo HS]|(e & Eo & He & Ha & HS)].
      + left. destruct o; cbn [fmap omap] in Eo; try discriminate. inversion Eo; subst. cbn [omap]. split; [destruct (s_get _ _) as [[? []]|]; reflexivity|].
        intros i. rewrite (same_upd H HS i). rewrite insert_inserted by apply H. reflexivity.
      + right. exists e. destruct o; cbn [fmap omap] in Eo; try discriminate. inversion Eo; subst. unfold absent in Ha. cbn in Ha.
        rewrite Ha. cbn [omap]. repeat (split; auto). eapply same_unchanged; eauto.
    - right. cbn [gave_up SetHistorySpec.sgave_up] in *. destruct HG as (e & Eo & He & Ha & Hl). exists e.
      destruct o; cbn [fmap omap] in Eo; try discriminate. inversion Eo; subst. rewrite <- (el r H), inb_get. unfold absent in Ha. rewrite Ha. cbn [omap].
      repeat (split; auto). now rewrite map_length.
  Qed.
  Lemma replace_sgood r x s S w : srep s S -> sgood (SReplace r x) S (sstep (SReplace r x) s w).
  Proof.
    intros H. pose proof (@mgood (Replace r x tt) s S w I H) as HG. cbn [step] in HG. unfold sgood. cbn [SetHistoryModel.sstep]. unfold set_replace.
    destruct (replace_key nalloc cmp x tt (s r) w) as [[o m] w']. destruct HG as [(S1 & Hsp & Hr)|HG].
    - left. exists (fun r => map fst (S1 r)). split; [|now apply rep_srep]. cbn [spec] in Hsp. cbn [SetHistorySpec.sspec].
      rewrite <- (el r H), inb_get, <- find_get. destruct Hsp as [[Eo HS]|(e & Eo & He & Ha & HS)].
      + left. destruct o; cbn [fmap omap] in Eo; try discriminate. inversion Eo; subst. cbn [omap]. split; auto.
        intros i. rewrite (same_upd H HS i). unfold replaced. rewrite inb_get. destruct (s_get _ _) eqn:Eg; cbn [is_some].
        * now rewrite rekey_replaced.
        * rewrite insert_inserted by apply H. reflexivity.
      + right. exists e. destruct o; cbn [fmap omap] in Eo; try discriminate. inversion Eo; subst. unfold absent in Ha. cbn in Ha.
        rewrite Ha. cbn [omap]. repeat (split; auto). eapply same_unchanged; eauto.
    - right. cbn [gave_up SetHistorySpec.sgave_up] in *. destruct HG as (e & Eo & He & Ha & Hl). exists e.
      destruct o; cbn [fmap omap] in Eo; try discriminate. inversion Eo; subst. rewrite <- (el r H), inb_get. unfold absent in Ha. rewrite Ha. cbn [omap].
      repeat (split; auto). now rewrite map_length.
  Qed.

  Lemma take_sgood r x s S w : srep s S -> sgood (STake r x) S (sstep (STake r x) s w) /\ sgood (SRemove r x) S (sstep (SRemove r x) s w).
  Proof.
    intros H. pose proof (@mgood (Take r x) s S w I H) as HG. cbn [step] in HG.
    change (look qcmp borrow x) with (fun k => qcmp x (borrow k)) in HG.
    assert (E : set_take (fun k => qcmp x (borrow k)) (s r) =
      let '(o, s') := remove_entry (fun k => qcmp x (borrow k)) (s r) in (omap (option_map fst) o, s')).
    { unfold set_take, remove_entry. destruct (search _ (s r)) as [[hd|hd]|]; auto. destruct (remove_entry_at (s r) hd) as [[]]; auto. }
    assert (E2 : set_remove (fun k => qcmp x (borrow k)) (s r) =
      let '(o, s') := remove_entry (fun k => qcmp x (borrow k)) (s r) in (omap (fun e => is_some e) o, s')).
    { unfold set_remove, remove. destruct (remove_entry _ (s r)) as [[[[]|]| | | |] m]; reflexivity. }
    unfold sgood. cbn [SetHistoryModel.sstep]. rewrite E, E2. destruct (remove_entry _ (s r)) as [o m].
    destruct HG as [(S1 & Hsp & Hr)|[]]. cbn [spec] in Hsp. destruct Hsp as [Eo HS].
    destruct o as [e|[]| | |]; cbn [cast fmap omap] in Eo; try discriminate. inversion Eo; subst. clear Eo.
    split; left; exists (fun r => map fst (S1 r)); (split; [|now apply rep_srep]); cbn [SetHistorySpec.sspec omap cast]; rewrite <- (el r H), <- found_get, <- without_remove;
      (split; [|eapply same_upd; eauto]); [reflexivity|destruct (s_get _ _); reflexivity].
  Qed.
  Lemma get_sgood r x s S w : srep s S -> sgood (SGet r x) S (sstep (SGet r x) s w) /\ sgood (SContains r x) S (sstep (SContains r x) s w).
  Proof.
    intros H. pose proof (@mgood (GetKeyValue r x) s S w I H) as HG. cbn [step] in HG.
    change (look qcmp borrow x) with (fun k => qcmp x (borrow k)) in HG.
    assert (E : set_get (fun k => qcmp x (borrow k)) (s r) = omap (option_map fst) (get_key_value (fun k => qcmp x (borrow k)) (s r))).
    { unfold set_get, get_key_value. destruct (search _ (s r)) as [[hd|hd]|]; auto. destruct (into_kv hd); auto. }
    assert (E2 : set_contains (fun k => qcmp x (borrow k)) (s r) = omap (fun e => is_some e) (get_key_value (fun k => qcmp x (borrow k)) (s r))).
    { unfold set_contains, contains_key, get. destruct (get_key_value _ (s r)) as [[]| | | |]; reflexivity. }
    unfold sgood. cbn [SetHistoryModel.sstep]. rewrite E, E2. destruct (get_key_value _ (s r)) as [e|[]| | |];
      (destruct HG as [(S1 & Hsp & Hr)|[]]; cbn [spec] in Hsp; destruct Hsp as [Eo HS]; cbn [cast fmap omap] in Eo; try discriminate). inversion Eo; subst. clear Eo.
    split; left; exists (fun r => map fst (S1 r)); (split; [|now apply rep_srep]); cbn [SetHistorySpec.sspec omap cast]; rewrite <- (el r H), <- found_get;
      (split; [|eapply same_unchanged; eauto]); [reflexivity|destruct (s_get _ _); reflexivity].
  Qed.

  Lemma iterate_sgood r cs s S w : srep s S -> sgood (SIterate r cs) S (sstep (SIterate r cs) s w).
  Proof.
    intros H. destruct (H r) as [Hv E]. unfold sgood. cbn [SetHistoryModel.sstep]. unfold set_iter.
    destruct (C22_iter cs Hv) as (it & outs & it' & -> & Ec & Hi). cbn [cast].
    change (calls (@set_next T) (@set_next_back T) cs it) with
      (calls (fun s => project (fun x : item T unit => fst (fst x)) (@iter_next T unit s)) (fun s => project (fun x : item T unit => fst (fst x)) (@iter_next_back T unit s)) cs it).
    rewrite calls_project, Ec. cbn [cast omap]. left. exists S. split; [|exact H]. cbn [SetHistorySpec.sspec]. rewrite <- E. unfold elems. rewrite dq_run_map.
    destruct (dq_run cs (entries (s r))) as [ideal rest]. destruct Hi as [Ho Hl]. cbn [fst snd]. split; [|apply unchanged_refl].
    rewrite map_length. f_equal. f_equal.
    - rewrite <- Ho, map_map. apply map_ext. intros [[]|]; reflexivity.
    - unfold siter_len. inversion Hl. reflexivity.
  Qed.
  Lemma range_sgood r lo hi cs s S w : srep s S -> sgood (SRange r lo hi cs) S (sstep (SRange r lo hi cs) s w).
  Proof.
    intros H. pose proof (@mgood (RangeOver r lo hi cs) s S w I H) as HG. cbn [step] in HG. unfold sgood. cbn [SetHistoryModel.sstep]. unfold set_range.
    destruct HG as [(S1 & Hsp & Hr)|[]]. left. exists (fun r => map fst (S1 r)). split; [|now apply rep_srep].
    cbn [spec] in Hsp. cbn [SetHistorySpec.sspec]. rewrite <- (el r H), <- range_between, dq_run_map. cbn [fst].
    destruct (map_range qcmp borrow lo hi (s r)) as [it|[]| | |]; cbn [cast fmap omap] in *;
      try (destruct Hsp as [(H1 & Eo & HS)|(H1 & Eo & HS)]; try discriminate; left; (split; [exact H1|]; split; [reflexivity|eapply same_unchanged; eauto])).
    change (calls (@set_range_next T) (@set_range_next_back T) cs it) with
      (calls (fun s => project (fun x : item T unit => fst (fst x)) (@range_next T unit s)) (fun s => project (fun x : item T unit => fst (fst x)) (@range_next_back T unit s)) cs it).
    rewrite calls_project. destruct (calls _ _ cs it) as [[outs it']|[]| | |]; cbn [cast fmap omap] in *;
      (destruct Hsp as [(H1 & Eo & HS)|(H1 & Eo & HS)]; try discriminate).
    - right. split; [exact H1|]. split; [|eapply same_unchanged; eauto]. inversion Eo as [Eo']. rewrite map_map. f_equal. f_equal. apply map_ext. intros [[]|]; reflexivity.
    - left. split; [exact H1|]. split; [reflexivity|]. eapply same_unchanged; eauto.
  Qed.
  Lemma into_sgood r cs s S w : srep s S -> sgood (SIntoIter r cs) S (sstep (SIntoIter r cs) s w).
  Proof.
    intros H. pose proof (@mgood (IntoIter_ r cs) s S w I H) as HG. cbn [step] in HG. unfold sgood. cbn [SetHistoryModel.sstep]. unfold set_into_iter.
    destruct HG as [(S1 & Hsp & Hr)|[]]. left. exists (fun r => map fst (S1 r)). split; [|now apply rep_srep].
    cbn [spec] in Hsp. cbn [SetHistorySpec.sspec]. rewrite <- (el r H), dq_run_map. destruct (dq_run cs (entries (s r))) as [ideal rest]. destruct Hsp as [Eo HS].
    split; [|exact (@same_upd s S S1 r [] H HS)]. cbn [fst snd].
    destruct (map_into_iter (s r)) as [it|[]| | |]; cbn [cast fmap omap] in *; try discriminate.
    change (calls (@set_into_next T) (@set_into_next_back T) cs it) with
      (calls (fun s => project (@fst T unit) (@into_next T unit s)) (fun s => project (@fst T unit) (@into_next_back T unit s)) cs it).
    rewrite calls_project. destruct (calls _ _ cs it) as [[outs it']|[]| | |]; cbn [cast fmap omap] in *; try discriminate.
    destruct (drop_into_iter it') as [[d fr]|[]| | |]; cbn [cast fmap omap fst] in *; try discriminate. inversion Eo; subst. reflexivity.
  Qed.

  (** extend and collect *)
  Lemma extend_sgood r l s S w : srep s S -> sgood (SExtend r l) S (sstep (SExtend r l) s w).
  Proof.
    intros H. destruct (H r) as [Hv E]. unfold sgood. cbn [SetHistoryModel.sstep]. rewrite set_extend_extend.
    pose proof (extend_ok nalloc laws (map (fun x => (x, tt)) l) w Hv) as HE. destruct (extend nalloc cmp _ (s r) w) as [[o m] w'].
    destruct o; try contradiction; cbn [cast omap].
    - destruct HE as [Hm Em]. left. eexists (upd S r _). split; [split; [reflexivity|apply unchanged_refl]|]. apply srep_upd; auto.
      unfold elems. rewrite Em, insert_all_inserted by apply Hv. now rewrite <- E.
    - right. destruct HE as (_ & _ & _ & _ & e & _ & _ & _ & He & _). split; auto. exists e. exact He.
  Qed.
  Lemma drop_set_outcome (m : bset T) : drop_all [m] = Ret tt \/ drop_all [m] = UB.
  Proof. apply drop_one_outcome. Qed.
  Lemma drop_valid (m : bset T) : valid cmp m -> drop_all [m] = Ret tt.
  Proof. apply drop_one. Qed.
  Lemma collect_sgood r l s S w : srep s S -> sgood (SCollect r l) S (sstep (SCollect r l) s w).
  Proof.
    intros H. destruct (H r) as [Hv E]. unfold sgood. cbn [SetHistoryModel.sstep]. unfold set_from_iter. rewrite set_extend_extend.
    pose proof (@extend_ok T unit W nalloc cmp laws (map (fun x => (x, tt)) l) (set_new T) w (proj1 (@new_ok T unit cmp))) as HE.
    destruct (extend nalloc cmp _ (set_new T) w) as [[o m] w']. unfold assign_set. destruct o; try contradiction; cbn [cast omap].
    - destruct HE as [Hm Em]. rewrite (drop_valid Hv). cbn [after]. left. eexists (upd S r _). split; [left; split; [reflexivity|apply unchanged_refl]|]. apply srep_upd; auto.
      unfold elems. rewrite Em, insert_all_inserted by constructor. reflexivity.
    - destruct HE as (_ & _ & _ & _ & e & _ & _ & _ & He & _). destruct (drop_set_outcome m) as [->| ->]; cbn [after].
      + left. exists S. split; auto. right. split; auto. split; [exists e; exact He|apply unchanged_refl].
      + right. split; auto. exists e. exact He.
  Qed.

  (** combinations *)
  Lemma assign_sgood c (P : T -> Prop) u res R s S : srep s S ->
    (let '(o, s', w') := res in
     match o with Ret _ => set_valid cmp s' /\ Forall2 (copy_of tclone) R (elems s') | _ => oom_or_clone nalloc cmp tclone o s' end) ->
    all_with cmp P R ->
    (forall o S', built_ cmp (no_memory nalloc) (copy_of tclone) tclone_ends P u S o S' -> sspec c S o S') ->
    (forall e, no_memory nalloc e -> sgave_up c S UB) ->
    sgood c S (assign_set u res s).
  Proof.
    intros H HR HP HS HU. destruct res as [[o m] w']. unfold sgood, assign_set. destruct o as [[]|[]| | |].
    - rewrite (drop_valid (proj1 (H u))). cbn [after]. left. exists (upd S u (elems m)). destruct HR as [Hv HF]. split; [|apply srep_upd; auto].
      apply HS. left. exists R, (elems m). auto using unchanged_refl.
    - destruct HR as [[_ [e He]]|[(x & w & o' & w1 & Ec & Eo) Hv]]; cbn [cast omap].
      + destruct (drop_set_outcome m) as [->| ->]; cbn [after]; [|right; eapply HU; eauto].
        left. exists S. split; auto. apply HS. right. left. split; auto. split; [exists e; exact He|apply unchanged_refl].
      + rewrite (drop_valid Hv). cbn [after]. left. exists S. split; auto. apply HS. right. right. exists Panic. split; [exists x, w; rewrite Ec; exact Eo|].
        split; [discriminate|]. split; [reflexivity|apply unchanged_refl].
    - destruct HR as [[E _]|[(x & w & o' & w1 & Ec & Eo) Hv]]; [discriminate|]. cbn [cast omap].
      rewrite (drop_valid Hv). cbn [after]. left. exists S. split; auto. apply HS. right. right. exists Abort. split; [exists x, w; rewrite Ec; exact Eo|].
      split; [discriminate|]. split; [reflexivity|apply unchanged_refl].
    - destruct HR as [[E _]|[(x & w & o' & w1 & Ec & Eo) Hv]]; [discriminate|]. cbn [cast omap].
      rewrite (drop_valid Hv). cbn [after]. left. exists S. split; auto. apply HS. right. right. exists UB. split; [exists x, w; rewrite Ec; exact Eo|].
      split; [discriminate|]. split; [reflexivity|apply unchanged_refl].
  Qed.
  Lemma lazily_sgood c (P : T -> Prop) n (o : outcome Empty_set c) next hint it R S : o = Ret it -> yields next hint it R -> all_with cmp P R ->
    lazy_ cmp P n S (lazily o next hint n) S.
  Proof.
    intros -> HY HP. unfold lazily. cbn [cast]. destruct (HY n) as (it' & lo & hi & -> & Eh & Hb). cbn [cast]. rewrite Eh. cbn [fst snd].
    exists R, lo, hi. auto using unchanged_refl.
  Qed.

  Lemma small_common s S r t : srep s S -> all_with cmp (common cmp (S r) (S t)) (small_first cmp (s r) (s t)).
  Proof.
    intros H. destruct (H r) as [Hv E], (H t) as [Hv2 E2]. unfold small_first, common.
    rewrite (elems_len Hv), (elems_len Hv2), E, E2. split.
    - destruct (_ <=? _); apply asc_filter; rewrite <- ?E, <- ?E2; now apply elems_asc.
    - intros x. destruct (_ <=? _); apply interl_In.
  Qed.
  Lemma diff_minus s S r t : srep s S -> all_with cmp (minus cmp (S r) (S t)) (diffl cmp (elems (s r)) (elems (s t))).
  Proof.
    intros H. destruct (H r) as [Hv E], (H t) as [Hv2 E2]. split; [apply asc_filter; now apply elems_asc|].
    intros x. rewrite E, E2. apply diffl_In.
  Qed.
  Lemma sym_exclusive s S r t : srep s S -> all_with cmp (exclusive cmp (S r) (S t)) (syml cmp (elems (s r)) (elems (s t))).
  Proof.
    intros H. destruct (H r) as [Hv E], (H t) as [Hv2 E2].
    pose proof (@syml_spec _ cmp laws _ _ _ (le_n _) (elems_asc Hv) (elems_asc Hv2)) as (H1 & H2 & _). split; auto. rewrite <- E, <- E2. exact H2.
  Qed.
  Lemma union_either s S r t : srep s S -> all_with cmp (either cmp (S r) (S t)) (unionl cmp (elems (s r)) (elems (s t))).
  Proof.
    intros H. destruct (H r) as [Hv E], (H t) as [Hv2 E2].
    pose proof (@unionl_spec _ cmp laws _ _ _ (le_n _) (elems_asc Hv) (elems_asc Hv2)) as (H1 & H2 & _). split; auto. rewrite <- E, <- E2. exact H2.
  Qed.

  Theorem sstep_good c s S w : slegal c -> srep s S -> sgood c S (sstep c s w).
  Proof.
    intros Hl H. destruct c; cbn [slegal] in Hl.
    - (* new *) eapply (@forward_good _ (New r)); [exact I|exact H|reflexivity| |intros o []].
      intros o s' w' S1 _ [-> HS] _. split; [reflexivity|]. exact (@same_upd s S S1 r [] H HS).
    - now apply insert_sgood.
    - now apply replace_sgood.
    - now apply take_sgood.
    - now apply take_sgood.
    - now apply get_sgood.
    - now apply get_sgood.
    - (* len *) eapply (@forward_good _ (Len r)); [exact I|exact H|reflexivity| |intros o []].
      intros o s' w' S1 _ [-> HS] _. split; [|eapply same_unchanged; eauto]. cbn [omap plain_obs]. now rewrite <- (el r H), map_length.
    - eapply (@forward_good _ (IsEmpty r)); [exact I|exact H|reflexivity| |intros o []].
      intros o s' w' S1 _ [-> HS] _. split; [|eapply same_unchanged; eauto]. cbn [omap plain_obs]. rewrite <- (el r H). now destruct (entries (s r)).
    - eapply (@forward_good _ (Clear r)); [exact I|exact H|reflexivity| |intros o []].
      intros o s' w' S1 _ [-> HS] _. split; [reflexivity|]. exact (@same_upd s S S1 r [] H HS).
    - (* append *) eapply (@forward_good _ (Append r t)); [exact Hl|exact H|reflexivity| |].
      + intros o s' w' S1 _ [-> HS] _. exists (map fst (s_append cmp (entries (s r)) (entries (s t)))). split; [|split; [reflexivity|exact (@same_upd2 s S S1 r _ t [] H HS)]].
        rewrite <- (el r H), <- (el t H). apply append_with; apply H.
      + intros o [-> HG]. split; auto.
    - (* split_off *) eapply (@forward_good _ (SplitOff r x t)); [exact Hl|exact H|reflexivity| |intros o []].
      intros o s' w' S1 _ [[-> HS]|(e & -> & He & HS)] _.
      + left. split; [reflexivity|]. rewrite <- (el r H), <- below_between, <- from_between. eapply same_upd2; eauto.
      + right. exists e. repeat (split; auto). eapply same_unchanged; eauto.
    - (* clone *) eapply (@forward_good _ (Clone r t)); [exact Hl|exact H|reflexivity| |intros o []].
      intros o s' w' S1 _ [(-> & l & Hc & HS)|(u & Hu & -> & Hn & HS)] _.
      + left. exists (S r), (map fst l). split; [|split; [|split; [reflexivity|eapply same_upd; eauto]]].
        * split; [|tauto]. destruct (H r) as [Hv <-]. now apply elems_asc.
        * rewrite <- (el r H). revert Hc. generalize (entries (s r)). intros l0 Hc. clear -Hc. induction Hc as [|x y l0 l1 Hxy Hc IH]; cbn [map]; constructor; auto.
          destruct Hxy as ((w1 & w2 & Ek) & _). unfold kclone_ in Ek. destruct (tclone (fst x) w1) as [[z|[]| | |] w3] eqn:Et; inversion Ek; subst.
          exists w1, w2. exact Et.
      + right. destruct Hu as [(e & -> & He)|[(k & w1 & Ek)|(v & w1 & Ev)]].
        * left. split; [reflexivity|]. split; [exists e; exact He|eapply same_unchanged; eauto].
        * right. unfold kclone_ in Ek. destruct (tclone k w1) as [ok w2] eqn:Et. cbn [fst] in Ek.
          exists (omap (fun _ => tt) ok). split; [exists k, w1; now rewrite Et|].
          destruct ok as [z|[]| | |]; cbn [cast omap] in Ek; subst u; cbn [omap] in Hn |- *; [now destruct (Hn OUnit)|..];
            (split; [discriminate|]; split; [reflexivity|eapply same_unchanged; eauto]).
        * cbn in Ev. subst u. now destruct (Hn OUnit).
    - now apply extend_sgood.
    - now apply collect_sgood.
    - now apply iterate_sgood.
    - now apply range_sgood.
    - now apply into_sgood.
    - (* == *) eapply (@forward_good _ (Equal r t)); [exact I|exact H|reflexivity| |intros o []].
      intros o s' w' S1 _ (b & -> & Hb & HS) _. exists b. split; [reflexivity|]. split; [|eapply same_unchanged; eauto].
      rewrite Hb, <- (el r H), <- (el t H). apply Forall2_eqb.
    - eapply (@forward_good _ (Compare r t)); [exact I|exact H|reflexivity| |intros o []].
      intros o s' w' S1 _ [-> HS] _. split; [|eapply same_unchanged; eauto]. cbn [omap plain_obs]. now rewrite <- (el r H), <- (el t H), <- lex_lexi.
    - (* lazy *) left. exists S. split; [|exact H]. destruct (set_difference_ok (proj1 (H r)) (proj1 (H t))) as (it & E & HR).
      eapply lazily_sgood; [exact E| |apply diff_minus; exact H].
      apply (@yields_of _ _ _ _ (drep cmp)); auto; [apply (diff_next_ok laws)|apply (diff_hint_ok laws)].
    - left. exists S. split; [|exact H]. destruct (set_two_ok (syml cmp) (proj1 (H r)) (proj1 (H t))) as (it & E & HR).
      eapply lazily_sgood; [exact E| |apply sym_exclusive; exact H].
      apply (@yields_of _ _ _ _ (two_rep cmp (syml cmp))); auto; [apply sym_next_ok|apply (sym_hint_ok laws)].
    - left. exists S. split; [|exact H]. destruct (set_intersection_ok (proj1 (H r)) (proj1 (H t))) as (it & E & HR).
      eapply lazily_sgood; [exact E| |apply small_common; exact H].
      apply (@yields_of _ _ _ _ (irep cmp)); auto; [apply (inter_next_ok laws)|apply inter_hint_ok].
    - left. exists S. split; [|exact H]. destruct (set_two_ok (unionl cmp) (proj1 (H r)) (proj1 (H t))) as (it & E & HR).
      eapply lazily_sgood; [exact E| |apply union_either; exact H].
      apply (@yields_of _ _ _ _ (two_rep cmp (unionl cmp))); auto; [apply union_next_ok|apply (union_hint_ok laws)].
    - (* relations *) left. exists S. split; [|exact H]. destruct (is_subset_ok laws (proj1 (H r)) (proj1 (H t))) as (b & E & Hb).
      cbn [SetHistorySpec.sspec]. rewrite E. exists b. split; [reflexivity|]. split; [|apply unchanged_refl]. destruct (H r) as [_ <-], (H t) as [_ <-]. exact Hb.
    - left. exists S. split; [|exact H]. destruct (is_subset_ok laws (proj1 (H t)) (proj1 (H r))) as (b & E & Hb).
      cbn [SetHistorySpec.sspec]. unfold is_superset. rewrite E. exists b. split; [reflexivity|]. split; [|apply unchanged_refl]. destruct (H r) as [_ <-], (H t) as [_ <-]. exact Hb.
    - left. exists S. split; [|exact H]. destruct (is_disjoint_ok laws (proj1 (H r)) (proj1 (H t))) as (b & E & Hb).
      cbn [SetHistorySpec.sspec]. rewrite E. exists b. split; [reflexivity|]. split; [|apply unchanged_refl]. destruct (H r) as [_ <-], (H t) as [_ <-]. exact Hb.
    - (* operators *) cbn [SetHistoryModel.sstep].
      eapply assign_sgood with (R := diffl cmp (elems (s r)) (elems (s t))); [exact H| |apply diff_minus; exact H|intros o S' HB; exact HB|intros e He; split; [reflexivity|exists e; exact He]].
      destruct (set_difference_ok (proj1 (H r)) (proj1 (H t))) as (it & E & HR). unfold set_sub.
      eapply (@started_ok T W nalloc cmp tclone laws lawful _ _ (drep cmp)); eauto; [apply (diff_next_ok laws)|apply (diff_minus r t H)|].
      pose proof (diffl_length laws (elems (s t)) (elems_asc (proj1 (H r)))). rewrite (elems_len (proj1 (H r))). lia.
    - cbn [SetHistoryModel.sstep].
      eapply assign_sgood with (R := syml cmp (elems (s r)) (elems (s t))); [exact H| |apply sym_exclusive; exact H|intros o S' HB; exact HB|intros e He; split; [reflexivity|exists e; exact He]].
      destruct (set_two_ok (syml cmp) (proj1 (H r)) (proj1 (H t))) as (it & E & HR). unfold set_bitxor.
      pose proof (@syml_spec _ cmp laws _ _ _ (le_n _) (elems_asc (proj1 (H r))) (elems_asc (proj1 (H t)))) as (H1 & H2 & _ & H3).
      eapply (@started_ok T W nalloc cmp tclone laws lawful _ _ (two_rep cmp (syml cmp))); eauto; [apply sym_next_ok|].
      rewrite (elems_len (proj1 (H r))), (elems_len (proj1 (H t))). lia.
    - cbn [SetHistoryModel.sstep].
      eapply assign_sgood with (R := small_first cmp (s r) (s t)); [exact H| |apply small_common; exact H|intros o S' HB; exact HB|intros e He; split; [reflexivity|exists e; exact He]].
      destruct (set_intersection_ok (proj1 (H r)) (proj1 (H t))) as (it & E & HR). unfold set_bitand.
      eapply (@started_ok T W nalloc cmp tclone laws lawful _ _ (irep cmp)); eauto; [apply (inter_next_ok laws)|apply (small_common r t H)|].
      rewrite (elems_len (proj1 (H r))), (elems_len (proj1 (H t))). unfold small_first.
      pose proof (interl_length cmp (elems (s r)) (elems (s t))). pose proof (interl_length cmp (elems (s t)) (elems (s r))). destruct (_ <=? _); lia.
    - cbn [SetHistoryModel.sstep].
      eapply assign_sgood with (R := unionl cmp (elems (s r)) (elems (s t))); [exact H| |apply union_either; exact H|intros o S' HB; exact HB|intros e He; split; [reflexivity|exists e; exact He]].
      destruct (set_two_ok (unionl cmp) (proj1 (H r)) (proj1 (H t))) as (it & E & HR). unfold set_bitor.
      pose proof (@unionl_spec _ cmp laws _ _ _ (le_n _) (elems_asc (proj1 (H r))) (elems_asc (proj1 (H t)))) as (H1 & H2 & _ & H3).
      eapply (@started_ok T W nalloc cmp tclone laws lawful _ _ (two_rep cmp (unionl cmp))); eauto; [apply union_next_ok|].
      rewrite (elems_len (proj1 (H r))), (elems_len (proj1 (H t))). lia.
  Qed.

  Theorem srun_agrees : forall l s S w, Forall (@slegal T Q) l -> srep s S ->
    sagrees cmp qcmp borrow teq tpcmp (no_memory nalloc) (copy_of tclone) tclone_ends S l (srun nalloc cmp qcmp borrow tclone teq tpcmp l s w).
  Proof.
    induction l as [|c l IH]; intros s S w HL H; cbn [srun]; [constructor|].
    inversion HL as [|? ? Hc HL']; subst. pose proof (@sstep_good c s S w Hc H) as HG.
    destruct (SetHistoryModel.sstep nalloc cmp qcmp borrow tclone teq tpcmp c s w) as [[o s'] w']. destruct HG as [(S' & Hsp & Hr)|HG]; [|now apply SA_gave_up].
    assert (HB : forall r, well_built cmp (s' r) (map (fun x => (x, tt)) (S' r))).
    { intros r. destruct (Hr r) as [Hv <-]. replace (map _ _) with (entries (s' r)); [now apply valid_well_built|].
      unfold elems. rewrite map_map. rewrite <- (map_id (entries (s' r))) at 1. apply map_ext. intros [x []]. reflexivity. }
    destruct o; try (eapply SA_step; [exact Hsp|exact HB|discriminate|discriminate|now apply IH]); (eapply SA_dead; [exact Hsp|auto]).
  Qed.
End Proofs.
