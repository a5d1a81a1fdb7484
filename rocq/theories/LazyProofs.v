(** * LazyProofs: the sessions of LazyModel refine lists of what the iterators have left. *)
From Coq Require Import List Arith Lia Bool.
From Verif Require Import Base IterSpec MapSpec SetSpec BTreeModel BTreeInv BTreeLemmas BTreeSearch BTreeInsert BTreeIterModel BTreeIter BTreeIterProofs BTreeBorder BTreeSplit BTreeCollect BTreeSets.
From Verif Require Import BTreeSetModel HeapModel HeapMapModel HeapArr HeapRep HeapWp HeapRes HeapPart HeapMap HeapEntry HeapIter HeapHistory HistoryModel HistorySpec HistoryProofs HeapSpec SetHistorySpec.
From Verif Require Import HostileModel HostileOps HostilePure HostileSetModel HostileSetSpec HostileSets HostileSetOps HostileSetHistory LawfulSetSpec LawfulSets LookModel LazyModel LazyCatch LazySpec.
Import ListNotations.
Set Implicit Arguments.
Unset Strict Implicit.

Section Sessions.
  Variables (T W : Type) (kcmp : T -> T -> asks W comparison) (sc : Prop).
  Hypothesis Ck : forall a b, calm sc (kcmp a b).
  Notation heap := (heap T unit).
  Notation bmap := (bmap T unit).
  Variable R : T -> T -> comparison -> Prop.
  Hypothesis HR : forall a b w c w', kcmp a b w = (Some c, w') -> R a b c.
  Variable Inv : bmap -> Prop.
  Hypothesis HInv : forall m : bmap, Inv m -> sound m.
  Variable Cn : T -> list T -> bool -> Prop.
  Hypothesis HC : forall x m2 (m1 : bmap) s hp, mrep m2 m1 s -> own hp (sres s) -> Inv m1 ->
    reads sc (hs_contains kcmp x m2) hp (Cn x (map fst (entries m1))).
  Hypothesis NS : ~ sc.
  Hypothesis (R_total : forall x y, exists c, R x y c) (C_total : forall x B, exists c, Cn x B c).
  Variable FP : src T unit -> Prop.
  Variable hp : heap.
  Notation rholds := (rholds FP hp).
  Notation pholds_ := (pholds_ FP hp).
  Notation lrep := (lrep Inv FP hp).
  Notation future := (future R Cn).
  Notation "x <- m ;- k" := (abind m (fun x => k)) (at level 80, m at level 79, right associativity).

  Lemma show_r fuel : forall a A, rholds a A -> length A < fuel -> reads sc (hs_show (T := T) (W := W) fuel a) hp (fun l => l = A).
  Proof using.
    clear. induction fuel as [|fuel IH]; intros a A Ha Hf; [lia|]. cbn [hs_show]. apply reads_bind. eapply reads_mono; [exact (@next_r T W sc FP hp a A Ha)|].
    intros [o a'] [Eo Na]. cbn [fst snd] in *. subst o. destruct A as [|x A]; cbn [hd_error tl] in *; [now apply reads_ret|].
    apply reads_bind. eapply reads_mono; [eapply IH; [exact Na|cbn in Hf; lia]|]. intros l ->. now apply reads_ret.
  Qed.
  Lemma show_iter_r a A : rholds a A -> reads sc (zshow_iter (W := W) a) hp (fun f => field_elements f = A).
  Proof using.
    clear. intros Ha. unfold zshow_iter. apply reads_bind. eapply reads_mono; [eapply show_r; [exact Ha|rewrite (rholds_len Ha); lia]|]. intros l ->. now apply reads_ret.
  Qed.
  Lemma show_peek_r p A : pholds_ p A -> reads sc (zshow_peek (T := T) (W := W) p) hp (fun f => field_elements f = A).
  Proof using.
    clear. unfold HostileSets.pholds_, zshow_peek. intros H.
    assert (exists A', rholds (hsin p) A' /\ field_elements (ZField (hsp p) A') = A) as (A' & Ha & E).
    { destruct (hsp p) as [[x|]|]; [destruct H as (A' & -> & H)|destruct H as (-> & H)|]; eexists; split; try exact H; reflexivity. }
    apply reads_bind. eapply reads_mono; [eapply show_r; [exact Ha|rewrite (rholds_len Ha); lia]|]. intros l ->. now apply reads_ret.
  Qed.
  Lemma future_parts v l x : future v l -> In x l -> In x (match v with VD A _ | VDS A _ | VIS A _ | VI A _ => A | VS A B | VU A B => A ++ B end).
  Proof using.
    clear. destruct v; cbn [HostileSets.future]; intros F Hx; (induction F; cbn [In app] in *; rewrite ?in_app_iff in *; cbn [In] in *; tauto).
  Qed.
  Definition vshown (v : view_ T) : list (list T) :=
    match v with VDS A _ | VIS A _ => [A] | VD A B | VS A B | VU A B | VI A B => [A; B] end.
  Lemma zshow_r d v : lrep d v -> reads sc (zshow (T := T) (W := W) d) hp (fun fs => map (@field_elements T) fs = vshown v).
  Proof using.
    clear. intros L.
    destruct d, v; cbn [HostileSets.lrep] in L; try contradiction; cbn [zshow vshown].
    - destruct L as [Ha Hb]. apply reads_bind. eapply reads_mono; [exact (show_iter_r Ha)|]. intros f1 E1. apply reads_bind. eapply reads_mono; [exact (show_peek_r Hb)|]. intros f2 E2.
      apply reads_ret. cbn. now rewrite E1, E2.
    - destruct L as (Ha & _). apply reads_bind. eapply reads_mono; [exact (show_iter_r Ha)|]. intros f1 E1. apply reads_ret. cbn. now rewrite E1.
    - destruct L as [Ha Hb]. apply reads_bind. eapply reads_mono; [exact (show_peek_r Ha)|]. intros f1 E1. apply reads_bind. eapply reads_mono; [exact (show_peek_r Hb)|]. intros f2 E2.
      apply reads_ret. cbn. now rewrite E1, E2.
    - destruct L as [Ha Hb]. apply reads_bind. eapply reads_mono; [exact (show_peek_r Ha)|]. intros f1 E1. apply reads_bind. eapply reads_mono; [exact (show_peek_r Hb)|]. intros f2 E2.
      apply reads_ret. cbn. now rewrite E1, E2.
    - destruct L as [Ha Hb]. apply reads_bind. eapply reads_mono; [exact (show_iter_r Ha)|]. intros f1 E1. apply reads_bind. eapply reads_mono; [exact (show_iter_r Hb)|]. intros f2 E2.
      apply reads_ret. cbn. now rewrite E1, E2.
    - destruct L as (Ha & _). apply reads_bind. eapply reads_mono; [exact (show_iter_r Ha)|]. intros f1 E1. apply reads_ret. cbn. now rewrite E1.
  Qed.
  Lemma suffix_skipn (A A' : list T) : suffix A' A -> exists n, A' = skipn n A.
  Proof using. clear. induction 1 as [l|l' x l S0 IH]; [now exists 0|]. destruct IH as [n ->]. now exists (S n). Qed.
  Lemma tipping n m : (m / 16 <? n) = negb (16 * n <=? m).
  Proof using.
    clear. pose proof (Nat.div_mod m 16 ltac:(discriminate)) as E. pose proof (Nat.mod_upper_bound m 16 ltac:(discriminate)) as E2.
    destruct (Nat.ltb_spec (m / 16) n); destruct (Nat.leb_spec (16 * n) m); cbn; try reflexivity; exfalso; lia.
  Qed.
  (** what is printed in a later state of an iterator *)
  Lemma shown_sides k A B v : sheds (first_view k A B) v ->
    exists i j, vshown v = if searched k A B then [skipn i (fst (sides k A B))] else [skipn i (fst (sides k A B)); skipn j (snd (sides k A B))].
  Proof using.
    clear. unfold first_view, searched, sides. destruct k; [|cbn|destruct (length A <=? length B)|cbn]; cbn [fst snd]; rewrite ?tipping;
      try destruct (_ <=? _); cbn [negb]; destruct v; cbn [sheds vshown]; try contradiction; intros [S1 S2];
      apply suffix_skipn in S1 as [i ->]; try (apply suffix_skipn in S2 as [j ->]; exists i, j; reflexivity); exists i, 0; reflexivity.
  Qed.
  Lemma shown_future v l x : future v l -> In x l -> In x (List.concat (vshown v)).
  Proof using.
    clear. intros F Hx. pose proof (future_parts F Hx) as H. destruct v; cbn [vshown List.concat] in *; rewrite ?in_app_iff in *; tauto.
  Qed.

  (** an iterator that has exactly [l] left, whatever the answers *)
  Variables (k : algebra) (us vs : list T).
  Definition has_left (d : hlazy T) (l : list T) : Prop :=
    exists v, lrep d v /\ sheds (first_view k us vs) v /\ future v l /\ forall l', future v l' -> l' = l.
  Lemma next_left d l : has_left d l -> reads sc (hlazy_next_c kcmp d) hp (fun x => fst x = Some (hd_error l) /\ has_left (snd x) (tl l)).
  Proof using Ck HR HC NS R_total C_total.
    clear HInv. intros (v & L & P & F & U). apply reads_sc with (sc := False); [|intros []]. eapply reads_mono; [exact (@lazy_next_s T W kcmp sc Ck R HR Inv Cn HC FP hp d v L)|].
    intros [[o|] d'] Sv; [|destruct Sv as [Hs _]; now destruct NS]. destruct Sv as (v' & L' & Sh & H). cbn [fst snd] in *. destruct (future_total R_total C_total v') as (l1 & F1). destruct o as [y|].
    - pose proof (U _ (H _ F1)) as E. subst l. split; [reflexivity|]. exists v'. split; [exact L'|]. split; [eapply sheds_trans; eassumption|]. split; [exact F1|].
      intros l' F'. specialize (U _ (H _ F')). now injection U.
    - destruct H as [F0 F2]. pose proof (U _ F0) as <-. split; [reflexivity|]. pose proof (F2 _ F1). subst l1. exists v'. split; [exact L'|]. split; [eapply sheds_trans; eassumption|]. split; [exact F1|].
      intros l' F'. cbn. auto.
  Qed.
  Definition pools (pool : list (hlazy T)) (ls : list (list T)) : Prop := Forall2 has_left pool ls.
  Lemma pools_nth pool ls i : pools pool ls ->
    (nth_error pool i = None /\ nth_error ls i = None) \/ exists d l, nth_error pool i = Some d /\ nth_error ls i = Some l /\ has_left d l.
  Proof using. clear. intros P. revert i. induction P as [|d l pool ls H P IH]; intros [|i]; cbn; eauto 10. Qed.
  Lemma pools_put pool ls i d l : pools pool ls -> has_left d l -> pools (put_nth i d pool) (firstn i ls ++ l :: skipn (S i) ls).
  Proof using.
    clear. intros P H. unfold put_nth. revert i. induction P as [|d0 l0 pool ls H0 P IH]; intros i.
    - rewrite !firstn_nil, !skipn_nil. constructor; [exact H|constructor].
    - destruct i as [|i]; cbn [firstn skipn app].
      + constructor; [exact H|exact P].
      + constructor; [exact H0|]. apply IH.
  Qed.
  Lemma zrun1_r cs : forall pool ls, pools pool ls -> reads sc (zrun1 kcmp cs pool) hp (zsees k us vs cs ls).
  Proof using Ck HR HInv HC NS R_total C_total.
    induction cs as [|c cs IH]; intros pool ls P; cbn [zrun1]; [apply reads_ret; constructor|].
    apply reads_bind.
    assert (forall (Z : forall outs, zsees k us vs cs ls outs -> zsees k us vs (c :: cs) ls (ZDone :: outs)), 
      reads sc (@aret T unit W _ (ZDone, pool)) hp (fun r => reads sc (l <- zrun1 kcmp cs (snd r) ;- @aret T unit W _ (fst r :: l)) hp (zsees k us vs (c :: cs) ls))) as KN.
    { intros Z. apply reads_ret. cbn [fst snd]. apply reads_bind. eapply reads_mono; [exact (IH _ _ P)|]. intros l Hl. apply reads_ret. auto. }
    destruct c as [i|i|i|i]; cbn [zstep1]; destruct (pools_nth i P) as [[E1 E2]|(d & l & E1 & E2 & Hd)]; rewrite E1;
      try (apply KN; intros outs Ho; eapply ZS_none; [|exact E2|exact Ho]; eauto; fail).
    - apply reads_bind. eapply reads_mono; [exact (next_left Hd)|]. intros [o d'] [Eo Hd']. cbn [fst snd] in *. subst o. apply reads_ret. cbn [fst snd].
      apply reads_bind. eapply reads_mono; [exact (IH _ _ (pools_put i P Hd'))|]. intros outs Ho. apply reads_ret. eapply ZS_next; eauto.
    - apply reads_ret. cbn [fst snd]. apply reads_bind. eapply reads_mono; [exact (IH _ _ P)|]. intros outs Ho. apply reads_ret.
      destruct Hd as (v & L & _ & F & _). eapply ZS_hint; [exact E2|exact (hint_r HInv L F)|exact Ho].
    - apply reads_ret. cbn [fst snd]. apply reads_bind. eapply reads_mono; [apply (IH _ (ls ++ [l])); apply Forall2_app; [exact P|constructor; [exact Hd|constructor]]|].
      intros outs Ho. apply reads_ret. eapply ZS_clone; eauto.
    - destruct Hd as (v & L & Pv & F & U). apply reads_bind. eapply reads_mono; [exact (zshow_r L)|]. intros fs Ef. apply reads_ret. cbn [fst snd].
      apply reads_bind. eapply reads_mono; [exact (IH _ _ P)|]. intros outs Ho. apply reads_ret. eapply ZS_debug; [exact E2| |exact Ho].
      split; [destruct (shown_sides Pv) as (a & b & Es); exists a, b; now rewrite Ef|]. intros x Hx. pose proof (shown_future F Hx) as Hc. rewrite <- Ef in Hc.
      apply in_concat in Hc as (y & Hy & Hxy). apply in_map_iff in Hy as (f & <- & Hf). eauto.
  Qed.
End Sessions.

Section Lawful.
  Variables (T : Type) (cmp : T -> T -> comparison).
  Hypothesis laws : ord_laws cmp.
  Notation R := (fun x y c => c = cmp x y).
  Notation Cn := (fun x B c => c = memb cmp x B).
  (** the answers of a total order leave no choice *)
  Lemma first_unique k A B l l' : ascending cmp A -> ascending cmp B -> future R Cn (first_view k A B) l -> future R Cn (first_view k A B) l' -> l' = l.
  Proof using laws.
    intros HA HB. unfold first_view. destruct k; [destruct (_ <? _)| |destruct (length A <=? length B); destruct (_ <? _)|]; cbn [HostileSets.future]; intros F F'.
    - now rewrite (dif_lawful laws F HA HB), (dif_lawful laws F' HA HB).
    - now rewrite (pick_lawful F), (pick_lawful F').
    - now rewrite (sym_lawful F), (sym_lawful F').
    - now rewrite (inter_lawful laws F HA HB), (inter_lawful laws F' HA HB).
    - now rewrite (pick_lawful F), (pick_lawful F').
    - now rewrite (inter_lawful laws F HB HA), (inter_lawful laws F' HB HA).
    - now rewrite (pick_lawful F), (pick_lawful F').
    - now rewrite (uni_lawful F), (uni_lawful F').
  Qed.
End Lawful.

Section Step.
  Variables (T Q W : Type) (cmp : T -> T -> comparison).
  Hypothesis laws : ord_laws cmp.
  Notation kcmp := (fun a b => @tells W _ (cmp a b)).
  Variables (s1 : regs T unit) (s2 : hregs) (ss : nat -> src T unit) (rs : list (res T unit)) (hp : heap T unit) (S : nat -> list (T * unit)).
  Hypothesis (Rp : reps s2 s1 ss) (H : held ss rs) (O : own hp rs) (RS : rep cmp s1 S).
  Lemma look_l k r t cs (w : W) : exists l outs w', all_with cmp (belongs cmp k (elements S r) (elements S t)) l /\ zsees k (elements S r) (elements S t) cs [l] outs /\
    abind (hs_lazy k (s2 r) (s2 t)) (fun d => abind (zrun1 kcmp cs [d]) (fun l => @aret T unit W _ (ZSession l))) hp w = (Ret (ZSession outs), hp, w').
  Proof using laws Rp H O RS.
    set (R := fun x y c => c = cmp x y). set (Cn := fun x B c => c = memb cmp x B). set (FP := fun s => exists r, s = ss r).
    assert (forall x y, exists c, R x y c) as RT by (intros; eexists; reflexivity).
    assert (forall x B, exists c, Cn x B c) as CT by (intros; eexists; reflexivity).
    assert (forall a b w c w', kcmp a b w = (Some c, w') -> R a b c) as HR by (intros a b w0 c w' E; now injection E).
    assert (forall a b, calm False (kcmp a b)) as Ck by (intros a b w0 w' E; discriminate E).
    pose proof (asc_reg RS r) as A1. pose proof (asc_reg RS t) as A2.
    pose proof (@lazy_r T W False (valid cmp) (@valid_sound T cmp) FP hp k _ _ _ _ (bears_reg Rp H O RS r) (bears_reg Rp H O RS t)) as L.
    destruct (L w) as (o & w1 & E & Ho). unfold abind at 1. rewrite E. destruct o as [d|e| | |]; try contradiction.
    destruct (future_total RT CT (first_view k (elements S r) (elements S t))) as (l & F). pose proof (first_lawful laws F A1 A2) as HB.
    assert (has_left R (valid cmp) Cn FP hp k (elements S r) (elements S t) d l) as HL.
    { exists (first_view k (elements S r) (elements S t)). split; [exact Ho|]. split; [apply sheds_refl|]. split; [exact F|]. intros l' F'. exact (first_unique laws A1 A2 F F'). }
    pose proof (@zrun1_r T W kcmp False Ck R HR (valid cmp) (@valid_sound T cmp) Cn (fun x m2 m1 s hp => @l_contains T W cmp laws x m2 m1 s hp) (fun x => x) RT CT FP hp k (elements S r) (elements S t) cs [d] [l]
      (Forall2_cons _ _ HL (Forall2_nil _)) w1) as (o2 & w2 & E2 & Ho2).
    unfold abind. rewrite E2. destruct o2 as [outs|e| | |]; try contradiction. exists l, outs, w2. auto.
  Qed.
End Step.
