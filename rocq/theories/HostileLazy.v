(** * HostileLazy: sessions when comparisons answer anything. *)
From Coq Require Import List Arith Lia Bool.
From Verif Require Import Base IterSpec MapSpec SetSpec BTreeModel BTreeInv BTreeLemmas BTreeSearch BTreeInsert BTreeIterModel BTreeIter BTreeIterProofs BTreeBorder BTreeSplit BTreeCollect.
From Verif Require Import BTreeSetModel HeapModel HeapMapModel HeapArr HeapRep HeapWp HeapRes HeapPart HeapMap HeapEntry HeapIter HeapHistory HistoryModel HistoryProofs HeapSpec.
From Verif Require Import HostileModel HostileOps HostileSetModel HostileSetSpec HostileSets HostileSetOps HostileSetHistory LookModel LazyModel LazyCatch LazySpec LazyProofs HostileLazySpec.
Import ListNotations.
Set Implicit Arguments.
Unset Strict Implicit.

(** ** With every answer possible, the futures are exactly the combinations *)
Section Lists.
  Variable T : Type.
  Implicit Types (l A B : list T).
  Notation yes := (fun (_ _ : T) (_ : comparison) => True).
  Notation perhaps := (fun (_ : T) (_ : list T) (_ : bool) => True).
  Lemma subseq_len l A : subseq l A -> length l <= length A.
  Proof. induction 1; cbn; lia. Qed.
  Lemma dif_iff A : forall B l, subseq l A -> length A <= length l + length B -> dif yes A B l.
  Proof.
    induction A as [|x A IH]; intros B l Hs Hl; inversion Hs; subst.
    - constructor.
    - destruct B as [|y B]; [apply Dif_last|apply Dif_lt; [exact I|]]; apply IH; auto; cbn in *; lia.
    - destruct B as [|y B]; [pose proof (subseq_len H1); cbn in *; lia|]. apply Dif_eq; [exact I|]. apply IH; auto; cbn in *; lia.
  Qed.
  Lemma pick_iff keep B A : forall l, subseq l A -> pick perhaps keep B A l.
  Proof.
    induction A as [|x A IH]; intros l Hs; inversion Hs; subst; [constructor| |].
    - eapply Pick_in; [exact I|reflexivity|auto].
    - eapply (@Pick_out _ _ _ _ _ _ _ (negb keep)); [exact I|destruct keep; discriminate|auto].
  Qed.
  Lemma inter_iff A : forall B l, subseq l A -> length l <= length B -> inter yes A B l.
  Proof.
    induction A as [|x A IH]; intros B l Hs Hl; inversion Hs; subst; [constructor| |].
    - destruct B as [|y B]; [cbn in *; lia|]. apply Int_eq; [exact I|]. apply IH; auto; cbn in *; lia.
    - destruct B as [|y B]; [destruct l; [constructor|cbn in *; lia]|]. apply Int_lt; [exact I|]. apply IH; auto.
  Qed.
  Lemma sym_iff A B l : cancelled A B l -> sym yes A B l.
  Proof.
    induction 1 as [|x a b c H IH|y a b c H IH|x y a b c H IH].
    - constructor.
    - destruct b as [|y b]; [|apply Sym_lt; [exact I|exact IH]]. assert (c = a) as -> by (inversion IH; reflexivity). constructor.
    - destruct a as [|x a]; [|apply Sym_gt; [exact I|exact IH]]. assert (c = b) as -> by (inversion IH; reflexivity). constructor.
    - apply Sym_eq; [exact I|exact IH].
  Qed.
  Lemma uni_iff A B l : united A B l -> uni yes A B l.
  Proof.
    induction 1 as [|x a b c H IH|y a b c H IH|x y a b c H IH].
    - constructor.
    - destruct b as [|y b]; [|apply Un_lt; [exact I|exact IH]]. assert (c = a) as -> by (inversion IH; reflexivity). constructor.
    - destruct a as [|x a]; [|apply Un_gt; [exact I|exact IH]]. assert (c = b) as -> by (inversion IH; reflexivity). constructor.
    - apply Un_eq; [exact I|exact IH].
  Qed.
  Lemma inter_len A B l : inter yes A B l -> length l <= length B.
  Proof. induction 1; cbn in *; lia. Qed.
  Lemma suffix_len A B : suffix A B -> length A <= length B.
  Proof. induction 1; cbn; lia. Qed.

  Definition place_of (v : view_ T) : list T * list T := match v with VD A B | VDS A B | VS A B | VU A B | VI A B | VIS A B => (A, B) end.
  Lemma future_iff k us vs v l : sheds (first_view k us vs) v -> future yes perhaps v l <-> to_come k (fst (place_of v)) (snd (place_of v)) l.
  Proof.
    assert (forall n m, (m / 16 <? n) = false -> n <= m) as TP.
    { intros n m E. rewrite tipping in E. apply negb_false_iff, Nat.leb_le in E. lia. }
    unfold first_view. destruct k.
    - destruct (length vs / 16 <? length us) eqn:E; destruct v; cbn [sheds]; try contradiction; intros [S1 S2]; cbn [place_of fst snd future to_come].
      + split; [intros F; split; [exact (dif_subseq F)|apply dif_count in F; lia]|intros []; now apply dif_iff].
      + subst. apply TP in E. apply suffix_len in S1. split; [intros F; split; [exact (pick_subseq F)|lia]|intros []; now apply pick_iff].
    - destruct v; cbn [sheds]; try contradiction; intros _; cbn [place_of fst snd future to_come]. split; [apply sym_cancelled|apply sym_iff].
    - assert (forall P Q, length P <= length Q -> sheds (if length Q / 16 <? length P then VI P Q else VIS P Q) v ->
        future yes perhaps v l <-> to_come Intersection (fst (place_of v)) (snd (place_of v)) l) as K.
      { intros P Q Hl. destruct (_ <? _); destruct v; cbn [sheds]; try contradiction; intros [S1 S2]; cbn [place_of fst snd future to_come].
        - split; [intros F; split; [exact (inter_subseq F)|exact (inter_len F)]|intros []; now apply inter_iff].
        - subst. apply suffix_len in S1. split; [intros F; split; [exact (pick_subseq F)|apply pick_count in F; lia]|intros []; now apply pick_iff]. }
      destruct (Nat.leb_spec (length us) (length vs)); apply K; lia.
    - destruct v; cbn [sheds]; try contradiction; intros _; cbn [place_of fst snd future to_come]. split; [apply uni_united|apply uni_iff].
  Qed.
  Lemma place_suffix v v' : sheds v v' -> (exists i, fst (place_of v') = skipn i (fst (place_of v))) /\ (exists j, snd (place_of v') = skipn j (snd (place_of v))).
  Proof.
    destruct v, v'; cbn [sheds place_of fst snd]; try contradiction; intros [S1 S2]; split; try (now apply suffix_skipn); subst; now exists 0.
  Qed.
  Lemma place_first k us vs : place_of (first_view k us vs) = sides k us vs.
  Proof. unfold first_view, sides. destruct k; [destruct (_ <? _)| |destruct (length us <=? length vs); destruct (_ <? _)|]; reflexivity. Qed.
  Lemma shown_place k us vs v : sheds (first_view k us vs) v ->
    vshown v = if searched k us vs then [fst (place_of v)] else [fst (place_of v); snd (place_of v)].
  Proof.
    unfold first_view, searched, sides. destruct k; [|cbn|destruct (length us <=? length vs)|cbn]; cbn [fst snd]; rewrite ?tipping;
      try destruct (_ <=? _); cbn [negb]; destruct v; cbn [sheds vshown place_of fst snd]; try contradiction; reflexivity.
  Qed.
End Lists.

Section Sessions.
  Variables (T W : Type) (kcmp : T -> T -> asks W comparison) (sc : Prop).
  Hypothesis Ck : forall a b, calm sc (kcmp a b).
  Notation heap := (heap T unit).
  Notation bmap := (bmap T unit).
  Notation lt := (fun _ _ : T => Lt).
  Notation yes := (fun (_ _ : T) (_ : comparison) => True).
  Notation perhaps := (fun (_ : T) (_ : list T) (_ : bool) => True).
  Variable FP : src T unit -> Prop.
  Variable hp : heap.
  Notation lrep := (lrep (valid (V := unit) lt) FP hp).
  Notation future := (future yes perhaps).
  Notation "x <- m ;- k" := (abind m (fun x => k)) (at level 80, m at level 79, right associativity).
  Variables (k : algebra) (us vs : list T).
  Definition is_at (d : hlazy T) (p : list T * list T) : Prop := exists v, lrep d v /\ sheds (first_view k us vs) v /\ place_of v = p.
  Lemma next_at d P Q : is_at d (P, Q) -> reads False (hlazy_next_c kcmp d) hp (fun x =>
    match fst x with
    | Some o => exists P' Q', moves k P Q o P' Q' /\ is_at (snd x) (P', Q')
    | None => sc /\ exists a b, is_at (snd x) (skipn a P, skipn b Q)
    end).
  Proof using Ck.
    intros (v & L & Sh & E). eapply reads_mono; [exact (@lazy_next_s T W kcmp sc Ck yes (fun _ _ _ _ _ _ => I) (valid lt) perhaps (any_contains Ck) FP hp d v L)|].
    intros [[o|] d'] Sv; cbn [fst snd]; [destruct Sv as (v' & L' & Sh' & H)|].
    2: { destruct Sv as (Hs & v' & L' & Sh'). cbn [fst snd] in *. split; [exact Hs|]. destruct (place_suffix Sh') as [[a S1] [b S2]]. rewrite E in S1, S2. cbn [fst snd] in S1, S2.
      exists a, b, v'. split; [exact L'|]. split; [exact (sheds_trans Sh Sh')|]. rewrite <- S1, <- S2. now destruct (place_of v'). }
    cbn [fst snd] in *. pose proof (sheds_trans Sh Sh') as Sh2. destruct (place_suffix Sh') as [S1 S2].
    exists (fst (place_of v')), (snd (place_of v')). rewrite E in S1, S2. cbn [fst snd] in S1, S2.
    assert (forall l, future v l <-> to_come k P Q l) as K1 by (intros l; pose proof (@future_iff T k us vs v l Sh) as X; now rewrite E in X).
    assert (forall l, future v' l <-> to_come k (fst (place_of v')) (snd (place_of v')) l) as K2 by (intros l; exact (@future_iff T k us vs v' l Sh2)).
    split; [|exists v'; split; [exact L'|split; [exact Sh2|now destruct (place_of v')]]].
    split; [exact S1|]. split; [exact S2|]. destruct o as [y|].
    - intros c Hc. apply K1, H, K2, Hc.
    - destruct H as [H1 H2]. split; [now apply K1|]. intros c Hc. apply H2, K2, Hc.
  Qed.
  Definition wpools (pool : list (hlazy T)) (ps : list (list T * list T)) : Prop := Forall2 is_at pool ps.
  Lemma wpools_nth pool ps i : wpools pool ps ->
    (nth_error pool i = None /\ nth_error ps i = None) \/ exists d P Q, nth_error pool i = Some d /\ nth_error ps i = Some (P, Q) /\ is_at d (P, Q).
  Proof using. clear. intros F. revert i. induction F as [|d [P Q] pool ps H F IH]; intros [|i]; cbn; eauto 10. Qed.
  Lemma wpools_put pool ps i d p : wpools pool ps -> is_at d p -> wpools (put_nth i d pool) (firstn i ps ++ p :: skipn (S i) ps).
  Proof using.
    clear. intros P H. unfold put_nth. revert i. induction P as [|d0 l0 pool ls H0 P IH]; intros i.
    - rewrite !firstn_nil, !skipn_nil. constructor; [exact H|constructor].
    - destruct i as [|i]; cbn [firstn skipn app].
      + constructor; [exact H|exact P].
      + constructor; [exact H0|]. apply IH.
  Qed.
  Lemma zrun1_h cs : forall pool ps, wpools pool ps -> reads False (zrun1 kcmp cs pool) hp (zwalks sc k us vs cs ps).
  Proof using Ck.
    induction cs as [|c cs IH]; intros pool ls P; cbn [zrun1]; [apply reads_ret; constructor|].
    apply reads_bind.
    assert (forall (Z : forall outs, zwalks sc k us vs cs ls outs -> zwalks sc k us vs (c :: cs) ls (ZDone :: outs)), 
      reads False (@aret T unit W _ (ZDone, pool)) hp (fun r => reads False (l <- zrun1 kcmp cs (snd r) ;- @aret T unit W _ (fst r :: l)) hp (zwalks sc k us vs (c :: cs) ls))) as KN.
    { intros Z. apply reads_ret. cbn [fst snd]. apply reads_bind. eapply reads_mono; [exact (IH _ _ P)|]. intros l Hl. apply reads_ret. auto. }
    destruct c as [i|i|i|i]; cbn [zstep1]; destruct (wpools_nth i P) as [[E1 E2]|(d & A & B & E1 & E2 & Hd)]; rewrite E1;
      try (apply KN; intros outs Ho; eapply ZW_none; [|exact E2|exact Ho]; eauto; fail).
    - apply reads_bind. eapply reads_mono; [exact (next_at Hd)|]. intros [[o|] d'] Hx; cbn [fst snd] in *.
      + destruct Hx as (A' & B' & Mv & Hd'). apply reads_ret. cbn [fst snd].
        apply reads_bind. eapply reads_mono; [exact (IH _ _ (wpools_put i P Hd'))|]. intros outs Ho. apply reads_ret. eapply ZW_next; eauto.
      + destruct Hx as (Hs & a & b & Hd'). apply reads_ret. cbn [fst snd].
        apply reads_bind. eapply reads_mono; [exact (IH _ _ (wpools_put i P Hd'))|]. intros outs Ho. apply reads_ret. eapply ZW_panic; eauto.
    - apply reads_ret. cbn [fst snd]. apply reads_bind. eapply reads_mono; [exact (IH _ _ P)|]. intros outs Ho. apply reads_ret.
      destruct Hd as (v & L & Sh & E). eapply ZW_hint; [exact E2| |exact Ho]. intros c Hc. apply (@hint_r T yes (valid lt) (@valid_sound T lt) perhaps FP hp d v c L).
      apply (@future_iff T k us vs v c Sh). now rewrite E.
    - apply reads_ret. cbn [fst snd]. apply reads_bind. eapply reads_mono; [apply (IH _ (ls ++ [(A, B)])); apply Forall2_app; [exact P|constructor; [exact Hd|constructor]]|].
      intros outs Ho. apply reads_ret. eapply ZW_clone; eauto.
    - destruct Hd as (v & L & Sh & E). apply reads_bind. eapply reads_mono; [exact (@zshow_r T W False (valid lt) FP hp d v L)|]. intros fs Ef. apply reads_ret. cbn [fst snd].
      apply reads_bind. eapply reads_mono; [exact (IH _ _ P)|]. intros outs Ho. apply reads_ret. eapply ZW_debug; [exact E2| |exact Ho].
      rewrite Ef, (shown_place Sh), E. reflexivity.
  Qed.
End Sessions.

Section Step.
  Variables (T Q W : Type) (kcmp : T -> T -> asks W comparison) (sc : Prop).
  Hypothesis Ck : forall a b, calm sc (kcmp a b).
  Notation lt := (fun _ _ : T => Lt).
  Variables (s1 : regs T unit) (s2 : hregs) (ss : nat -> src T unit) (rs : list (res T unit)) (hp : heap T unit) (S : nat -> list (T * unit)).
  Hypothesis (Rp : reps s2 s1 ss) (H : held ss rs) (O : own hp rs) (RS : rep lt s1 S).
  Lemma look_h k r t cs (w : W) : exists o w',
    abind (hs_lazy k (s2 r) (s2 t)) (fun d => abind (zrun1 kcmp cs [d]) (fun l => @aret T unit W _ (ZSession l))) hp w = (o, hp, w') /\
    exists outs, zwalks sc k (elements S r) (elements S t) cs [sides k (elements S r) (elements S t)] outs /\ o = Ret (ZSession outs).
  Proof using Ck Rp H O RS.
    set (FP := fun s => exists r, s = ss r).
    pose proof (@lazy_r T W False (valid lt) (@valid_sound T lt) FP hp k _ _ _ _ (bears_reg Rp H O RS r) (bears_reg Rp H O RS t)) as L.
    destruct (L w) as (o & w1 & E & Ho). unfold abind at 1. rewrite E. destruct o as [d|e| | |]; try contradiction.
    assert (is_at FP hp k (elements S r) (elements S t) d (sides k (elements S r) (elements S t))) as HL.
    { exists (first_view k (elements S r) (elements S t)). split; [exact Ho|]. split; [apply sheds_refl|apply place_first]. }
    pose proof (@zrun1_h T W kcmp sc Ck FP hp k (elements S r) (elements S t) cs [d] _ (Forall2_cons _ _ HL (Forall2_nil _)) w1) as (o2 & w2 & E2 & Ho2).
    unfold abind. rewrite E2. destruct o2 as [outs|e| | |]; try contradiction. exists (Ret (ZSession outs)), w2. eauto.
  Qed.
End Step.
