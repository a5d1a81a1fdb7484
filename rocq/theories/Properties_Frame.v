(** * Properties_Frame: C60

    An operation writes only to the maps it is given mutably.  Those that take
    [&self] write nothing; those that hand out [&mut V] change values and
    nothing else of the tree; clones do not write to the map they read;
    whatever else is in memory - other maps, damaged maps, nodes that were
    lost - stays as it is, cell by cell, also when the operation fails. *)
From Coq Require Import List Arith Lia Bool Permutation.
From Verif Require Import Base MapSpec IterSpec BTreeModel BTreeInv BTreeIterModel BTreeBulkModel BTreeClone HeapModel HistoryModel HistorySpec HistoryProofs HeapMapModel HeapRep HeapWp HeapRes HeapMap HeapSplit HeapClone HeapInto HeapSpec HeapHistory HeapMemory.
From Verif Require Import HostileModel HostileSpec HostileOps HostileHistory DropModel DropSpec DropHistory ContainSpec ContainProofs FrameSpec FrameProofs.
From Verif Require Import Examples Properties_BTree Properties_BTree2 Properties_History Properties_Heap Properties_Hostile Properties_Drop Properties_Contain.
Import ListNotations.
Set Implicit Arguments.

Ltac unpack E :=
  repeat match type of E with
         | context [match ?x with _ => _ end] => lazymatch x with context [match _ with _ => _ end] => fail | _ => destruct x eqn:?; try discriminate E end
         end.

Section Hostile.
  Variables (K V Q W : Type) (nalloc : bool -> W -> option reserve_error * W) (place : heap K V -> W -> loc).
  Variables (kclone : K -> W -> outcome reserve_error K * W) (vclone : V -> W -> outcome reserve_error V * W).
  Notation kv := (K * V)%type.
  Notation heap := (heap K V).
  Variables (kcmp : K -> K -> asks W comparison) (qcmp : Q -> K -> asks W comparison) (qeq qgt : Q -> Q -> asks W bool) (view : bound_ Q -> asks W (bound_ Q)).
  Variables (eqb : kv -> kv -> asks W bool) (pcmp : kv -> kv -> asks W (option comparison)).
  Notation hxstep := (hxstep nalloc place kcmp qcmp qeq qgt view kclone vclone eqb pcmp).
  Notation hxrun := (hxrun nalloc place kcmp qcmp qeq qgt view kclone vclone eqb pcmp).
  Notation lt := (fun _ _ : K => Lt).
  Notation some_panic := (some_panic kcmp qcmp eqb pcmp).
  Notation loose := (loose (no_memory nalloc) (cloned kclone vclone) (clone_fails nalloc kclone vclone) some_panic).
  Notation gave_up := (HostileSpec.gave_up (K := K) (V := V) (Q := Q) (no_memory nalloc) some_panic).
  Notation obs := (obs K V).
  Notation AM := (AM K V W).

  Lemma done_kept (R : heap -> heap -> Prop) (m : AM (obs * hregs)) (s : hregs) hp w : akeeps_ R m -> R hp (snd (fst (done m s hp w))).
  Proof. intros H. specialize (H hp w). unfold done. destruct (m hp w) as [[[[o s']|e| | |] hp'] w']; exact H. Qed.
  Lemma pure_kept (R : heap -> heap -> Prop) (m : HM K V (outcome reserve_error obs * hregs)) (s : hregs) hp (w : W) : (forall hp, R hp hp) -> keeps_ R m -> R hp (snd (fst (pure m s hp w))).
  Proof. intros Rr H. specialize (H hp). unfold pure. destruct (m hp) as [[[o s'] hp']|]; [now apply (H (o, s'))|apply Rr]. Qed.
  Lemma done_regs (m : AM (obs * hregs)) s hp w : (forall hp w a s' hp' w', m hp w = (Ret (a, s'), hp', w') -> s' = s) -> snd (fst (fst (done m s hp w))) = s.
  Proof. intros H. unfold done. destruct (m hp w) as [[[[o s']|e| | |] hp'] w'] eqn:E; cbn [fst snd]; [|reflexivity..]. now apply H in E. Qed.
  Lemma pure_regs (m : HM K V (outcome reserve_error obs * hregs)) s hp (w : W) : (forall hp a s' hp', m hp = Some ((a, s'), hp') -> s' = s) -> snd (fst (fst (pure m s hp w))) = s.
  Proof. intros H. unfold pure. destruct (m hp) as [[[o s'] hp']|] eqn:E; cbn [fst snd]; [|reflexivity]. now apply H in E. Qed.

  (** any heap, in order or not; whatever the comparisons do *)
  Theorem C60_readers : forall c s hp w, reader c = true -> snd (fst (fst (hxstep c s hp w))) = s /\ snd (fst (hxstep c s hp w)) = hp.
  Proof.
    assert (forall hp : heap, eqh hp hp) as Er by reflexivity.
    assert (forall a b c : heap, eqh a b -> eqh b c -> eqh a c) as Et by (apply eqh_t).
    intros c s hp w H. destruct c; try discriminate H; cbn [HostileModel.hxstep]; clear H; try (split; reflexivity).
    5: { split.
      - apply pure_regs. intros hp0 a s' hp' E. unfold hbind, hret in E. unpack E. injection E. congruence.
      - apply (@pure_kept (@eqh K V)); [exact Er|]. apply k_bind; [exact Et|apply q_iter|intros it]. apply k_bind; [exact Et| |intros x1; apply k_ret; exact Er].
        apply q_hcalls; intros; [apply q_iter_next|apply q_iter_next_back]. }
    all: split; [apply done_regs; intros hp0 w0 a s' hp' w' E; unfold abind, aret, lift in E; unpack E; injection E; congruence | apply (@done_kept (@eqh K V))].
    all: (apply a_bind; [exact Et|auto using aq_get, aq_eq, aq_cmp, aq_range|intros x0]); try (apply a_ret; exact Er).
    - destruct x0; [apply a_ret; exact Er|apply a_panic; exact Er].
    - apply a_bind; [exact Et| |intros x1; apply a_ret; exact Er]. apply a_lift; [exact Er|]. apply q_hcalls; intros; [apply q_range_next|apply q_range_next_back].
  Qed.

  (** [&mut V] is all that is handed out *)
  Theorem C60_lenders : forall c s hp w, lender c = true -> snd (fst (fst (hxstep c s hp w))) = s /\ only_values hp (snd (fst (hxstep c s hp w))).
  Proof.
    pose proof (@ov_r K V) as Er. pose proof (@ov_t K V) as Et. pose proof (@ov_eqh K V) as Eq.
    intros c s hp w H. destruct c; try discriminate H; cbn [HostileModel.hxstep]; clear H.
    - split; [apply done_regs; intros hp0 w0 a s' hp' w' E; unfold abind, aret, lift in E; unpack E; injection E; congruence|].
      apply (@done_kept (@only_values K V)). apply a_bind; [exact Et|eapply akeeps_weak; [exact Eq|apply aq_get_mut]|intros [p|]; [|apply a_ret; exact Er]].
      apply a_bind; [exact Et|apply a_lift; [exact Er|apply ov_write]|intros u; apply a_ret; exact Er].
    - split; [apply pure_regs; intros hp0 a s' hp' E; unfold hbind, hret in E; unpack E; injection E; congruence|].
      apply (@pure_kept (@only_values K V)); [exact Er|]. apply k_bind; [exact Et|eapply keeps_weak; [exact Eq|apply q_iter]|intros it].
      apply k_bind; [exact Et|eapply keeps_weak; [exact Eq|]; apply q_hcalls; intros; [apply q_iter_next|apply q_iter_next_back]|intros x1].
      apply k_bind; [exact Et|apply ov_write_all|intros u; apply k_ret; exact Er].
    - split; [apply done_regs; intros hp0 w0 a s' hp' w' E; unfold abind, aret, lift in E; unpack E; injection E; congruence|].
      apply (@done_kept (@only_values K V)). apply a_bind; [exact Et|eapply akeeps_weak; [exact Eq|apply aq_range]|intros it].
      apply a_bind; [exact Et|eapply akeeps_weak; [exact Eq|]; apply a_lift; [exact (@eqh_r K V)|]; apply q_hcalls; intros; [apply q_range_next|apply q_range_next_back]|intros x1].
      apply a_bind; [exact Et|apply a_lift; [exact Er|apply ov_write_all]|intros u; apply a_ret; exact Er].
  Qed.

  Lemma given_touches (c : op K V Q) : given c = touches c. Proof. destruct c; reflexivity. Qed.
  Lemma given_mentions (c : op K V Q) r : In r (given c) -> In r (mentions c). Proof. destruct c; cbn [given mentions In]; tauto. Qed.

  Lemma ward_owned cmp D s2 s hp S s1 (ss : nat -> src K V) rs lost r : @ward K V cmp D s2 s hp S s1 ss rs lost -> ~ In r D -> owned_by s2 hp r (snodes ss r).
  Proof.
    intros [W1 W2 W3 W4 W5 W6 W7] Hr. unfold owned_by. rewrite (W1 r Hr). pose proof (own_sub W5) as O.
    destruct (W7 r) as [[((Hb1 & Hb2) & Hsh & Hlen) Hsort] He]. destruct (W3 r) as [Rl Rm]. unfold snodes. destruct (ss r) as [T|] eqn:Es.
    - right. destruct Rm as (R1 & _ & R3). rewrite R1. cbn [rh rl sres].
      replace (rflocs [Root T]) with (locs T) by (cbn; now rewrite app_nil_r).
      destruct (held_focus r W4) as (rest & P & _). apply (own_perm P), own_sub in O. rewrite Es in O. cbn [sres] in O.
      destruct O as [O _]. apply Forall_inv in O. destruct O as [B Hh]. rewrite R3 in Hb2. exists (inorder (erase T)).
      apply body_stored; auto. intros X. now destruct X.
    - left. destruct Rm as (R1 & _). auto.
  Qed.

  Lemma goes_rest hp rs hp' X l : @goes K V hp rs hp' X -> hget hp l <> None -> ~ In l (rflocs rs) -> hget hp' l = hget hp l.
  Proof.
    intros G Hl N. destruct (in_dec Nat.eq_dec l (rflocs X)) as [I|I]; [|exact (go_frame G N I)]. destruct (Hl (go_new G I N)).
  Qed.

  Section Run.
    Hypothesis place_fresh : forall hp w, hget hp (place hp w) = None.

    (** what a clone does: nothing to the map it reads *)
    Lemma clone_goes r t s hp (S : nat -> list kv) s1 ss o s' hp' (w w' : W) c : c = TryClone r t \/ c = Clone r t -> r <> t -> reps s s1 ss -> own hp (sres (ss r) ++ sres (ss t)) -> rep lt s1 S ->
      hxstep c s hp w = (o, s', hp', w') -> o <> Abort -> o <> UB -> exists X, goes hp (sres (ss t)) hp' X.
    Proof.
      intros Hc Ne R O RS E Na Nu. assert (sound (s1 r)) as Hm by apply RS. pose proof O as Oa. apply own_app in Oa as (Or & Ot0 & _).
      pose proof (@try_clone_m K V W nalloc place place_fresh kclone vclone _ _ _ hp w (R r) Or Hm) as M.
      assert (exists o2 hp1 w1, h_try_clone nalloc place kclone vclone (s r) hp w = (o2, hp1, w1) /\
        (o2 = Abort \/ o2 = UB \/ match o2 with Ret m' => exists sr, goes hp [] hp1 (sres sr) | _ => goes hp [] hp1 [] end)) as (o2 & hp1 & w1 & E2 & M2).
      { destruct (try_clone nalloc kclone vclone (s1 r) w) as [[o1 d] w2]. destruct M as (hp1 & o2 & E1 & M). exists o2, hp1, w2. split; [exact E1|].
        destruct o1 as [m'|e| | |]; [destruct M as (r2 & sr & -> & _ & G); right; right; eauto|destruct M as (-> & G); auto..| |]; [now left|now right; left]. }
      assert (match o2 with Ret m => pure (hbind (h_drop (s t)) (fun _ => hret (Ret OUnit, hup_ s t m))) s hp1 w1 = (o, s', hp', w') | _ => hp' = hp1 end /\ o2 <> Abort /\ o2 <> UB) as (E3 & Na2 & Nu2).
      { clear M M2. destruct Hc as [-> | ->]; cbn [HostileModel.hxstep] in E; unfold h_clone in E; rewrite E2 in E; destruct o2; cbn [expect pass omap] in E;
          (split; [try exact E; injection E; congruence|]); split; try discriminate; injection E; intros; subst; try congruence. }
      destruct M2 as [M2|[M2|M2]]; try contradiction. clear E M.
      destruct o2 as [m|e| | |]; [|subst hp1; eexists; exact (goes_add M2 Ot0)..].
      destruct M2 as (sr & G). pose proof (goes_add G Ot0) as G1.
      assert (own hp1 (sres (ss t))) as Ot by (pose proof (go_own G1) as Q0; apply own_app in Q0; apply Q0).
      destruct (drop_m (R t) Ot (any_reg RS t) (len_reg RS t)) as (l & fr & _ & Wp). unfold wp, pure, hbind in *. destruct (h_drop (s t) hp1) as [[y hp2]|]; [|contradiction].
      cbn in E3. injection E3 as _ _ <- _. destruct Wp as (_ & G2). exists (sres sr). pose proof (goes_trans G1 (goes_snd G2 (go_own G1))) as G3. now rewrite app_nil_r in G3.
    Qed.

    Lemma snodes_one (ss : nat -> src K V) r (l : loc) : (forall t, In t [r] -> ~ In l (snodes ss t)) -> ~ In l (rflocs (sres (ss r))).
    Proof. intros N. apply (N r). now left. Qed.
    Lemma snodes_two (ss : nat -> src K V) r t (l : loc) : (forall i, In i [r; t] -> ~ In l (snodes ss i)) -> ~ In l (rflocs (sres (ss r) ++ sres (ss t))).
    Proof. intros N I. rewrite rflocs_app in I. apply in_app_or in I as [I|I]; [apply (N r)|apply (N t)]; cbn [In]; auto. Qed.

    Lemma step_confined c D s2 s hp (S : nat -> list kv) s1 ss rs lost o s2' hp' (w w' : W) :
      ward lt D s2 s hp S s1 ss rs lost -> legal c -> avoids c D -> hxstep c s2 hp w = (o, s2', hp', w') -> o <> Abort -> o <> UB ->
      confined c s2 hp hp'.
    Proof.
      intros Wd Hc Av E Na Nu. exists (snodes ss). split; [intros t Ht; apply (ward_owned _ Wd), Av, given_mentions, Ht|].
      pose proof Wd as [W1 W2 W3 W4 W5 W6 W7]. pose proof (own_sub W5) as O. intros l Hl Ni.
      assert (forall r, In r (mentions c) -> s2 r = s r) as Em by (intros r Hr; apply W1, Av, Hr).
      (* one variable *)
      assert (forall r, mentions c = [r] -> given c = [r] -> hget hp' l = hget hp l) as One.
      { intros r Hm Hg. rewrite Hg in Ni. destruct (@hxstep_agree K V Q W nalloc place kclone vclone kcmp qcmp qeq qgt view eqb pcmp c s2 (hup_ hstart r (s r)) hp w) as (A1 & A2 & _ & _).
        { rewrite Hm. intros i [<- |[]]. unfold hup_. rewrite Nat.eqb_refl. apply Em. rewrite Hm. now left. }
        rewrite E in A1, A2. destruct (hxstep c (hup_ hstart r (s r)) hp w) as [[[o' sv] hpv] wv] eqn:Ev. cbn [fst snd] in A1, A2. subst o' hpv.
        destruct (alone_goes nalloc place kclone vclone kcmp qcmp qeq qgt view eqb pcmp place_fresh c r w Hc W3 (own_reg W4 O r) W7 Ev Na Nu) as (X & G).
        exact (goes_rest _ G Hl (snodes_one _ _ Ni)). }
      assert (forall r t, mentions c = [r; t] -> given c = [r; t] -> r <> t -> hget hp' l = hget hp l) as Two.
      { intros r t Hm Hg Ne. rewrite Hg in Ni. destruct (@hxstep_agree K V Q W nalloc place kclone vclone kcmp qcmp qeq qgt view eqb pcmp c s2 (hup_ (hup_ hstart r (s r)) t (s t)) hp w) as (A1 & A2 & _ & _).
        { rewrite Hm. intros i [<- |[<- |[]]]; unfold hup_; rewrite ?Nat.eqb_refl.
          - destruct (Nat.eqb_spec r t); [congruence|]. apply Em. rewrite Hm. now left.
          - apply Em. rewrite Hm. right. now left. }
        rewrite E in A1, A2. destruct (hxstep c (hup_ (hup_ hstart r (s r)) t (s t)) hp w) as [[[o' sv] hpv] wv] eqn:Ev. cbn [fst snd] in A1, A2. subst o' hpv.
        destruct (alone_goes2 nalloc place kclone vclone kcmp qcmp qeq qgt view eqb pcmp place_fresh c w Ne Hc W3 (own_regs W4 O Ne) W7 Ev Na Nu) as (X & G).
        exact (goes_rest _ G Hl (snodes_two _ _ Ni)). }
      assert (forall r t, c = TryClone r t \/ c = Clone r t -> hget hp' l = hget hp l) as Cl.
      { intros r t Hct. assert (mentions c = [r; t] /\ given c = [t] /\ r <> t) as (Hm & Hg & Ne) by (destruct Hct as [-> | ->]; auto). rewrite Hg in Ni.
        destruct (@hxstep_agree K V Q W nalloc place kclone vclone kcmp qcmp qeq qgt view eqb pcmp c s2 s hp w Em) as (A1 & A2 & _ & _).
        rewrite E in A1, A2. destruct (hxstep c s hp w) as [[[o' sv] hpv] wv] eqn:Ev. cbn [fst snd] in A1, A2. subst o' hpv.
        destruct (clone_goes w Hct Ne W3 (own_regs W4 O Ne) W7 Ev Na Nu) as (X & G).
        exact (goes_rest _ G Hl (snodes_one _ _ Ni)). }
      assert (reader c = true -> hget hp' l = hget hp l) as Rd.
      { intros Hr. destruct (C60_readers c s2 hp w Hr) as [_ E2]. rewrite E in E2. cbn [fst snd] in E2. now subst hp'. }
      destruct c; try (now apply Rd); try (eapply One; reflexivity); try (eapply Two; [reflexivity|reflexivity|exact Hc]); eauto.
    Qed.

    Lemma loose_dead (c : op K V Q) S o S' : loose c S o S' -> o = Abort \/ o = UB -> exists r t, c = TryClone r t \/ c = Clone r t.
    Proof.
      destruct c; cbn [HostileSpec.loose]; intros H Ho; eauto; exfalso; destruct Ho as [-> | ->];
      repeat match goal with
             | H : _ \/ _ |- _ => destruct H as [H|H]
             | H : exists _, _ |- _ => destruct H as [? H]
             | H : _ /\ _ |- _ => destruct H as [? H]
             | H : let '(_, _) := ?x in _ |- _ => destruct x
             end; congruence.
    Qed.

    (** a step, and what may be damaged after it *)
    Lemma ward_step c D s2 s hp (S : nat -> list kv) s1 ss rs lost o s2' hp' (w w' : W) :
      ward lt D s2 s hp S s1 ss rs lost -> legal c -> avoids c D -> hxstep c s2 hp w = (o, s2', hp', w') ->
      ((o = Abort \/ o = UB) /\ exists r t, c = TryClone r t \/ c = Clone r t) \/
      (o <> Abort /\ o <> UB /\ exists D' S' s' s1' ss' rs' lost', incl D' (suspect c o ++ D) /\ ward lt D' s2' s' hp' S' s1' ss' rs' lost').
    Proof.
      intros Wd Hc Av E2. pose proof Wd as [W1 W2 W3 W4 W5 W6 W7].
      assert (okay nalloc kclone vclone some_panic c S hp rs (hxstep c s hp w)) as Ok.
      { eapply step_o; try eassumption; [..|exact (own_sub W5)]; unfold calm, Properties_Hostile.some_panic; eauto 10. }
      destruct (@hxstep_agree K V Q W nalloc place kclone vclone kcmp qcmp qeq qgt view eqb pcmp c s2 s hp w) as (A1 & A2 & A3 & A4); [intros r Hr; apply W1, Av; exact Hr|].
      assert (forall i, In i D -> snd (fst (fst (hxstep c s hp w))) i = h_new) as New.
      { intros i Hi. rewrite <- (W2 i Hi). apply hxstep_touches. intros I. apply (Av i); [|exact Hi]. clear - I. destruct c; cbn [touches mentions In] in *; tauto. }
      rewrite E2 in A1, A2, A3, A4. destruct (hxstep c s hp w) as [[[ov sv] hpv] wv]. cbn [fst snd] in A1, A2, A3, A4, New. subst ov hpv wv.
      assert (forall r, ~ In r D -> s2' r = sv r) as Same by (intros r Hr; apply A4, W1, Hr).
      destruct Ok as [(S' & HS & Ok)|(HG & _)].
      - assert (o = Abort \/ o = UB \/ (o <> Abort /\ o <> UB)) as [Ho|[Ho|[Na Nu]]] by (destruct o; auto; right; right; split; discriminate);
          [left; split; [auto|]; eapply loose_dead; eauto..|]. right. split; [exact Na|]. split; [exact Nu|].
        destruct Ok as [Ok|[Ok|(s1' & ss' & rs' & R' & H' & G & RS')]]; try contradiction.
        pose proof (goes_fst G W5) as G1. exists D, S', sv, s1', ss', rs', lost. split; [apply incl_appr, incl_refl|].
        constructor; auto. + exact (go_own G1). + exact (goes_exact G1 W6).
      - right. assert (o <> Abort /\ o <> UB) as [Na Nu] by (destruct (gave_up_alive _ _ _ _ _ HG) as [(e & ->)| ->]; split; discriminate).
        split; [exact Na|]. split; [exact Nu|].
        assert (forall r, In r (suspect c o) -> incl (r :: D) (suspect c o ++ D)) as Sus by (intros r Hr i [<- |Hi]; apply in_or_app; auto).
        assert (forall r, mentions c = [r] -> In r (suspect c o) -> exists D' S' s' s1' ss' rs' lost', incl D' (suspect c o ++ D) /\ ward lt D' s2' s' hp' S' s1' ss' rs' lost') as One.
        { intros r Hm Hr. assert (~ In r D) as Nr by (apply Av; rewrite Hm; now left).
          destruct (harm_one nalloc place kclone vclone kcmp qcmp qeq qgt view eqb pcmp place_fresh _ _ Wd Hc Hm Nr E2 Na Nu) as (T & s' & s1' & ss' & rs' & lost' & ET & Wd' & _).
          exists (r :: D), T, s', s1', ss', rs', lost'. split; [now apply Sus|exact Wd']. }
        destruct c; cbn [HostileSpec.gave_up] in HG; try contradiction;
          try (apply (One r eq_refl); destruct HG as (e & -> & _); now left); try (apply (One r eq_refl); destruct HG as (-> & _); now left).
        + destruct HG as [-> HG]. destruct (harm_append nalloc place kclone vclone kcmp qcmp qeq qgt view eqb pcmp place_fresh _ Wd Hc (Av r (or_introl eq_refl)) (Av _ (or_intror (or_introl eq_refl))) E2) as (T & s' & s1' & ss' & rs' & lost' & Et & ET & Wd' & _).
          exists (r :: D), T, s', s1', ss', rs', lost'. split; [apply Sus; now left|exact Wd'].
        + destruct HG as [-> HG]. destruct (harm_split nalloc place kclone vclone kcmp qcmp qeq qgt view eqb pcmp place_fresh _ _ Wd Hc (Av r (or_introl eq_refl)) E2) as (T & s' & s1' & ss' & rs' & lost' & ET & Wd' & _).
          exists (r :: D), T, s', s1', ss', rs', lost'. split; [apply Sus; now left|exact Wd'].
    Qed.
    Lemma frames_run ops : forall D D0 s2 s hp S s1 ss rs lost w, incl D0 D -> ward lt D0 s2 s hp S s1 ss rs lost ->
      Forall (@legal K V Q) ops -> frames D s2 hp ops (hxrun ops s2 hp w).
    Proof.
      induction ops as [|c ops IH]; intros D D0 s2 s hp S s1 ss rs lost w I Wd HL; [constructor|]. inversion HL as [|? ? Hc HL']; subst.
      destruct (avoids_dec c D) as [Av|Av]; [|now apply Fr_risk]. assert (avoids c D0) as Av0 by (intros r Hr Hd; exact (Av r Hr (I r Hd))).
      cbn [HostileModel.hxrun]. pose proof (@hxstep_touches K V Q W nalloc place kclone vclone kcmp qcmp qeq qgt view eqb pcmp c s2 hp w) as Ht.
      pose proof (C60_readers c s2 hp w) as Hr. pose proof (C60_lenders c s2 hp w) as Hl.
      destruct (hxstep c s2 hp w) as [[[o s2'] hp'] w'] eqn:E. cbn [fst snd] in Ht, Hr, Hl.
      destruct (ward_step w Wd Hc Av0 E) as [(Ho & Hcl)|(Na & Nu & D' & S' & s' & s1' & ss' & rs' & lost' & I' & Wd')].
      - destruct Ho as [-> | ->]; apply Fr_dead; auto.
      - replace (match o with Abort | UB => [] | _ => hxrun ops s2' hp' w' end) with (hxrun ops s2' hp' w') by (destruct o; congruence).
        apply Fr_step; [exact Av|exact Na|exact Nu|..].
        + intros r. rewrite given_touches. apply Ht.
        + exact (step_confined w Wd Hc Av0 E Na Nu).
        + intros X. now apply Hr.
        + intros X. now apply Hl.
        + eapply IH; [|exact Wd'|exact HL']. intros x Hx. apply I' in Hx. apply in_app_or in Hx as [Hx|Hx]; apply in_or_app; auto.
    Qed.

    Theorem C60_frames : forall ops w, Forall (@legal K V Q) ops -> frames [] hstart [] ops (hxrun ops hstart [] w).
    Proof.
      intros ops w HL. apply frames_run with (D0 := []) (s := hstart) (s1 := start K V) (ss := fun _ => None) (rs := []) (lost := []) (S := nothing K V); [apply incl_refl| |exact HL]. constructor.
      - reflexivity.
      - intros r [].
      - intros r. apply mrep_new.
      - exists 0. split; [reflexivity|constructor].
      - constructor; [constructor|constructor].
      - intros l Hl Hg. apply Hg. unfold hget. destruct (l =? sroot) eqn:El; [apply Nat.eqb_eq in El; congruence|reflexivity].
      - apply start_rep.
    Qed.
  End Run.
End Hostile.

(** ** Programs that meet the hypotheses *)
(** the program of Properties_Contain: split_off of variable 0 panics, the program goes on with 1 and 2.  Every step is
    confined; the nodes of the damaged map are not written again, though one of variable 1 is *)
Example after_split_frames : frames [] hstart [] after_split (trun after_split hstart [] 241).
Proof. apply C60_frames; [apply place_reuse_fresh|repeat constructor; discriminate]. Qed.
Definition lives (hp : heap nat nat) : list loc := filter (fun l => match hget hp l with Some _ => negb (l =? sroot) | None => false end) (seq 0 20).
Definition same_cells (a b : heap nat nat) : list bool :=
  map (fun l => match hget a l, hget b l with
                | Some c, Some d => forallb (fun p => match fst p, snd p with Some x, Some y => x =? y | None, None => true | _, _ => false end)
                                     (combine (ckeys c) (ckeys d)) && (clen c =? clen d)
                | _, _ => false end) (lives a).
Example after_split_cells :
  let hps := map snd (trun after_split hstart [] 241) in
  lives (nth 31 hps []) = [1; 2; 3; 4; 5; 6] /\                      (* after the panic: what is left of 0, and one node of 1 *)
  same_cells (nth 31 hps []) (nth 33 hps []) = [true; true; true; true; true; true] /\   (* get, extend: nothing of them is written *)
  same_cells (nth 31 hps []) (nth 37 hps []) = [true; true; true; true; true; false].    (* in the end 1 is cleared *)
Proof. vm_compute. repeat split. Qed.
(** [iter_mut] writes two values of a tree with several nodes, nothing else *)
Definition lend : list (op nat nat nat) := [Extend 0 (map (fun k => (k, k)) (seq 0 20)); IterMut 0 [Front; Front; Back] [(1, fun v => v + 100); (2, fun v => v + 200)]; Get 0 1; Get 0 19; Get 0 2].
Example lend_values : let r := trun lend hstart [] 4000 in
  outcomes r = [Ret OUnit; Ret (OItems [Some (0, 0); Some (1, 1); Some (19, 19)]); Ret (OVal nat (Some 101)); Ret (OVal nat (Some 219)); Ret (OVal nat (Some 2))] /\
  same_cells (nth 0 (map snd r) []) (nth 1 (map snd r) []) = repeat true (length (lives (nth 0 (map snd r) []))) /\ 3 <= length (lives (nth 0 (map snd r) [])).
Proof. vm_compute. repeat split. repeat constructor. Qed.

Print Assumptions C60_readers.
Print Assumptions C60_lenders.
Print Assumptions C60_frames.
