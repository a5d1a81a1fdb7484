(** * Properties_Contain: C59

    A map that was damaged - an insertion was refused memory, append or
    split_off panicked - does not harm the others: whatever a program goes on
    to do with them is as if nothing had happened, as long as it leaves the
    damaged map alone. *)
From Coq Require Import List Arith Lia Bool Permutation.
From Verif Require Import Base MapSpec IterSpec BTreeModel BTreeIterModel BTreeClone HeapModel HistoryModel HistorySpec HistoryProofs HeapMapModel HeapRes HeapMap HeapSplit HeapSpec HeapHistory HeapMemory.
From Verif Require Import HostileModel HostileSpec HostileOps HostileHistory DropModel DropSpec DropHistory ContainSpec ContainProofs.
From Verif Require Import Examples Properties_BTree Properties_BTree2 Properties_History Properties_Heap Properties_Hostile Properties_Drop.
Import ListNotations.
Set Implicit Arguments.

(** two states of the variables that agree on what the operation mentions *)
Ltac same_steps :=
  repeat match goal with
         | |- context [match ?x with _ => _ end] => lazymatch x with context [match _ with _ => _ end] => fail | _ => destruct x end
         end.

Lemma avoids_dec K V Q (c : op K V Q) D : avoids c D \/ ~ avoids c D.
Proof.
  unfold avoids. destruct (existsb (fun r => if in_dec Nat.eq_dec r D then true else false) (mentions c)) eqn:Ex.
  - right. intros A. apply existsb_exists in Ex as (r & Hr & Ex). destruct (in_dec Nat.eq_dec r D) as [I|]; [|discriminate Ex]. exact (A r Hr I).
  - left. intros r Hr I. assert (existsb (fun r => if in_dec Nat.eq_dec r D then true else false) (mentions c) = true); [|congruence].
    apply existsb_exists. exists r. split; [exact Hr|]. destruct (in_dec Nat.eq_dec r D); [reflexivity|contradiction].
Qed.

Section Hostile.
  Variables (K V Q W : Type) (nalloc : bool -> W -> option reserve_error * W) (place : heap K V -> W -> loc).
  Variables (kclone : K -> W -> outcome reserve_error K * W) (vclone : V -> W -> outcome reserve_error V * W).
  Notation kv := (K * V)%type.
  Notation heap := (heap K V).
  Variables (kcmp : K -> K -> asks W comparison) (qcmp : Q -> K -> asks W comparison) (qeq qgt : Q -> Q -> asks W bool) (view : bound_ Q -> asks W (bound_ Q)).
  Variables (eqb : kv -> kv -> asks W bool) (pcmp : kv -> kv -> asks W (option comparison)).
  Notation hxstep := (hxstep nalloc place kcmp qcmp qeq qgt view kclone vclone eqb pcmp).
  Notation hxrun := (hxrun nalloc place kcmp qcmp qeq qgt view kclone vclone eqb pcmp).
  Notation lt := (fun _ _ : K => Lt).
  Notation some_panic := (some_panic kcmp qcmp eqb pcmp).
  Notation loose := (loose (no_memory nalloc) (cloned kclone vclone) (clone_fails nalloc kclone vclone) some_panic).
  Notation gave_up := (HostileSpec.gave_up (K := K) (V := V) (Q := Q) (no_memory nalloc) some_panic).
  Notation runs_contained := (runs_contained (K := K) (V := V) (Q := Q) (no_memory nalloc) (cloned kclone vclone) (clone_fails nalloc kclone vclone) some_panic).

  Lemma hxstep_agree c (s s' : hregs) hp w : (forall r, In r (mentions c) -> s r = s' r) ->
    fst (fst (fst (hxstep c s hp w))) = fst (fst (fst (hxstep c s' hp w))) /\
    snd (fst (hxstep c s hp w)) = snd (fst (hxstep c s' hp w)) /\ snd (hxstep c s hp w) = snd (hxstep c s' hp w) /\
    forall r, s r = s' r -> snd (fst (fst (hxstep c s hp w))) r = snd (fst (fst (hxstep c s' hp w))) r.
  Proof.
    intros H. unfold HostileModel.hxstep, done, abind, aret, pure, hbind, hret, lift.
    destruct c; cbn [mentions In] in H;
      match goal with
      | r : nat, t : nat |- _ => rewrite <- (H r) by tauto; rewrite <- (H t) by tauto
      | r : nat |- _ => rewrite <- (H r) by tauto
      end; same_steps; cbn [fst snd]; (split; [reflexivity|split; [reflexivity|split; [reflexivity|]]]);
      intros i Ei; unfold hup_; repeat match goal with |- context [if ?b then _ else _] => destruct b end; auto.
  Qed.

  (** a step that gives up leaves the variables it does not damage alone *)
  Lemma hx_append_other (m o : hmap) hp w : fst (fst (fst (fst (hx_append nalloc place kcmp m o hp w)))) = Panic -> snd (fst (fst (hx_append nalloc place kcmp m o hp w))) = h_new.
  Proof.
    unfold hx_append, lift, pass. destruct (mlen o =? 0); [discriminate|]. destruct (mlen m =? 0); [discriminate|].
    same_steps; cbn [fst snd]; try discriminate; auto.
  Qed.
  Lemma hxstep_append s r t hp w : fst (fst (fst (hxstep (Append r t) s hp w))) = Panic -> snd (fst (fst (hxstep (Append r t) s hp w))) t = h_new.
  Proof.
    unfold HostileModel.hxstep. pose proof (hx_append_other (s r) (s t) hp w) as X. destruct (hx_append nalloc place kcmp (s r) (s t) hp w) as [[[[o m] m2] hp'] w'].
    cbn [fst snd] in *. destruct o; try discriminate. intros _. unfold hup_. rewrite Nat.eqb_refl. now apply X.
  Qed.
  Lemma hxstep_split s s' r x t hp w : s r = s' r -> fst (fst (fst (hxstep (SplitOff r x t) s hp w))) = Panic ->
    fst (fst (fst (hxstep (SplitOff r x t) s' hp w))) = Panic /\ snd (fst (hxstep (SplitOff r x t) s' hp w)) = snd (fst (hxstep (SplitOff r x t) s hp w)) /\
    forall i, i <> r -> snd (fst (fst (hxstep (SplitOff r x t) s hp w))) i = s i.
  Proof.
    intros E. unfold HostileModel.hxstep, pure, hbind, hret. rewrite <- E. same_steps; cbn [fst snd pass omap]; try discriminate; intros _; (split; [reflexivity|split; [reflexivity|]]);
      intros i Hi; unfold hup_; destruct (Nat.eqb_spec i r); congruence.
  Qed.

  Section Run.
    Hypothesis place_fresh : forall hp w, hget hp (place hp w) = None.

    Lemma okay_goes (c : op K V Q) (S : nat -> list kv) hp rs o s' hp' (w : W) : okay nalloc kclone vclone some_panic c S hp rs (o, s', hp', w) -> o <> Abort -> o <> UB -> exists X, goes hp rs hp' X.
    Proof.
      intros [(S' & _ & [X|[X|(s1' & ss' & rs' & _ & _ & G & _)]])|(_ & s1' & ss' & rs' & lost & _ & _ & G & _)] Na Nu; try congruence; eauto.
    Qed.
    (** what becomes of the resources of one variable, or two *)
    Lemma alone_goes c s hp (S : nat -> list kv) s1 ss r o s' hp' (w w' : W) : legal c -> reps s s1 ss -> own hp (sres (ss r)) -> rep lt s1 S ->
      hxstep c (hup_ hstart r (s r)) hp w = (o, s', hp', w') -> o <> Abort -> o <> UB -> exists X, goes hp (sres (ss r)) hp' X.
    Proof.
      intros Hc R O RS E Na Nu. destruct (@alone K V lt s S s1 ss r R RS) as (R' & H' & RS').
      eapply (@okay_goes c (upd (nothing K V) r (S r)) hp _ o s' hp' w'); [|exact Na|exact Nu]. rewrite <- E. eapply step_o; try eassumption; unfold calm, Properties_Hostile.some_panic; eauto 10.
    Qed.
    Lemma alone_goes2 c s hp (S : nat -> list kv) s1 ss r t o s' hp' (w w' : W) : r <> t -> legal c -> reps s s1 ss -> own hp (sres (ss r) ++ sres (ss t)) -> rep lt s1 S ->
      hxstep c (hup_ (hup_ hstart r (s r)) t (s t)) hp w = (o, s', hp', w') -> o <> Abort -> o <> UB -> exists X, goes hp (sres (ss r) ++ sres (ss t)) hp' X.
    Proof.
      intros Ne Hc R O RS E Na Nu. destruct (@alone2 K V lt s S s1 ss r t Ne R RS) as (R' & H' & RS').
      eapply (@okay_goes c (upd (upd (nothing K V) r (S r)) t (S t)) hp _ o s' hp' w'); [|exact Na|exact Nu]. rewrite <- E. eapply step_o; try eassumption; unfold calm, Properties_Hostile.some_panic; eauto 10.
    Qed.

    (** a step that gives up *)
    Lemma harm_one c r D s2 s hp (S : nat -> list kv) s1 ss rs lost o s2' hp' (w w' : W) :
      ward lt D s2 s hp S s1 ss rs lost -> legal c -> mentions c = [r] -> ~ In r D -> hxstep c s2 hp w = (o, s2', hp', w') -> o <> Abort -> o <> UB ->
      exists T s' s1' ss' rs' lost', (forall i, i <> r -> T i = S i) /\ ward lt (r :: D) s2' s' hp' T s1' ss' rs' lost' /\ exists Y, lost' = Y ++ lost.
    Proof.
      intros Wd Hc Hm Hr E Na Nu. pose proof Wd as [W1 W2 W3 W4 W5 W6 W7].
      destruct (@hxstep_agree c s2 (hup_ hstart r (s r)) hp w) as (A1 & A2 & A3 & A4).
      { rewrite Hm. intros i [<- |[]]. unfold hup_. rewrite Nat.eqb_refl. now apply W1. }
      rewrite E in A1, A2. destruct (hxstep c (hup_ hstart r (s r)) hp w) as [[[o' sv] hpv] wv] eqn:Ev. cbn [fst snd] in A1, A2. subst o' hpv.
      destruct (@alone_goes c s hp S s1 ss r o sv hp' w wv Hc W3) as (X & G); auto.
      { exact (own_reg W4 (own_sub W5) r). }
      edestruct ward_harm as (T & s' & s1' & ss' & rs' & lost' & ET & Wd' & El); [exact Wd|exact G| |reflexivity|exists T, s', s1', ss', rs', lost'; eauto]. intros i Hi. pose proof (@hxstep_touches K V Q W nalloc place kclone vclone kcmp qcmp qeq qgt view eqb pcmp c s2 hp w i) as Ht.
      rewrite E in Ht. apply Ht. clear - Hm Hi. destruct c; cbn [mentions touches] in *; intros I; try (injection Hm as ->; cbn [In] in I; intuition congruence); try discriminate Hm; contradiction.
    Qed.

    Lemma harm_split r x t D s2 s hp (S : nat -> list kv) s1 ss rs lost s2' hp' (w w' : W) :
      ward lt D s2 s hp S s1 ss rs lost -> r <> t -> ~ In r D -> hxstep (SplitOff r x t) s2 hp w = (Panic, s2', hp', w') ->
      exists T s' s1' ss' rs' lost', (forall i, i <> r -> T i = S i) /\ ward lt (r :: D) s2' s' hp' T s1' ss' rs' lost' /\ exists Y, lost' = Y ++ lost.
    Proof.
      intros Wd Ne Hr E. pose proof Wd as [W1 W2 W3 W4 W5 W6 W7].
      destruct (@hxstep_split s2 (hup_ hstart r (s r)) r x t hp w) as (A1 & A2 & A3).
      { unfold hup_. rewrite Nat.eqb_refl. now apply W1. } { now rewrite E. }
      rewrite E in A2, A3. destruct (hxstep (SplitOff r x t) (hup_ hstart r (s r)) hp w) as [[[o' sv] hpv] wv] eqn:Ev. cbn [fst snd] in A1, A2. subst o' hpv.
      destruct (@alone_goes (SplitOff r x t) s hp S s1 ss r Panic sv hp' w wv Ne W3) as (X & G); auto; try discriminate.
      { exact (own_reg W4 (own_sub W5) r). }
      edestruct ward_harm as (T & s' & s1' & ss' & rs' & lost' & ET & Wd' & El); [exact Wd|exact G|exact A3|reflexivity|exists T, s', s1', ss', rs', lost'; eauto].
    Qed.
    Lemma harm_append r t D s2 s hp (S : nat -> list kv) s1 ss rs lost s2' hp' (w w' : W) :
      ward lt D s2 s hp S s1 ss rs lost -> r <> t -> ~ In r D -> ~ In t D -> hxstep (Append r t) s2 hp w = (Panic, s2', hp', w') ->
      exists T s' s1' ss' rs' lost', T t = [] /\ (forall i, i <> r -> i <> t -> T i = S i) /\ ward lt (r :: D) s2' s' hp' T s1' ss' rs' lost' /\ exists Y, lost' = Y ++ lost.
    Proof.
      intros Wd Ne Hr Ht E. pose proof Wd as [W1 W2 W3 W4 W5 W6 W7].
      destruct (@hxstep_agree (Append r t) s2 (hup_ (hup_ hstart r (s r)) t (s t)) hp w) as (A1 & A2 & A3 & A4).
      { cbn [mentions]. intros i [<- |[<- |[]]]; unfold hup_; rewrite ?Nat.eqb_refl; [|now apply W1]. destruct (Nat.eqb_spec r t); [congruence|]. now apply W1. }
      pose proof (@hxstep_append s2 r t hp w) as At.
      rewrite E in A1, A2, At. destruct (hxstep (Append r t) (hup_ (hup_ hstart r (s r)) t (s t)) hp w) as [[[o' sv] hpv] wv] eqn:Ev. cbn [fst snd] in A1, A2, At. subst o' hpv.
      destruct (@alone_goes2 (Append r t) s hp S s1 ss r t Panic sv hp' w wv Ne Ne W3) as (X & G); auto; try discriminate.
      { exact (own_regs W4 (own_sub W5) Ne). }
      destruct (@ward_harm2 K V lt D s2 s hp S s1 ss rs lost r t hp' X s2' (upd S t []) Wd Ne Ht G) as (T & s' & s1' & ss' & rs' & lost' & ET & Wd' & El); auto.
      - intros i Hi Hi2. pose proof (@hxstep_touches K V Q W nalloc place kclone vclone kcmp qcmp qeq qgt view eqb pcmp (Append r t) s2 hp w i) as Hx.
        rewrite E in Hx. apply Hx. cbn [touches In]. intuition congruence.
      - intros i Hi Hi2. unfold upd. destruct (Nat.eqb_spec i t); congruence.
      - unfold upd. now rewrite Nat.eqb_refl.
      - exists T, s', s1', ss', rs', lost'. split; [rewrite ET by congruence; unfold upd; now rewrite Nat.eqb_refl|]. split; [|eauto].
        intros i Hi Hi2. rewrite ET by exact Hi. unfold upd. destruct (Nat.eqb_spec i t); congruence.
    Qed.

    Lemma hxrun_contained ops : forall D s2 s hp S s1 ss rs lost w, ward lt D s2 s hp S s1 ss rs lost ->
      Forall (@legal K V Q) ops -> runs_contained D S ops (hxrun ops s2 hp w).
    Proof.
      induction ops as [|c ops IH]; intros D s2 s hp S s1 ss rs lost w Wd HL; [constructor|]. inversion HL as [|? ? Hc HL']; subst.
      destruct (avoids_dec c D) as [Av|Av]; [|now apply Q_risk].
      pose proof Wd as [W1 W2 W3 W4 W5 W6 W7].
      assert (okay nalloc kclone vclone some_panic c S hp rs (hxstep c s hp w)) as Ok.
      { eapply step_o; try eassumption; [..|exact (own_sub W5)]; unfold calm, Properties_Hostile.some_panic; eauto 10. }
      destruct (@hxstep_agree c s2 s hp w) as (A1 & A2 & A3 & A4); [intros r Hr; apply W1, Av; exact Hr|].
      assert (forall i, In i D -> snd (fst (fst (hxstep c s hp w))) i = h_new) as New.
      { intros i Hi. rewrite <- (W2 i Hi). apply hxstep_touches. intros I. apply (Av i); [|exact Hi]. clear - I. destruct c; cbn [touches mentions In] in *; tauto. }
      cbn [HostileModel.hxrun]. destruct (hxstep c s2 hp w) as [[[o s2'] hp'] w'] eqn:E2. destruct (hxstep c s hp w) as [[[ov sv] hpv] wv]. cbn [fst snd] in A1, A2, A3, A4, New. subst ov hpv wv.
      assert (forall r, ~ In r D -> s2' r = sv r) as Same by (intros r Hr; apply A4, W1, Hr).
      destruct Ok as [(S' & HS & Ok)|(HG & _)].
      - destruct Ok as [-> |[-> |(s1' & ss' & rs' & R' & H' & G & RS')]]; [eapply Q_dead; eauto|eapply Q_dead; eauto|].
        pose proof (goes_fst G W5) as G1.
        assert (ward lt D s2' sv hp' S' s1' ss' rs' lost) as Wd'.
        { constructor; auto. - exact (go_own G1). - exact (goes_exact G1 W6). }
        destruct o as [a|e| | |]; try (eapply Q_dead; [exact Av|exact HS|auto]; fail);
          (eapply Q_step; [exact Av|exact HS|exact (ward_memory Wd')|discriminate|discriminate|]; eapply IH; eauto).
      - assert (forall X : list (outcome reserve_error (obs K V) * hregs * heap), match o with Abort | UB => [] | _ => X end = X) as EX
          by (intros X; destruct (gave_up_alive _ _ _ _ _ HG) as [(e & ->)| ->]; reflexivity).
        rewrite EX. assert (o <> Abort /\ o <> UB) as [Na Nu] by (destruct (gave_up_alive _ _ _ _ _ HG) as [(e & ->)| ->]; split; discriminate).
        destruct c; cbn [HostileSpec.gave_up] in HG; try contradiction.
        + destruct (harm_one _ _ Wd Hc eq_refl (Av r (or_introl eq_refl)) E2 Na Nu) as (T & s' & s1' & ss' & rs' & lost' & ET & Wd' & _).
          eapply Q_gave_up; [exact Av|exact HG|constructor; exact ET|exact (ward_memory Wd')|]. eapply IH; eauto.
        + destruct (harm_one _ _ Wd Hc eq_refl (Av r (or_introl eq_refl)) E2 Na Nu) as (T & s' & s1' & ss' & rs' & lost' & ET & Wd' & _).
          eapply Q_gave_up; [exact Av|exact HG|constructor; exact ET|exact (ward_memory Wd')|]. eapply IH; eauto.
        + destruct HG as [-> HG]. destruct (harm_append _ Wd Hc (Av r (or_introl eq_refl)) (Av _ (or_intror (or_introl eq_refl))) E2) as (T & s' & s1' & ss' & rs' & lost' & Et & ET & Wd' & _).
          eapply Q_gave_up; [exact Av|split; [reflexivity|exact HG]|constructor; [exact Et|exact ET]|exact (ward_memory Wd')|]. eapply IH; eauto.
        + destruct HG as [-> HG]. destruct (harm_split _ _ Wd Hc (Av r (or_introl eq_refl)) E2) as (T & s' & s1' & ss' & rs' & lost' & ET & Wd' & _).
          eapply Q_gave_up; [exact Av|split; [reflexivity|exact HG]|constructor; exact ET|exact (ward_memory Wd')|]. eapply IH; eauto.
        + destruct (harm_one _ _ Wd Hc eq_refl (Av r (or_introl eq_refl)) E2 Na Nu) as (T & s' & s1' & ss' & rs' & lost' & ET & Wd' & _).
          eapply Q_gave_up; [exact Av|exact HG|constructor; exact ET|exact (ward_memory Wd')|]. eapply IH; eauto.
        + destruct (harm_one _ _ Wd Hc eq_refl (Av r (or_introl eq_refl)) E2 Na Nu) as (T & s' & s1' & ss' & rs' & lost' & ET & Wd' & _).
          eapply Q_gave_up; [exact Av|exact HG|constructor; exact ET|exact (ward_memory Wd')|]. eapply IH; eauto.
    Qed.

    Theorem C59_hostile : forall ops w, Forall (@legal K V Q) ops -> runs_contained [] (nothing K V) ops (hxrun ops hstart [] w).
    Proof.
      intros ops w HL. apply hxrun_contained with (s := hstart) (s1 := start K V) (ss := fun _ => None) (rs := []) (lost := []); auto. constructor.
      - reflexivity.
      - intros r [].
      - intros r. apply mrep_new.
      - exists 0. split; [reflexivity|constructor].
      - constructor; [constructor|constructor].
      - intros l Hl Hg. apply Hg. unfold hget. destruct (l =? sroot) eqn:El; [apply Nat.eqb_eq in El; congruence|reflexivity].
      - apply start_rep.
    Qed.
  End Run.
  (** ** Undefined behaviour needs a damaged map *)
  Lemma clones_live (A1 : forall k w, fst (kclone k w) <> Abort /\ fst (kclone k w) <> UB) (A2 : forall v w, fst (vclone v w) <> Abort /\ fst (vclone v w) <> UB) u :
    clone_fails nalloc kclone vclone u -> u <> Abort /\ u <> UB.
  Proof.
    intros [(e & -> & He)|[(k & w & <-)|(v & w & <-)]]; [split; discriminate| |].
    - specialize (A1 k w). destruct (fst (kclone k w)); cbn; split; try discriminate; tauto.
    - specialize (A2 v w). destruct (fst (vclone v w)); cbn; split; try discriminate; tauto.
  Qed.
  Lemma loose_live (A1 : forall k w, fst (kclone k w) <> Abort /\ fst (kclone k w) <> UB) (A2 : forall v w, fst (vclone v w) <> Abort /\ fst (vclone v w) <> UB) (c : op K V Q) S o S' :
    loose c S o S' -> o <> Abort /\ o <> UB.
  Proof.
    pose proof (clones_live A1 A2) as CL.
    assert (forall A (o : outcome reserve_error A) x, o = Ret x -> o <> Abort /\ o <> UB) as Live by (intros A o' x ->; split; discriminate).
    destruct c; cbn [HostileSpec.loose]; intros H;
      repeat match goal with
             | H : _ \/ _ |- _ => destruct H as [H|H]
             | H : exists _, _ |- _ => destruct H as [? H]
             | H : _ /\ _ |- _ => destruct H as [? H]
             | H : let '(_, _) := ?x in _ |- _ => destruct x
             end; subst; try (split; discriminate).
    - match goal with H : clone_fails _ _ _ ?u |- _ => destruct (CL u H); destruct u; cbn [omap]; split; congruence end.
    - match goal with H : clone_fails _ _ _ ?u |- _ => destruct (CL u H); destruct u; cbn [omap]; split; congruence end.
  Qed.
  Lemma contained_careful (A1 : forall k w, fst (kclone k w) <> Abort /\ fst (kclone k w) <> UB) (A2 : forall v w, fst (vclone v w) <> Abort /\ fst (vclone v w) <> UB)
    D S ops res : runs_contained D S ops res -> forall D', incl D D' -> careful D' ops (map (fun x => fst (fst x)) res) ->
    (res = [] -> ops = []) -> Forall (fun x => fst (fst x) <> Abort /\ fst (fst x) <> UB) res.
  Proof.
    intros R. induction R as [D S|D S c l o s hp S' rest Av HS HM Na Nu HR IH|D S c l o s hp S' Av HS Ho|D S c l o s hp r S' rest Av HG Hd HM HR IH|D S c l res Av]; intros D' I C Ne.
    - constructor.
    - constructor; [auto|]. cbn [map fst careful] in C. destruct C as [_ C]. destruct rest as [|x rest]; [constructor|]. eapply IH; [|exact C|discriminate].
      intros x' Hx. apply in_or_app. right. now apply I.
    - destruct (loose_live A1 A2 _ _ _ _ HS) as [N1 N2]. destruct Ho; contradiction.
    - constructor; [cbn [fst]; destruct (gave_up_alive _ _ _ _ _ HG) as [(e & ->)| ->]; split; discriminate|]. cbn [map fst careful] in C. destruct C as [_ C]. destruct rest as [|x rest]; [constructor|].
      eapply IH; [|exact C|discriminate]. intros x' [<- |Hx]; [|apply in_or_app; right; now apply I]. apply in_or_app. left.
      clear - HG Hd. destruct Hd; cbn [HostileSpec.gave_up] in HG; try (destruct HG as (e & -> & _); now left); destruct HG as (-> & _); now left.
    - destruct res as [|x res]; [discriminate (Ne eq_refl)|]. exfalso. cbn [map careful] in C. destruct C as [C _]. apply Av. intros r Hr HD. exact (C r Hr (I r HD)).
  Qed.
  Lemma hxrun_nonempty ops s hp w : hxrun ops s hp w = [] -> ops = [].
  Proof. destruct ops as [|c ops]; [reflexivity|]. cbn [HostileModel.hxrun]. destruct (hxstep c s hp w) as [[[o s'] hp'] w']. discriminate. Qed.
  Lemma hxrun_all ops : forall s hp w, Forall (fun x => fst (fst x) <> Abort /\ fst (fst x) <> UB) (hxrun ops s hp w) -> length (hxrun ops s hp w) = length ops.
  Proof.
    induction ops as [|c ops IH]; intros s hp w F; [reflexivity|]. cbn [HostileModel.hxrun] in *. destruct (hxstep c s hp w) as [[[o s'] hp'] w']. apply Forall_cons_iff in F as [[F1 F2] F]. cbn [fst] in *.
    cbn [length]. f_equal. destruct o; try congruence; now apply IH.
  Qed.

  (** whatever the allocator and the comparisons do: a program that never again uses a map into which an insertion failed, or of which extend,
      append or split_off panicked, runs to its end *)
  Theorem C59_careful : (forall hp w, hget hp (place hp w) = None) ->
    (forall k w, fst (kclone k w) <> Abort /\ fst (kclone k w) <> UB) -> (forall v w, fst (vclone v w) <> Abort /\ fst (vclone v w) <> UB) ->
    forall ops w, Forall (@legal K V Q) ops -> careful [] ops (map (fun x => fst (fst x)) (hxrun ops hstart [] w)) ->
    length (hxrun ops hstart [] w) = length ops /\ Forall (fun x => fst (fst x) <> Abort /\ fst (fst x) <> UB) (hxrun ops hstart [] w).
  Proof.
    intros PF A1 A2 ops w HL C. assert (Forall (fun x => fst (fst x) <> Abort /\ fst (fst x) <> UB) (hxrun ops hstart [] w)) as F.
    { eapply contained_careful; [exact A1|exact A2|exact (C59_hostile PF w HL)|apply incl_refl|exact C|apply hxrun_nonempty]. }
    split; [now apply hxrun_all|exact F].
  Qed.
End Hostile.

Section Lawful.
  Variables (K V Q : Type) (cmp : K -> K -> comparison) (qcmp : Q -> Q -> comparison) (borrow : K -> Q).
  Notation kv := (K * V)%type.
  Notation heap := (heap K V).
  Variables (W : Type) (nalloc : bool -> W -> option reserve_error * W) (place : heap -> W -> loc).
  Variables (kclone : K -> W -> outcome reserve_error K * W) (vclone : V -> W -> outcome reserve_error V * W).
  Variables (eqb : kv -> kv -> bool) (pcmp : kv -> kv -> option comparison).
  Variables (kdrop : K -> W -> bool * W) (vdrop : V -> W -> bool * W).
  Notation hstep := (hstep nalloc place cmp qcmp borrow kclone vclone eqb pcmp).
  Notation hdrun := (hdrun kdrop vdrop nalloc place cmp qcmp borrow kclone vclone eqb pcmp).
  Notation hdstep := (hdstep kdrop vdrop nalloc place cmp qcmp borrow kclone vclone eqb pcmp).
  Notation gave_up_ := (HistorySpec.gave_up cmp (no_memory nalloc)).
  Notation keeps_going := (keeps_going cmp qcmp borrow eqb pcmp (no_memory nalloc) (cloned kclone vclone) (clone_fails nalloc kclone vclone) kdrop vdrop).

  Lemma hdstep_agree c (s s' : hregs) hp w : (forall r, In r (mentions c) -> s r = s' r) ->
    fst (fst (fst (hdstep c s hp w))) = fst (fst (fst (hdstep c s' hp w))) /\
    snd (fst (hdstep c s hp w)) = snd (fst (hdstep c s' hp w)) /\ snd (hdstep c s hp w) = snd (hdstep c s' hp w) /\
    forall r, s r = s' r -> snd (fst (fst (hdstep c s hp w))) r = snd (fst (fst (hdstep c s' hp w))) r.
  Proof.
    intros H. destruct (match c with SplitOff _ _ _ => true | _ => false end) eqn:Ec.
    { destruct c as [| | | | | | | | | | | | | |r x t| | | | | | | | | | | |]; try discriminate Ec. cbn [mentions In] in H. unfold DropModel.hdstep, hd_assign. rewrite <- (H r) by tauto.
      destruct (h_split_off nalloc place (look qcmp borrow x) (s r) hp w) as [[[o m] hp1] w1].
      assert (hup_ s r m t = hup_ s' r m t) as Hh by (unfold hup_; destruct (t =? r); [reflexivity|apply H; tauto]). rewrite <- Hh.
      same_steps; cbn [fst snd]; (split; [reflexivity|split; [reflexivity|split; [reflexivity|]]]);
        intros i Ei; unfold hup_; repeat match goal with |- context [if ?b then _ else _] => destruct b end; auto. }
    unfold DropModel.hdstep, hd_assign, HeapMapModel.hstep, pure, hbind, hret, lift.
    destruct c; try discriminate Ec; cbn [mentions In] in H;
      match goal with
      | r : nat, t : nat |- _ => rewrite <- (H r) by tauto; rewrite <- (H t) by tauto
      | r : nat |- _ => rewrite <- (H r) by tauto
      end;
      same_steps; cbn [fst snd]; (split; [reflexivity|split; [reflexivity|split; [reflexivity|]]]);
      intros i Ei; unfold hup_; repeat match goal with |- context [if ?b then _ else _] => destruct b end; auto.
  Qed.
  Lemma hdstep_touches c s hp w r : ~ In r (touches c) -> snd (fst (fst (hdstep c s hp w))) r = s r.
  Proof.
    intros H. unfold DropModel.hdstep, hd_assign, HeapMapModel.hstep, pure, hbind, hret, lift.
    destruct c; cbn [touches In] in H; same_steps; cbn [fst snd]; repeat rewrite hup_other by (intro; subst; tauto); reflexivity.
  Qed.
  Lemma hd_append_other (m o : hmap) hp w : fst (fst (fst (fst (fst (hd_append kdrop vdrop nalloc place cmp m o hp w))))) = Panic ->
    snd (fst (fst (hd_append kdrop vdrop nalloc place cmp m o hp w))) = h_new.
  Proof.
    unfold hd_append, lift, pass, hret. destruct (mlen o =? 0); [discriminate|]. destruct (mlen m =? 0); [discriminate|].
    same_steps; cbn [fst snd]; try discriminate; auto.
  Qed.
  Lemma hdstep_append s r t hp w : fst (fst (fst (fst (hdstep (Append r t) s hp w)))) = Panic -> snd (fst (fst (hdstep (Append r t) s hp w))) t = h_new.
  Proof.
    unfold DropModel.hdstep. pose proof (hd_append_other (s r) (s t) hp w) as X. destruct (hd_append kdrop vdrop nalloc place cmp (s r) (s t) hp w) as [[[[[o l] m] m2] hp'] w'].
    cbn [fst snd] in *. destruct o; try discriminate. intros _. unfold hup_. rewrite Nat.eqb_refl. now apply X.
  Qed.

  Section Run.
    Hypothesis (L1 : ord_laws cmp) (L2 : borrow_laws cmp qcmp borrow).
    Hypothesis L3 : forall k w k' w', kclone k w = (Ret k', w') -> cmp k k' = Eq.
    Hypothesis place_fresh : forall hp w, hget hp (place hp w) = None.

    Lemma fine_goes (c : op K V Q) (S : nat -> list kv) hp rs o l s' hp' (w : W) : fine_d cmp qcmp borrow nalloc kclone vclone eqb pcmp kdrop vdrop c S hp rs (o, l, s', hp', w) -> o <> Abort -> o <> UB -> exists X, goes hp rs hp' X.
    Proof.
      cbn [fine_d]. intros F Na Nu. destruct F as [o l s hp' S' HS El _ _ (s1' & ss' & rs' & RS' & R' & H' & G)|l x kept s hp' S' lo a Hr HS Hd Hp (s1' & ss' & rs' & RS' & R' & H' & G)|o l s hp' S' HS Ho|l s hp' HB|o l s hp' HG (s1' & ss' & rs' & lo & R' & H' & G)|r t l kept s hp' -> HB Pm (s1' & ss' & rs' & lo & R' & H' & G)]; eauto; [destruct Ho|]; congruence.
    Qed.
    Lemma alone_goes_d c s hp (S : nat -> list kv) s1 ss r o l s' hp' (w w' : W) : legal c -> reps s s1 ss -> own hp (sres (ss r)) -> rep cmp s1 S ->
      hdstep c (hup_ hstart r (s r)) hp w = (o, l, s', hp', w') -> o <> Abort -> o <> UB -> exists X, goes hp (sres (ss r)) hp' X.
    Proof.
      intros Hc R O RS E Na Nu. destruct (@alone K V cmp s S s1 ss r R RS) as (R' & H' & RS').
      eapply (@fine_goes c (upd (nothing K V) r (S r)) hp _ o l s' hp' w'); [|exact Na|exact Nu]. rewrite <- E. eapply step_fine_d; eassumption.
    Qed.
    Lemma alone_goes2_d c s hp (S : nat -> list kv) s1 ss r t o l s' hp' (w w' : W) : r <> t -> legal c -> reps s s1 ss -> own hp (sres (ss r) ++ sres (ss t)) -> rep cmp s1 S ->
      hdstep c (hup_ (hup_ hstart r (s r)) t (s t)) hp w = (o, l, s', hp', w') -> o <> Abort -> o <> UB -> exists X, goes hp (sres (ss r) ++ sres (ss t)) hp' X.
    Proof.
      intros Ne Hc R O RS E Na Nu. destruct (@alone2 K V cmp s S s1 ss r t Ne R RS) as (R' & H' & RS').
      eapply (@fine_goes c (upd (upd (nothing K V) r (S r)) t (S t)) hp _ o l s' hp' w'); [|exact Na|exact Nu]. rewrite <- E. eapply step_fine_d; eassumption.
    Qed.
    Lemma harm_one_d c r D s2 s hp (S : nat -> list kv) s1 ss rs lost o l s2' hp' (w w' : W) :
      ward cmp D s2 s hp S s1 ss rs lost -> legal c -> mentions c = [r] -> ~ In r D -> hdstep c s2 hp w = (o, l, s2', hp', w') -> o <> Abort -> o <> UB ->
      exists T s' s1' ss' rs' lost', (forall i, i <> r -> T i = S i) /\ ward cmp (r :: D) s2' s' hp' T s1' ss' rs' lost' /\ exists Y, lost' = Y ++ lost.
    Proof.
      intros Wd Hc Hm Hr E Na Nu. pose proof Wd as [W1 W2 W3 W4 W5 W6 W7].
      destruct (@hdstep_agree c s2 (hup_ hstart r (s r)) hp w) as (A1 & A2 & A3 & A4).
      { rewrite Hm. intros i [<- |[]]. unfold hup_. rewrite Nat.eqb_refl. now apply W1. }
      rewrite E in A1, A2. destruct (hdstep c (hup_ hstart r (s r)) hp w) as [[[[o' l'] sv] hpv] wv] eqn:Ev. cbn [fst snd] in A1, A2. injection A1 as <- <-. subst hpv.
      destruct (@alone_goes_d c s hp S s1 ss r o l sv hp' w wv Hc W3) as (X & G); auto.
      { exact (own_reg W4 (own_sub W5) r). }
      edestruct ward_harm as (T & s' & s1' & ss' & rs' & lost' & ET & Wd' & El); [exact Wd|exact G| |reflexivity|exists T, s', s1', ss', rs', lost'; eauto]. intros i Hi. pose proof (@hdstep_touches c s2 hp w i) as Ht.
      rewrite E in Ht. apply Ht. clear - Hm Hi. destruct c; cbn [mentions touches] in *; intros I; try (injection Hm as ->; cbn [In] in I; intuition congruence); try discriminate Hm; contradiction.
    Qed.
    Lemma harm_append_d r t D s2 s hp (S : nat -> list kv) s1 ss rs lost l s2' hp' (w w' : W) :
      ward cmp D s2 s hp S s1 ss rs lost -> r <> t -> ~ In r D -> ~ In t D -> hdstep (Append r t) s2 hp w = (Panic, l, s2', hp', w') ->
      exists T s' s1' ss' rs' lost', T t = [] /\ (forall i, i <> r -> i <> t -> T i = S i) /\ ward cmp (r :: D) s2' s' hp' T s1' ss' rs' lost' /\ exists Y, lost' = Y ++ lost.
    Proof.
      intros Wd Ne Hr Ht E. pose proof Wd as [W1 W2 W3 W4 W5 W6 W7].
      destruct (@hdstep_agree (Append r t) s2 (hup_ (hup_ hstart r (s r)) t (s t)) hp w) as (A1 & A2 & A3 & A4).
      { cbn [mentions]. intros i [<- |[<- |[]]]; unfold hup_; rewrite ?Nat.eqb_refl; [|now apply W1]. destruct (Nat.eqb_spec r t); [congruence|]. now apply W1. }
      pose proof (@hdstep_append s2 r t hp w) as At.
      rewrite E in A1, A2, At. destruct (hdstep (Append r t) (hup_ (hup_ hstart r (s r)) t (s t)) hp w) as [[[[o' l'] sv] hpv] wv] eqn:Ev. cbn [fst snd] in A1, A2, At. injection A1 as <- <-. subst hpv.
      destruct (@alone_goes2_d (Append r t) s hp S s1 ss r t Panic l sv hp' w wv Ne Ne W3) as (X & G); auto; try discriminate.
      { exact (own_regs W4 (own_sub W5) Ne). }
      destruct (@ward_harm2 K V cmp D s2 s hp S s1 ss rs lost r t hp' X s2' (upd S t []) Wd Ne Ht G) as (T & s' & s1' & ss' & rs' & lost' & ET & Wd' & El); auto.
      - intros i Hi Hi2. pose proof (@hdstep_touches (Append r t) s2 hp w i) as Hx.
        rewrite E in Hx. apply Hx. cbn [touches In]. intuition congruence.
      - intros i Hi Hi2. unfold upd. destruct (Nat.eqb_spec i t); congruence.
      - unfold upd. now rewrite Nat.eqb_refl.
      - exists T, s', s1', ss', rs', lost'. split; [rewrite ET by congruence; unfold upd; now rewrite Nat.eqb_refl|]. split; [|eauto].
        intros i Hi Hi2. rewrite ET by exact Hi. unfold upd. destruct (Nat.eqb_spec i t); congruence.
    Qed.

    Lemma hdrun_contained ops : forall D s2 s hp S s1 ss rs lost w, ward cmp D s2 s hp S s1 ss rs lost ->
      Forall (@legal K V Q) ops -> keeps_going D S ops (hdrun ops s2 hp w).
    Proof.
      induction ops as [|c ops IH]; intros D s2 s hp S s1 ss rs lost w Wd HL; [constructor|]. inversion HL as [|? ? Hc HL']; subst.
      destruct (avoids_dec c D) as [Av|Av]; [|now apply Kg_risk].
      pose proof Wd as [W1 W2 W3 W4 W5 W6 W7].
      pose proof (@step_fine_d K V Q cmp qcmp borrow L1 L2 W nalloc place place_fresh kclone vclone L3 eqb pcmp kdrop vdrop s1 s ss rs hp S W3 W4 (own_sub W5) W7 c w Hc) as HF.
      destruct (@hdstep_agree c s2 s hp w) as (A1 & A2 & A3 & A4); [intros r Hr; apply W1, Av; exact Hr|].
      assert (forall i, In i D -> snd (fst (fst (hdstep c s hp w))) i = h_new) as New.
      { intros i Hi. rewrite <- (W2 i Hi). apply hdstep_touches. intros I. apply (Av i); [|exact Hi]. clear - I. destruct c; cbn [touches mentions In] in *; tauto. }
      cbn [DropModel.hdrun]. destruct (hdstep c s2 hp w) as [[[[o l] s2'] hp'] w'] eqn:E2. destruct (hdstep c s hp w) as [[[[ov lv] sv] hpv] wv]. cbn [fst snd] in A1, A2, A3, A4, New. injection A1 as <- <-. subst hpv wv.
      assert (forall r, ~ In r D -> s2' r = sv r) as Same by (intros r Hr; apply A4, W1, Hr). cbn [fine_d] in HF.
      assert (forall S' lo, kept_ok cmp S' sv hp rs hp' lo -> exists s1' ss' rs', ward cmp D s2' sv hp' S' s1' ss' rs' (lo ++ lost)) as Keep.
      { intros S' lo (s1' & ss' & rs' & RS' & R' & H' & G). pose proof (goes_fst G W5) as G1. rewrite <- app_assoc in G1. exists s1', ss', rs'. constructor; auto. - exact (go_own G1). - exact (goes_exact G1 W6). }
      inversion HF as [o0 l0 sx hx S' HS El Na Nu Kp E1 E3 E4 E5|l0 x kept sx hx S' lo a Hr HS Hd Hp Kp E1 E3 E4 E5|o0 l0 sx hx S' HS Ho E1 E3 E4 E5|l0 sx hx HB E1 E3 E4 E5|o0 l0 sx hx HG HT E1 E3 E4 E5|r t l0 kept sx hx Ec HB Pm HT E1 E3 E4 E5]; subst.
      - destruct (Keep _ _ Kp) as (s1' & ss' & rs' & Wd').
        replace (match o with Abort | UB => [] | _ => hdrun ops s2' hp' w' end) with (hdrun ops s2' hp' w') by (destruct o; congruence).
        eapply Kg_step; [exact Av|exact HS|reflexivity|exact (ward_memory Wd')|exact Na|exact Nu|]. eapply IH; eauto.
      - destruct (Keep _ _ Kp) as (s1' & ss' & rs' & Wd').
        eapply Kg_panic; [exact Av|exact Hr|exists a; exact HS|exact Hd|exact Hp|exact (ward_memory Wd')|]. eapply IH; eauto.
      - replace (match o with Abort | UB => [] | _ => hdrun ops s2' hp' w' end) with (@nil (outcome reserve_error (obs K V) * list kv * hregs * heap)) by (destruct Ho; now subst o).
        eapply Kg_dead; eauto.
      - eapply Kg_abort; eauto.
      - assert (o <> Abort /\ o <> UB) as [Na Nu].
        { clear - HG. destruct c; cbn [gave_up] in HG; try contradiction; try (destruct HG as (e & -> & _); split; discriminate); destruct HG as (-> & _); split; discriminate. }
        replace (match o with Abort | UB => [] | _ => hdrun ops s2' hp' w' end) with (hdrun ops s2' hp' w') by (destruct o; congruence).
        destruct c; cbn [HistorySpec.gave_up] in HG; try contradiction;
          try (destruct (harm_one_d _ _ Wd Hc eq_refl (Av r (or_introl eq_refl)) E2 Na Nu) as (T & s' & s1' & ss' & rs' & lost' & ET & Wd' & _);
               eapply Kg_gave_up; [exact Av|exact HG|constructor; exact ET|exact (ward_memory Wd')|eapply IH; eauto]; fail).
        destruct HG as [-> HG]. destruct (harm_append_d _ Wd Hc (Av r (or_introl eq_refl)) (Av _ (or_intror (or_introl eq_refl))) E2) as (T & s' & s1' & ss' & rs' & lost' & Et & ET & Wd' & _).
        eapply Kg_gave_up; [exact Av|split; [reflexivity|exact HG]|constructor; [exact Et|exact ET]|exact (ward_memory Wd')|]. eapply IH; eauto.
      - destruct (harm_append_d _ Wd Hc (Av r (or_introl eq_refl)) (Av _ (or_intror (or_introl eq_refl))) E2) as (T & s' & s1' & ss' & rs' & lost' & Et & ET & Wd' & _).
        eapply Kg_append; [exact Av|exact HB|exact Pm|constructor; [exact Et|exact ET]|exact (ward_memory Wd')|]. eapply IH; eauto.
    Qed.

    Theorem C59_lawful : forall ops w, Forall (@legal K V Q) ops -> keeps_going [] (nothing K V) ops (hdrun ops hstart [] w).
    Proof.
      intros ops w HL. apply hdrun_contained with (s := hstart) (s1 := start K V) (ss := fun _ => None) (rs := []) (lost := []); auto. constructor.
      - reflexivity.
      - intros r [].
      - intros r. apply mrep_new.
      - exists 0. split; [reflexivity|constructor].
      - constructor; [constructor|constructor].
      - intros l Hl Hg. apply Hg. unfold hget. destruct (l =? sroot) eqn:El; [apply Nat.eqb_eq in El; congruence|reflexivity].
      - apply start_rep.
    Qed.
  End Run.
  (** ** Undefined behaviour needs a damaged map *)
  Lemma clones_live_d (A1 : forall k w, fst (kclone k w) <> Abort /\ fst (kclone k w) <> UB) (A2 : forall v w, fst (vclone v w) <> Abort /\ fst (vclone v w) <> UB) u :
    clone_fails nalloc kclone vclone u -> u <> Abort /\ u <> UB.
  Proof.
    intros [(e & -> & He)|[(k & w & <-)|(v & w & <-)]]; [split; discriminate| |].
    - specialize (A1 k w). destruct (fst (kclone k w)); cbn; split; try discriminate; tauto.
    - specialize (A2 v w). destruct (fst (vclone v w)); cbn; split; try discriminate; tauto.
  Qed.
  Lemma spec_live (A1 : forall k w, fst (kclone k w) <> Abort /\ fst (kclone k w) <> UB) (A2 : forall v w, fst (vclone v w) <> Abort /\ fst (vclone v w) <> UB) (c : op K V Q) (S : nat -> list kv) o S' :
    spec cmp qcmp borrow eqb pcmp (no_memory nalloc) (cloned kclone vclone) (clone_fails nalloc kclone vclone) c S o S' -> o <> Abort /\ o <> UB.
  Proof.
    pose proof (clones_live_d A1 A2) as CL.
    destruct c; cbn [spec]; intros H;
      repeat match goal with
             | H : _ \/ _ |- _ => destruct H as [H|H]
             | H : exists _, _ |- _ => destruct H as [? H]
             | H : _ /\ _ |- _ => destruct H as [? H]
             | H : let '(_, _) := ?x in _ |- _ => destruct x
             | H : match ?x with Some _ => _ | None => _ end |- _ => destruct x
             end; subst; try (split; discriminate).
    - match goal with |- context [match ?x with Some _ => _ | None => _ end] => destruct x end; split; discriminate.
    - match goal with H : clone_fails _ _ _ ?u |- _ => destruct (CL u H); destruct u; cbn [omap]; split; congruence end.
    - match goal with H : clone_fails _ _ _ ?u |- _ => destruct (CL u H); destruct u; cbn [omap]; split; congruence end.
  Qed.
  Lemma blasts_some l n : blasts kdrop vdrop l n -> n <> 0 -> exists x, In x l /\ DropSpec.panics kdrop vdrop x.
  Proof.
    intros B. induction B as [|x l n B IH|x l n P B IH|x l n P P' B IH]; intros Hn; [congruence| | |].
    - destruct (IH Hn) as (y & I & P). exists y. split; [now right|exact P].
    - exists x. split; [now left|exact P].
    - exists x. split; [now left|]. destruct P as (w & P). exists w. now left.
  Qed.
  Notation fine_out := (fun x : outcome reserve_error (obs K V) * list kv * hregs * heap => fst (fst (fst x)) <> UB /\ (fst (fst (fst x)) = Abort -> exists y, In y (snd (fst (fst x))) /\ DropSpec.panics kdrop vdrop y)).
  Lemma keeps_careful (A1 : forall k w, fst (kclone k w) <> Abort /\ fst (kclone k w) <> UB) (A2 : forall v w, fst (vclone v w) <> Abort /\ fst (vclone v w) <> UB)
    D S ops res : keeps_going D S ops res -> forall D', incl D D' -> careful D' ops (map (fun x => fst (fst (fst x))) res) ->
    (res = [] -> ops = []) -> Forall fine_out res.
  Proof.
    intros R. induction R as [D S|D S c l o log s hp S' rest Av HS El HM Na Nu HR IH|D S c l log x kept s hp S' rest Av Hr HS Hd Hp HM HR IH|D S c l o log s hp S' Av HS Ho|D S c l log s hp Av HB
      |D S c l o log s hp r S' rest Av HG Hd HM HR IH|D S r t l log s hp kept S' rest Av HB Pm Hd HM HR IH|D S c l res Av]; intros D' I C Ne.
    - constructor.
    - constructor; [cbn [fst snd]; split; [auto|congruence]|]. cbn [map fst careful] in C. destruct C as [_ C]. destruct rest as [|x rest]; [constructor|]. eapply IH; [|exact C|discriminate].
      intros x' Hx. apply in_or_app. right. now apply I.
    - constructor; [cbn [fst snd]; split; discriminate|]. cbn [map fst careful] in C. destruct C as [_ C]. destruct rest as [|x' rest]; [constructor|]. eapply IH; [|exact C|discriminate].
      intros y Hx. apply in_or_app. right. now apply I.
    - destruct (spec_live A1 A2 _ _ _ _ HS) as [N1 N2]. destruct Ho; contradiction.
    - constructor; [|constructor]. cbn [fst snd]. split; [discriminate|]. intros _. destruct HB as [HB|[HB _]]; exact (blasts_some HB ltac:(discriminate)).
    - constructor; [cbn [fst snd]; clear - HG; destruct c; cbn [gave_up] in HG; try contradiction; try (destruct HG as (e & -> & _); split; discriminate); destruct HG as (-> & _); split; discriminate|].
      cbn [map fst careful] in C. destruct C as [_ C]. destruct rest as [|x rest]; [constructor|].
      eapply IH; [|exact C|discriminate]. intros x' [<- |Hx]; [|apply in_or_app; right; now apply I]. apply in_or_app. left.
      clear - HG Hd. destruct Hd; cbn [gave_up] in HG; try contradiction; try (destruct HG as (e & -> & _); now left); destruct HG as (-> & _); now left.
    - constructor; [cbn [fst snd]; split; discriminate|]. cbn [map fst careful suspect] in C. destruct C as [_ C]. destruct rest as [|x rest]; [constructor|].
      eapply IH; [|exact C|discriminate]. intros x' [<- |Hx]; [now left|right; now apply I].
    - destruct res as [|x res]; [discriminate (Ne eq_refl)|]. exfalso. cbn [map careful] in C. destruct C as [C _]. apply Av. intros r Hr HD. exact (C r Hr (I r HD)).
  Qed.
  Lemma hdrun_nonempty ops s hp w : hdrun ops s hp w = [] -> ops = [].
  Proof. destruct ops as [|c ops]; [reflexivity|]. cbn [DropModel.hdrun]. destruct (hdstep c s hp w) as [[[[o l] s'] hp'] w']. discriminate. Qed.

  (** destructors panic or not: a program that never again uses a map into which an insertion failed, or of which extend or append panicked,
      has no undefined behaviour, and it is stopped only by a destructor that panics while a panic is being handled *)
  Theorem C59_careful_lawful : ord_laws cmp -> borrow_laws cmp qcmp borrow ->
    (forall k w k' w', kclone k w = (Ret k', w') -> cmp k k' = Eq) -> (forall hp w, hget hp (place hp w) = None) ->
    (forall k w, fst (kclone k w) <> Abort /\ fst (kclone k w) <> UB) -> (forall v w, fst (vclone v w) <> Abort /\ fst (vclone v w) <> UB) ->
    forall ops w, Forall (@legal K V Q) ops -> careful [] ops (map (fun x => fst (fst (fst x))) (hdrun ops hstart [] w)) ->
    Forall (fun x => fst (fst (fst x)) <> UB /\ (fst (fst (fst x)) = Abort -> exists y, In y (snd (fst (fst x))) /\ DropSpec.panics kdrop vdrop y)) (hdrun ops hstart [] w).
  Proof.
    intros L1 L2 L3 PF A1 A2 ops w HL C. eapply keeps_careful; [exact A1|exact A2|exact (C59_lawful L1 L2 L3 PF w HL)|apply incl_refl|exact C|apply hdrun_nonempty].
  Qed.
End Lawful.

(** ** Programs that meet the hypotheses *)
(** split_off of variable 0 panics ([half_split]); its 30 entries are given up, and the program goes on with variables 1 and 2 *)
Definition after_split : list (op nat nat nat) :=
  map (fun k => Insert 0 k k) (seq 0 30) ++ [Insert 1 5 50; SplitOff 0 4 1; Get 1 5; Extend 2 (map (fun k => (k, k)) (seq 0 20)); Append 1 2; Len 1; Len 2; Clear 1].
Fixpoint check (D : list nat) (ops : list (op nat nat nat)) (outs : list (outcome reserve_error (obs nat nat))) : bool :=
  match ops, outs with
  | c :: ops', o :: outs' => forallb (fun r => negb (existsb (Nat.eqb r) D)) (mentions c) && check (suspect c o ++ D) ops' outs'
  | _, _ => true
  end.
Lemma check_ok ops : forall D outs, check D ops outs = true -> careful D ops outs.
Proof.
  induction ops as [|c ops IH]; intros D [|o outs]; cbn [check careful]; auto. intros H. apply andb_true_iff in H as [H1 H2]. split; [|now apply IH].
  intros r Hr Hd. rewrite forallb_forall in H1. specialize (H1 r Hr). apply negb_true_iff in H1. assert (existsb (Nat.eqb r) D = true); [|congruence].
  apply existsb_exists. exists r. split; [exact Hd|apply Nat.eqb_refl].
Qed.
Example after_split_careful : let outs := outcomes (trun after_split hstart [] 241) in
  careful [] after_split outs /\ skipn 30 outs = [Ret (OVal nat None); Panic; Ret (OVal nat (Some 50)); Ret OUnit; Ret OUnit; Ret (ONat 20); Ret (ONat 0); Ret OUnit].
Proof. cbv zeta. split; [apply check_ok; vm_compute; reflexivity|vm_compute; reflexivity]. Qed.
Example after_split_runs : Forall (fun x => fst (fst x) <> Abort /\ fst (fst x) <> UB) (trun after_split hstart [] 241).
Proof.
  apply C59_careful; [apply place_reuse_fresh|intros; split; discriminate|intros; split; discriminate|repeat constructor; discriminate|].
  apply check_ok. vm_compute. reflexivity.
Qed.
(** the same program, clearing the damaged map at the end, is undefined: the policy is needed *)
Theorem C59_policy_needed : exists ops w, Forall (@legal nat nat nat) ops /\ ~ careful [] ops (outcomes (trun ops hstart [] w)) /\ In UB (outcomes (trun ops hstart [] w)).
Proof.
  exists half_split, 240. split; [repeat constructor; discriminate|]. replace (outcomes (trun half_split hstart [] 240)) with (repeat (Ret (E := reserve_error) (OVal nat (@None nat))) 30 ++ [Panic; Ret (ONat 30); UB]) by (vm_compute; reflexivity).
  split; [|apply in_or_app; right; cbn; auto]. unfold half_split. cbn [careful map seq repeat app suspect]. intros H.
  repeat match type of H with _ /\ _ => destruct H as [? H] end.
  match goal with X : avoids (Len 0) _ |- _ => apply (X 0); now left end.
Qed.

(** three nodes of memory: variables 0 and 1 have one each, the third splits the full leaf of 0, and there is none for
    the new root.  Variable 1 goes on; the value 13 has a destructor that panics *)
Notation lrun := (hdrun (fun (_ : nat) (w : nat) => (true, w)) (fun (v : nat) (w : nat) => (negb (v =? 13), w)) budget (@place_reuse nat nat nat) Nat.compare Nat.compare (fun k => k) copy_ copy_
  (fun a b : nat * nat => (fst a =? fst b) && (snd a =? snd b)) (fun a b => Some (Nat.compare (snd a) (snd b)))).
Definition poor : list (op nat nat nat) :=
  Insert 1 5 13 :: map (fun k => Insert 0 k k) (seq 0 12) ++ [Get 1 5; Insert 1 7 70; Insert 2 1 1; Remove 1 7; Len 1; Clear 1; Len 1; Extend 1 []].
Example poor_careful : let outs := outs_ (lrun poor hstart [] 3) in
  careful [] poor outs /\
  skipn 12 outs = [Err AllocError; Ret (OVal nat (Some 13)); Ret (OVal nat None); Err AllocError; Ret (OVal nat (Some 70)); Ret (ONat 1); Panic; Ret (ONat 0); Ret OUnit].
Proof. cbv zeta. split; [apply check_ok; vm_compute; reflexivity|vm_compute; reflexivity]. Qed.
Example poor_runs : keeps_going Nat.compare Nat.compare (fun k => k) (fun a b => (fst a =? fst b) && (snd a =? snd b)) (fun a b => Some (Nat.compare (snd a) (snd b)))
  (no_memory budget) (cloned (W := nat) copy_ copy_) (clone_fails budget copy_ copy_) (fun _ (w : nat) => (true, w)) (fun v (w : nat) => (negb (v =? 13), w)) [] (nothing nat nat) poor (lrun poor hstart [] 3).
Proof.
  apply C59_lawful; [apply nat_laws|apply nat_borrow| |apply place_reuse_fresh|repeat constructor; discriminate].
  intros k w k' w' E. injection E as <- _. apply Nat.compare_refl.
Qed.

Print Assumptions C59_hostile.
Print Assumptions C59_careful.
Print Assumptions C59_lawful.
Print Assumptions C59_careful_lawful.
Print Assumptions C59_policy_needed.
