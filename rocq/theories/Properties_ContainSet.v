(** * Properties_ContainSet: C59 for programs over sets *)
From Coq Require Import List Arith Lia Bool Permutation.
From Verif Require Import Base MapSpec IterSpec SetSpec BTreeModel BTreeIterModel BTreeClone HeapModel HistoryModel HistorySpec HistoryProofs HeapMapModel HeapRes HeapMap HeapSplit HeapSpec HeapHistory HeapMemory.
From Verif Require Import HostileModel HostileSpec HostileOps HostileHistory HostileSetModel HostileSetSpec HostileSets HostileSetOps HostileSetHistory ContainSpec ContainProofs ContainSetSpec.
From Verif Require Import Examples Properties_BTree Properties_BTree2 Properties_History Properties_Heap Properties_Hostile Properties_HostileSet Properties_Contain.
Import ListNotations.
Set Implicit Arguments.

Lemma xavoids_dec T Q (c : xop T Q) D : xavoids c D \/ ~ xavoids c D.
Proof.
  unfold xavoids. destruct (existsb (fun r => if in_dec Nat.eq_dec r D then true else false) (xmentions c)) eqn:Ex.
  - right. intros A. apply existsb_exists in Ex as (r & Hr & Ex). destruct (in_dec Nat.eq_dec r D) as [I|]; [|discriminate Ex]. exact (A r Hr I).
  - left. intros r Hr I. assert (existsb (fun r => if in_dec Nat.eq_dec r D then true else false) (xmentions c) = true); [|congruence].
    apply existsb_exists. exists r. split; [exact Hr|]. destruct (in_dec Nat.eq_dec r D); [reflexivity|contradiction].
Qed.

Section HostileSet.
  Variables (T Q W : Type) (nalloc : bool -> W -> option reserve_error * W) (place : heap T unit -> W -> loc).
  Variable tclone : T -> W -> outcome Empty_set T * W.
  Variables (kcmp : T -> T -> asks W comparison) (qcmp : Q -> T -> asks W comparison) (qeq qgt : Q -> Q -> asks W bool) (view : bound_ Q -> asks W (bound_ Q)).
  Variables (eqb : T * unit -> T * unit -> asks W bool) (pcmp : T * unit -> T * unit -> asks W (option comparison)).
  Notation xstep := (xstep kcmp nalloc place tclone qcmp qeq qgt view eqb pcmp).
  Notation xrun := (xrun kcmp nalloc place tclone qcmp qeq qgt view eqb pcmp).
  Notation kc := (xkclone tclone).
  Notation vc := (@xvclone W).
  Notation hxstep := (hxstep nalloc place kcmp qcmp qeq qgt view kc vc eqb pcmp).
  Notation lt := (fun _ _ : T => Lt).
  Notation sc := (some_panic (K := T) (V := unit) (Q := Q) (W := W) kcmp qcmp eqb pcmp).
  Notation xloose := (xloose (T := T) (Q := Q) (no_memory nalloc) (clones tclone) (clone_ends tclone) (clone_fails nalloc kc vc) sc).
  Notation xcontained := (xcontained (T := T) (Q := Q) (no_memory nalloc) (clones tclone) (clone_ends tclone) (clone_fails nalloc kc vc) sc).

  Lemma xstep_agree c (s s' : hregs) hp w : (forall r, In r (xmentions c) -> s r = s' r) ->
    fst (fst (fst (xstep c s hp w))) = fst (fst (fst (xstep c s' hp w))) /\
    snd (fst (xstep c s hp w)) = snd (fst (xstep c s' hp w)) /\ snd (xstep c s hp w) = snd (xstep c s' hp w) /\
    forall r, s r = s' r -> snd (fst (fst (xstep c s hp w))) r = snd (fst (fst (xstep c s' hp w))) r.
  Proof.
    intros H. destruct c as [c|k r t n m|r t|r t|r t|k r t u|r l]; cbn [HostileSetModel.xstep xmentions In] in *; unfold xread, xassign.
    1:{ destruct (@hxstep_agree T unit Q W nalloc place kc vc kcmp qcmp qeq qgt view eqb pcmp c s s' hp w H) as (A1 & A2 & A3 & A4).
      destruct (hxstep c s hp w) as [[[o s1] hp1] w1], (hxstep c s' hp w) as [[[o' s1'] hp1'] w1']. cbn [fst snd] in *. subst. auto. }
    1-4: rewrite <- (H r) by tauto; rewrite <- (H t) by tauto.
    5: rewrite <- (H r) by tauto; rewrite <- (H t) by tauto; rewrite <- (H u) by tauto.
    6: rewrite <- (H r) by tauto.
    all: repeat match goal with |- context [match ?x with _ => _ end] => lazymatch x with context [match _ with _ => _ end] => fail | hup_ _ _ _ => fail | _ => destruct x end end.
    all: cbn [fst snd]; (split; [reflexivity|split; [reflexivity|split; [reflexivity|]]]); intros i Ei; unfold hup_;
      repeat match goal with |- context [if ?b then _ else _] => destruct b end; auto.
  Qed.

  Definition xtouches (c : xop T Q) : list nat :=
    match c with XMap c => touches c | XOperator _ _ _ u => [u] | XCollect r _ => [r] | _ => [] end.
  Lemma xstep_touches c (s : hregs) hp w r : ~ In r (xtouches c) -> snd (fst (fst (xstep c s hp w))) r = s r.
  Proof.
    intros H. destruct c as [c|k r0 t n m|r0 t|r0 t|r0 t|k r0 t u|r0 l]; cbn [HostileSetModel.xstep xtouches In] in *; unfold xread, xassign.
    1:{ pose proof (@hxstep_touches T unit Q W nalloc place kc vc kcmp qcmp qeq qgt view eqb pcmp c s hp w r H) as E.
      destruct (hxstep c s hp w) as [[[o s1] hp1] w1]. exact E. }
    1-4: match goal with |- context [let '(_, _) := ?x in _] => destruct x as [[o hp'] w'] end; reflexivity.
    all: match goal with |- context [let '(_, _) := ?x in _] => destruct x as [[[o m] hp'] w'] end;
      destruct o; try reflexivity; match goal with |- context [h_drop ?a ?b] => destruct (h_drop a b) as [[d hp2]|] end; try reflexivity;
      cbn [fst snd]; unfold hup_; match goal with |- context [?a =? ?b] => destruct (Nat.eqb_spec a b); [subst; tauto|reflexivity] end.
  Qed.

  Section Run.
    Hypothesis place_fresh : forall hp w, hget hp (place hp w) = None.
    (** one operation on sets of which some are damaged: what the map operations did in Properties_Contain *)
    Lemma map_step c D s2 s hp (S : nat -> list (T * unit)) s1 ss rs lost o s2' hp' (w w' : W) :
      ward lt D s2 s hp S s1 ss rs lost -> legal c -> avoids c D -> hxstep c s2 hp w = (o, s2', hp', w') ->
      (exists S', loose (no_memory nalloc) (cloned kc vc) (clone_fails nalloc kc vc) sc c S o S' /\
         (o = Abort \/ o = UB \/ exists s' s1' ss' rs', ward lt D s2' s' hp' S' s1' ss' rs' lost)) \/
      (exists r T' s' s1' ss' rs' lost', HostileSpec.gave_up (no_memory nalloc) sc c S o /\ damages c r S T' /\ ward lt (r :: D) s2' s' hp' T' s1' ss' rs' lost').
    Proof.
      intros Wd Hc Av E2. pose proof Wd as [W1 W2 W3 W4 W5 W6 W7].
      assert (okay nalloc kc vc sc c S hp rs (hxstep c s hp w)) as Ok.
      { eapply step_o; try eassumption; [..|exact (own_sub W5)]; unfold calm, Properties_Hostile.some_panic; eauto 10. }
      destruct (@hxstep_agree T unit Q W nalloc place kc vc kcmp qcmp qeq qgt view eqb pcmp c s2 s hp w) as (A1 & A2 & A3 & A4); [intros r Hr; apply W1, Av; exact Hr|].
      assert (forall i, In i D -> snd (fst (fst (hxstep c s hp w))) i = h_new) as New.
      { intros i Hi. rewrite <- (W2 i Hi). apply hxstep_touches. intros I. apply (Av i); [|exact Hi]. clear - I. destruct c; cbn [touches mentions In] in *; tauto. }
      rewrite E2 in A1, A2, A3, A4. destruct (hxstep c s hp w) as [[[ov sv] hpv] wv]. cbn [fst snd] in A1, A2, A3, A4, New. subst ov hpv wv.
      assert (forall r, ~ In r D -> s2' r = sv r) as Same by (intros r Hr; apply A4, W1, Hr).
      destruct Ok as [(S' & HS & Ok)|(HG & _)].
      - left. exists S'. split; [exact HS|]. destruct Ok as [-> |[-> |(s1' & ss' & rs' & R' & H' & G & RS')]]; auto. right. right.
        pose proof (goes_fst G W5) as G1. exists sv, s1', ss', rs'. constructor; auto. + exact (go_own G1). + exact (goes_exact G1 W6).
      - right. assert (o <> Abort /\ o <> UB) as [Na Nu] by (destruct (Properties_Hostile.gave_up_alive _ _ _ _ _ HG) as [(e & ->)| ->]; split; discriminate).
        assert (forall r, mentions c = [r] -> exists T' s' s1' ss' rs' lost', (forall i, i <> r -> T' i = S i) /\ ward lt (r :: D) s2' s' hp' T' s1' ss' rs' lost') as One.
        { intros r Hm. assert (~ In r D) as Nr by (apply Av; rewrite Hm; now left).
          destruct (harm_one nalloc place kc vc kcmp qcmp qeq qgt view eqb pcmp place_fresh _ _ Wd Hc Hm Nr E2 Na Nu) as (T' & s' & s1' & ss' & rs' & lost' & ET & Wd' & _). eauto 10. }
        destruct c; cbn [HostileSpec.gave_up] in HG; try contradiction;
          try (destruct (One _ eq_refl) as (T' & s' & s1' & ss' & rs' & lost' & ET & Wd'); exists r, T', s', s1', ss', rs', lost'; split; [exact HG|split; [constructor; exact ET|exact Wd']]; fail).
        + destruct HG as [-> HG]. destruct (harm_append nalloc place kc vc kcmp qcmp qeq qgt view eqb pcmp place_fresh _ Wd Hc (Av r (or_introl eq_refl)) (Av _ (or_intror (or_introl eq_refl))) E2) as (T' & s' & s1' & ss' & rs' & lost' & Et & ET & Wd' & _).
          exists r, T', s', s1', ss', rs', lost'. split; [split; [reflexivity|exact HG]|split; [constructor; [exact Et|exact ET]|exact Wd']].
        + destruct HG as [-> HG]. destruct (harm_split nalloc place kc vc kcmp qcmp qeq qgt view eqb pcmp place_fresh _ _ Wd Hc (Av r (or_introl eq_refl)) E2) as (T' & s' & s1' & ss' & rs' & lost' & ET & Wd' & _).
          exists r, T', s', s1', ss', rs', lost'. split; [split; [reflexivity|exact HG]|split; [constructor; exact ET|exact Wd']].
    Qed.
    Lemma set_step c D s2 s hp (S : nat -> list (T * unit)) s1 ss rs lost o s2' hp' (w w' : W) :
      ward lt D s2 s hp S s1 ss rs lost -> (forall c', c <> XMap c') -> xavoids c D -> xstep c s2 hp w = (o, s2', hp', w') ->
      (exists S', xloose c S o S' /\ (o = Abort \/ o = UB \/ exists s' s1' ss' rs', ward lt D s2' s' hp' S' s1' ss' rs' lost)) \/
      (o = UB /\ (exists e, no_memory nalloc e) /\ builds_many c S).
    Proof.
      intros Wd Hm Av E2. pose proof Wd as [W1 W2 W3 W4 W5 W6 W7].
      assert (xokay nalloc tclone sc c S hp rs (xstep c s hp w)) as Ok.
      { eapply other_x; try eassumption; try (exact (own_sub W5)); try exact Hm; unfold calm, Properties_Hostile.some_panic; eauto 10. }
      destruct (@xstep_agree c s2 s hp w) as (A1 & A2 & A3 & A4); [intros r Hr; apply W1, Av; exact Hr|].
      assert (forall i, In i D -> snd (fst (fst (xstep c s hp w))) i = h_new) as New.
      { intros i Hi. rewrite <- (W2 i Hi). apply xstep_touches. intros I. apply (Av i); [|exact Hi]. clear - I Hm. destruct c; cbn [xtouches xmentions In] in *; try tauto. now destruct (Hm c). }
      rewrite E2 in A1, A2, A3, A4. destruct (xstep c s hp w) as [[[ov sv] hpv] wv]. cbn [fst snd] in A1, A2, A3, A4, New. subst ov hpv wv.
      assert (forall r, ~ In r D -> s2' r = sv r) as Same by (intros r Hr; apply A4, W1, Hr).
      destruct Ok as [(S' & HS & Ok)|HG].
      - left. exists S'. split; [exact HS|]. destruct Ok as [-> |[-> |(s1' & ss' & rs' & R' & H' & G & RS')]]; auto. right. right.
        pose proof (goes_fst G W5) as G1. exists sv, s1', ss', rs'. constructor; auto. + exact (go_own G1). + exact (goes_exact G1 W6).
      - right. destruct c; cbn [HostileSetSpec.xgave_up builds_many] in *; try contradiction; try tauto. now destruct (Hm c).
    Qed.
    Lemma xrun_contained ops : forall D s2 s hp S s1 ss rs lost w, ward lt D s2 s hp S s1 ss rs lost ->
      Forall (@xlegal T Q) ops -> xcontained D S ops (xrun ops s2 hp w).
    Proof.
      induction ops as [|c ops IH]; intros D s2 s hp S s1 ss rs lost w Wd HL; [constructor|]. inversion HL as [|? ? Hc HL']; subst.
      destruct (xavoids_dec c D) as [Av|Av]; [|now apply X_risk].
      assert (forall o s2' hp' w', xstep c s2 hp w = (o, s2', hp', w') ->
        (exists S', xloose c S o S' /\ (o = Abort \/ o = UB \/ exists s' s1' ss' rs', ward lt D s2' s' hp' S' s1' ss' rs' lost)) ->
        xcontained D S (c :: ops) (xrun (c :: ops) s2 hp w)) as Go.
      { intros o s2' hp' w' E (S' & HS & Ok). cbn [HostileSetModel.xrun]. rewrite E.
        destruct Ok as [-> |[-> |(s' & s1' & ss' & rs' & Wd')]]; [eapply X_dead; eauto|eapply X_dead; eauto|].
        destruct o as [a|e| | |]; try (eapply X_dead; [exact Av|exact HS|auto]; fail);
          (eapply X_step; [exact Av|exact HS|exact (ward_memory Wd')|discriminate|discriminate|]; eapply IH; eauto). }
      destruct c as [c|k r t n m|r t|r t|r t|k r t u|r l].
      1:{ destruct (hxstep c s2 hp w) as [[[o s2'] hp'] w'] eqn:E2.
        assert (xstep (XMap c) s2 hp w = (omap XObs o, s2', hp', w')) as E3 by (cbn [HostileSetModel.xstep]; rewrite E2; reflexivity).
        destruct (@map_step c D s2 s hp S s1 ss rs lost o s2' hp' w w' Wd Hc Av E2) as [(S' & HS & Ok)|(r & T' & s' & s1' & ss' & rs' & lost' & HG & Hd & Wd')].
        - apply (Go _ _ _ _ E3). exists S'. split.
          + cbn [HostileSetSpec.xloose]. exists o. split; [|reflexivity]. now apply loose_copy.
          + destruct Ok as [-> |[-> |Ok]]; auto.
        - cbn [HostileSetModel.xrun]. rewrite E3. eapply X_gave_up; [exact Av|exact HG|exact Hd|exact (ward_memory Wd')|].
          assert (forall X : list (outcome reserve_error (xobs T) * hregs * heap T unit), match omap XObs o with Abort | UB => [] | _ => X end = X) as EX
            by (intros X; destruct (Properties_Hostile.gave_up_alive _ _ _ _ _ HG) as [(e & ->)| ->]; reflexivity).
          rewrite EX. eapply IH; eauto. }
      all: match goal with |- context [HostileSetModel.xrun _ _ _ _ _ _ _ _ _ _ (?c :: _)] => destruct (xstep c s2 hp w) as [[[o s2'] hp'] w'] eqn:E2;
        (destruct (@set_step c D s2 s hp S s1 ss rs lost o s2' hp' w w' Wd) as [Ok|(-> & NM & BM)]; [discriminate|exact Av|exact E2|exact (Go _ _ _ _ eq_refl Ok)|];
        cbn [HostileSetModel.xrun]; rewrite E2; apply X_lost; [exact Av|exact BM|exact NM]) end.
    Qed.
    (** ** C59 for sets: whatever the comparisons answer and the allocator does *)
    Theorem C59_sets : forall ops w, Forall (@xlegal T Q) ops -> xcontained [] (nothing T unit) ops (xrun ops hstart [] w).
    Proof.
      intros ops w HL. apply xrun_contained with (s := hstart) (s1 := start T unit) (ss := fun _ => None) (rs := []) (lost := []); auto. constructor.
      - reflexivity.
      - intros r [].
      - intros r. apply mrep_new.
      - exists 0. split; [reflexivity|constructor].
      - constructor; [constructor|constructor].
      - intros l Hl Hg. apply Hg. unfold hget. destruct (l =? sroot) eqn:El; [apply Nat.eqb_eq in El; congruence|reflexivity].
      - apply start_rep.
    Qed.
  End Run.

  (** ** Undefined behaviour needs a damaged set, or a set that memory is refused for while it is built *)
  Definition builds_set (c : xop T Q) : Prop :=
    match c with XOperator _ _ _ _ => True | XCollect _ l => 12 <= length l | _ => False end.
  Definition harmless (c : xop T Q) (o : outcome reserve_error (xobs T)) : Prop :=
    o <> Abort /\ (o = UB -> builds_set c /\ exists e, no_memory nalloc e).
  Section Live.
    Hypothesis A : forall x w, fst (tclone x w) <> Abort /\ fst (tclone x w) <> UB.
    Lemma kc_live k w : fst (kc k w) <> Abort /\ fst (kc k w) <> UB.
    Proof. unfold xkclone. specialize (A k w). destruct (tclone k w) as [[y|[]| | |] w']; cbn in *; split; try discriminate; tauto. Qed.
    Lemma vc_live u w : fst (vc u w) <> Abort /\ fst (vc u w) <> UB.
    Proof. split; discriminate. Qed.
    Lemma xloose_live (c : xop T Q) S o S' : xloose c S o S' -> o <> Abort /\ o <> UB.
    Proof.
      destruct c as [c|k r t n m|r t|r t|r t|k r t u|r l]; cbn [HostileSetSpec.xloose]; intros H.
      1:{ destruct H as (o' & HS & ->). assert (o' <> Abort /\ o' <> UB) as [N1 N2].
        { clear - A HS. assert (forall u, clone_fails nalloc kc vc u -> u <> Abort /\ u <> UB) as CL by (intros u Hu; eapply clones_live; try exact Hu; try exact kc_live; try exact vc_live; assumption).
          destruct c; cbn [HostileSpec.loose] in HS;
            repeat match goal with
                   | H : _ \/ _ |- _ => destruct H as [H|H]
                   | H : exists _, _ |- _ => destruct H as [? H]
                   | H : _ /\ _ |- _ => destruct H as [? H]
                   | H : let '(_, _) := ?x in _ |- _ => destruct x
                   end; subst; try (split; discriminate);
            match goal with H : clone_fails _ _ _ ?u |- _ => destruct (CL u H); destruct u; cbn [omap]; split; congruence end. }
        destruct o'; cbn; split; congruence. }
      all: repeat match goal with
               | H : _ \/ _ |- _ => destruct H as [H|H]
               | H : exists _, _ |- _ => destruct H as [? H]
               | H : _ /\ _ |- _ => destruct H as [? H]
               end; subst; try (split; discriminate).
      match goal with H : clone_ends _ _ |- _ => destruct H as (y & w & <-); specialize (A y w); destruct (fst (tclone y w)) as [|[]| | |]; cbn; split; try discriminate; tauto end.
    Qed.
    Lemma xcontained_careful D S ops res : xcontained D S ops res -> forall D', incl D D' -> xcareful D' ops (map (fun x => fst (fst x)) res) ->
      (res = [] -> ops = []) ->
      forall n c o, nth_error ops n = Some c -> nth_error (map (fun x => fst (fst x)) res) n = Some o -> harmless c o.
    Proof.
      intros R.
      induction R as [D S|D S c l o s hp S' rest Av HS HM Na Nu HR IH|D S c l o s hp S' Av HS Ho|D S c l o s hp r S' rest Av HG Hd HM HR IH|D S c l s hp Av HB HN|D S c l res Av]; intros D' I C Ne n c' o' Ec Eo.
      - destruct n; discriminate Ec.
      - cbn [map fst xcareful] in C. destruct C as [_ C]. destruct n as [|n]; cbn [nth_error map fst] in *.
        + injection Ec as <-. injection Eo as <-. split; [exact Na|congruence].
        + destruct rest as [|x rest]; [destruct n; discriminate Eo|]. eapply IH; [|exact C|discriminate|exact Ec|exact Eo]. intros x' Hx. apply in_or_app. right. now apply I.
      - assert (o <> Abort /\ o <> UB) as [N1 N2] by (eapply xloose_live; exact HS). destruct Ho; contradiction.
      - cbn [map fst xcareful] in C. destruct C as [_ C]. destruct n as [|n]; cbn [nth_error map fst] in *.
        + injection Ec as <-. injection Eo as <-. destruct (Properties_Hostile.gave_up_alive _ _ _ _ _ HG) as [(e & ->)| ->]; split; discriminate.
        + destruct rest as [|x rest]; [destruct n; discriminate Eo|]. eapply IH; [|exact C|discriminate|exact Ec|exact Eo]. intros x' [<- |Hx]; [|apply in_or_app; right; now apply I]. apply in_or_app. left.
          clear - HG Hd. destruct Hd; cbn [HostileSpec.gave_up] in HG; try (destruct HG as (e & -> & _); now left); destruct HG as (-> & _); now left.
      - destruct n as [|n]; [|destruct n; discriminate Eo]. cbn in Ec, Eo. injection Ec as <-. injection Eo as <-. split; [discriminate|]. intros _. split; [|exact HN].
        destruct c; cbn [builds_many builds_set] in *; auto.
      - destruct res as [|x res]; [discriminate (Ne eq_refl)|]. exfalso. cbn [map xcareful] in C. destruct C as [C _]. apply Av. intros r Hr HD. exact (C r Hr (I r HD)).
    Qed.
  End Live.
  Lemma xrun_nonempty ops s hp w : xrun ops s hp w = [] -> ops = [].
  Proof. destruct ops as [|c ops]; [reflexivity|]. cbn [HostileSetModel.xrun]. destruct (xstep c s hp w) as [[[o s'] hp'] w']. discriminate. Qed.
  Lemma xrun_all ops : forall s hp w, Forall (fun x => fst (fst x) <> Abort /\ fst (fst x) <> UB) (xrun ops s hp w) -> length (xrun ops s hp w) = length ops.
  Proof.
    induction ops as [|c ops IH]; intros s hp w F; [reflexivity|]. cbn [HostileSetModel.xrun] in *. destruct (xstep c s hp w) as [[[o s'] hp'] w']. apply Forall_cons_iff in F as [[F1 F2] F]. cbn [fst] in *.
    cbn [length]. f_equal. destruct o; try congruence; now apply IH.
  Qed.
  (** whatever the allocator and the comparisons do: in a program that never again uses a set into which an insertion failed, or of which extend,
      append or split_off panicked, no operation is undefined except one that builds a set and is refused memory (C24); without these it runs to its end *)
  Theorem C59_careful_sets : (forall hp w, hget hp (place hp w) = None) -> (forall x w, fst (tclone x w) <> Abort /\ fst (tclone x w) <> UB) ->
    forall ops w, Forall (@xlegal T Q) ops -> let outs := map (fun x => fst (fst x)) (xrun ops hstart [] w) in
    xcareful [] ops outs ->
    (forall n c o, nth_error ops n = Some c -> nth_error outs n = Some o -> harmless c o) /\
    (Forall (fun c => ~ builds_set c) ops \/ (forall e, ~ no_memory nalloc e) -> length outs = length ops /\ Forall (fun o => o <> Abort /\ o <> UB) outs).
  Proof.
    intros PF A ops w HL outs C.
    assert (forall n c o, nth_error ops n = Some c -> nth_error outs n = Some o -> harmless c o) as H.
    { eapply xcontained_careful; [exact A|exact (C59_sets PF w HL)|apply incl_refl|exact C|apply xrun_nonempty]. }
    split; [exact H|]. intros N.
    assert (Forall (fun o => o <> Abort /\ o <> UB) outs) as F.
    { apply Forall_forall. intros o Ho. apply In_nth_error in Ho as (n & Ho).
      destruct (nth_error ops n) as [c|] eqn:Ec.
      - destruct (H _ _ _ Ec Ho) as [H1 H2]. split; [exact H1|]. intros ->. destruct (H2 eq_refl) as (B & e & E).
        destruct N as [N|N]; [|exact (N e E)]. apply nth_error_In in Ec. exact (proj1 (Forall_forall _ _) N _ Ec B).
      - exfalso. apply nth_error_None in Ec. assert (n < length outs) as L by (apply nth_error_Some; congruence). unfold outs in L. rewrite map_length in L.
        clear - L Ec. assert (forall s hp, length (xrun ops s hp w) <= length ops) as X; [|specialize (X hstart []); lia].
        clear. revert w. induction ops as [|c ops IH]; intros w s hp; [apply le_n|]. cbn [HostileSetModel.xrun]. destruct (xstep c s hp w) as [[[o s'] hp'] w']. cbn [length].
        destruct o; cbn [length]; try lia; specialize (IH w' s' hp'); lia. }
    split; [|exact F]. unfold outs. rewrite map_length. apply xrun_all. apply Forall_forall. intros x Hx. apply (proj1 (Forall_forall _ _) F). unfold outs. now apply (in_map (fun x => fst (fst x))).
  Qed.
End HostileSet.
Print Assumptions C59_sets.
Print Assumptions C59_careful_sets.

(** three nodes in all: the twelfth insertion into set 0 is refused; the other sets are used on *)
Notation prun := (xrun (T := nat) (W := nat) (fun a b w => (Some (Nat.compare a b), w)) budget (@place_reuse nat unit nat) (fun x w => (Ret x, w))
  (Q := nat) (fun a b w => (Some (Nat.compare a b), w)) (fun a b w => (Some (a =? b), w)) (fun a b w => (Some (b <? a), w)) (fun b w => (Some b, w))
  (fun a b w => (Some (fst a =? fst b), w)) (fun a b w => (Some (Some (Nat.compare (fst a) (fst b))), w))).
Definition poor_sets : list (xop nat nat) :=
  XMap (Insert 1 5 tt) :: map (fun k => XMap (Insert 0 k tt)) (seq 0 12) ++
  [XMap (Contains 1 5); XLazy Union 1 2 1 1; XSubset 1 2; XOperator Union 1 2 3; XOperator Difference 1 1 3; XCollect 2 [7]; XMap (Insert 2 1 tt); XMap (Remove 1 5); XDisjoint 1 3; XMap (Clear 1)].
Lemma poor_sets_legal : Forall (@xlegal nat nat) poor_sets.
Proof. repeat constructor. Qed.
Example poor_sets_outcomes : skipn 12 (xoutcomes (prun poor_sets hstart [] 3)) =
  [Err AllocError; Ret (XObs (OBool true)); Ret (XItems [Some 5] 0 0 [None]); Ret (XBool false); Panic; Ret XUnit; Panic; Err AllocError; Ret (XObs (OVal nat (Some tt)));
   Ret (XBool true); Ret (XObs OUnit)].
Proof. vm_compute. reflexivity. Qed.

Fixpoint xcheck (D : list nat) (ops : list (xop nat nat)) (outs : list (outcome reserve_error (xobs nat))) : bool :=
  match ops, outs with
  | c :: ops', o :: outs' => forallb (fun r => negb (existsb (Nat.eqb r) D)) (xmentions c) && xcheck (xsuspect c o ++ D) ops' outs'
  | _, _ => true
  end.
Lemma xcheck_ok ops : forall D outs, xcheck D ops outs = true -> xcareful D ops outs.
Proof.
  induction ops as [|c ops IH]; intros D outs H; [exact I|]. destruct outs as [|o outs]; [exact I|]. cbn [xcheck xcareful] in *.
  apply andb_true_iff in H as [H1 H2]. split; [|now apply IH]. intros r Hr HD. rewrite forallb_forall in H1. specialize (H1 r Hr).
  apply negb_true_iff in H1. assert (existsb (Nat.eqb r) D = true); [|congruence]. apply existsb_exists. exists r. split; [exact HD|apply Nat.eqb_refl].
Qed.
Example poor_sets_careful : xcareful [] poor_sets (xoutcomes (prun poor_sets hstart [] 3)).
Proof. apply xcheck_ok. vm_compute. reflexivity. Qed.
Definition poor_sets2 : list (xop nat nat) := filter (fun c => match c with XOperator _ _ _ _ => false | _ => true end) poor_sets.
Lemma poor_sets2_legal : Forall (@xlegal nat nat) poor_sets2.
Proof. repeat constructor. Qed.
Example poor_sets2_run : length (xoutcomes (prun poor_sets2 hstart [] 3)) = length poor_sets2 /\ Forall (fun o => o <> Abort /\ o <> UB) (xoutcomes (prun poor_sets2 hstart [] 3)).
Proof.
  refine (proj2 (@C59_careful_sets nat nat nat budget (@place_reuse nat unit nat) (fun x w => (Ret x, w)) _ _ _ _ _ _ _ (@place_reuse_fresh _ _ _) _ poor_sets2 3 poor_sets2_legal _) _).
  - intros x w; split; discriminate.
  - apply xcheck_ok. vm_compute. reflexivity.
  - left. unfold poor_sets2, poor_sets. rewrite filter_app || cbn. repeat apply Forall_cons; try (exact (fun H => H)); try constructor; cbn; lia.
Qed.
