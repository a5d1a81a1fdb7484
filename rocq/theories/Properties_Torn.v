(** * Properties_Torn: C24, for every program

    An insertion that was refused memory (other than for the first node of an
    empty map) leaves a map whose later drop is undefined behaviour, whatever
    the program does with its other maps in between. *)
From Coq Require Import List Arith Lia Bool Permutation.
From Verif Require Import Base MapSpec IterSpec BTreeModel BTreeInv BTreeIterModel HeapModel HistoryModel HistorySpec HistoryProofs HeapMapModel HeapRes HeapMap HeapTorn HeapSplit HeapSpec HeapHistory.
From Verif Require Import HostileModel HostileSpec HostilePure HostileOps HostileHistory ContainSpec ContainProofs.
From Verif Require Import Examples Properties_BTree Properties_History Properties_Heap Properties_Hostile Properties_Contain.
Import ListNotations.
Set Implicit Arguments.

Section Hostile.
  Variables (K V Q W : Type) (nalloc : bool -> W -> option reserve_error * W) (place : heap K V -> W -> loc).
  Variables (kclone : K -> W -> outcome reserve_error K * W) (vclone : V -> W -> outcome reserve_error V * W).
  Notation kv := (K * V)%type.
  Notation heap := (heap K V).
  Variables (kcmp : K -> K -> asks W comparison) (qcmp : Q -> K -> asks W comparison) (qeq qgt : Q -> Q -> asks W bool) (view : bound_ Q -> asks W (bound_ Q)).
  Variables (eqb : kv -> kv -> asks W bool) (pcmp : kv -> kv -> asks W (option comparison)).
  Notation hxstep := (hxstep nalloc place kcmp qcmp qeq qgt view kclone vclone eqb pcmp).
  Notation hxrun := (hxrun nalloc place kcmp qcmp qeq qgt view kclone vclone eqb pcmp).
  Notation lt := (fun _ _ : K => Lt).
  Notation some_panic := (some_panic kcmp qcmp eqb pcmp).
  Notation result := (outcome reserve_error (obs K V) * hregs * heap)%type.

  (** the variable [r] holds a map longer than its entries, of which the program owns the nodes *)
  Definition doomed (D : list nat) (s2 : hregs) (lost : list (res K V)) (r : nat) : Prop :=
    In r D /\ exists m1 sr Y, mrep (s2 r) m1 sr /\ damaged m1 sr /\ Permutation lost (sres sr ++ Y).

  Section Run.
    Hypothesis place_fresh : forall hp w, hget hp (place hp w) = None.

    Lemma careful_step c D s2 s hp (S : nat -> list kv) s1 ss rs lost o s2' hp' (w w' : W) :
      ward lt D s2 s hp S s1 ss rs lost -> legal c -> avoids c D -> hxstep c s2 hp w = (o, s2', hp', w') -> o <> Abort -> o <> UB ->
      exists T s' s1' ss' rs' Y, ward lt (suspect c o ++ D) s2' s' hp' T s1' ss' rs' (Y ++ lost).
    Proof.
      intros Wd Hc Av E2 Na Nu. pose proof Wd as [W1 W2 W3 W4 W5 W6 W7].
      assert (forall r, mentions c = [r] -> suspect c o = [r] -> exists T s' s1' ss' rs' Y, ward lt (suspect c o ++ D) s2' s' hp' T s1' ss' rs' (Y ++ lost)) as One.
      { intros r Hm ->. assert (~ In r D) as Nr by (apply Av; rewrite Hm; now left).
        destruct (harm_one nalloc place kclone vclone kcmp qcmp qeq qgt view eqb pcmp place_fresh _ _ Wd Hc Hm Nr E2 Na Nu) as (T & s' & s1' & ss' & rs' & lost' & ET & Wd' & Y & ->).
        exists T, s', s1', ss', rs', Y. exact Wd'. }
      assert (suspect c o = [] -> exists T s' s1' ss' rs' Y, ward lt (suspect c o ++ D) s2' s' hp' T s1' ss' rs' (Y ++ lost)) as None_.
      { intros Es. rewrite Es.
        assert (okay nalloc kclone vclone some_panic c S hp rs (hxstep c s hp w)) as Ok.
        { eapply step_o; try eassumption; [..|exact (own_sub W5)]; unfold calm, Properties_Hostile.some_panic; eauto 10. }
        destruct (@hxstep_agree K V Q W nalloc place kclone vclone kcmp qcmp qeq qgt view eqb pcmp c s2 s hp w) as (A1 & A2 & A3 & A4); [intros r Hr; apply W1, Av; exact Hr|].
        assert (forall i, In i D -> snd (fst (fst (hxstep c s hp w))) i = h_new) as New.
        { intros i Hi. rewrite <- (W2 i Hi). apply hxstep_touches. intros I. apply (Av i); [|exact Hi]. clear - I. destruct c; cbn [touches mentions In] in *; tauto. }
        rewrite E2 in A1, A2, A3, A4. destruct (hxstep c s hp w) as [[[ov sv] hpv] wv]. cbn [fst snd] in A1, A2, A3, A4, New. subst ov hpv wv.
        destruct Ok as [(S' & HS & [Ok|[Ok|(s1' & ss' & rs' & R' & H' & G & RS')]])|(HG & _)]; try congruence.
        - pose proof (goes_fst G W5) as G1. exists S', sv, s1', ss', rs', []. constructor; auto. + exact (go_own G1). + exact (goes_exact G1 W6).
        - exfalso. clear - HG Es. destruct c; cbn [HostileSpec.gave_up suspect] in *; try contradiction; try (destruct HG as (e & -> & _); discriminate Es); destruct HG as (-> & _); discriminate Es. }
      destruct c; cbn [suspect] in *; try (now apply None_);
        try (destruct o as [a|e| | |]; first [now apply None_ | now eapply One]).
      - destruct o as [a|e| | |]; try (now apply None_); try congruence.
        destruct (harm_append nalloc place kclone vclone kcmp qcmp qeq qgt view eqb pcmp place_fresh _ Wd Hc (Av r (or_introl eq_refl)) (Av _ (or_intror (or_introl eq_refl))) E2) as (T & s' & s1' & ss' & rs' & lost' & Et & ET & Wd' & Y & ->).
        exists T, s', s1', ss', rs', Y. exact Wd'.
      - destruct o as [a|e| | |]; try (now apply None_); try congruence.
        destruct (harm_split nalloc place kclone vclone kcmp qcmp qeq qgt view eqb pcmp place_fresh _ _ Wd Hc (Av r (or_introl eq_refl)) E2) as (T & s' & s1' & ss' & rs' & lost' & ET & Wd' & Y & ->).
        exists T, s', s1', ss', rs', Y. exact Wd'.
    Qed.
    Lemma doomed_step c D s2 s hp (S : nat -> list kv) s1 ss rs lost o s2' hp' (w w' : W) r :
      ward lt D s2 s hp S s1 ss rs lost -> doomed D s2 lost r -> legal c -> avoids c D -> hxstep c s2 hp w = (o, s2', hp', w') -> o <> Abort -> o <> UB ->
      exists T s' s1' ss' rs' lost', ward lt (suspect c o ++ D) s2' s' hp' T s1' ss' rs' lost' /\ doomed (suspect c o ++ D) s2' lost' r.
    Proof.
      intros Wd (HD & m1 & sr & Y & M & Hd & P) Hc Av E Na Nu. destruct (careful_step _ Wd Hc Av E Na Nu) as (T & s' & s1' & ss' & rs' & Y' & Wd').
      exists T, s', s1', ss', rs', (Y' ++ lost). split; [exact Wd'|]. split; [apply in_or_app; now right|]. exists m1, sr, (Y' ++ Y). split; [|split; [exact Hd|]].
      - pose proof (@hxstep_touches K V Q W nalloc place kclone vclone kcmp qcmp qeq qgt view eqb pcmp c s2 hp w r) as Ht. rewrite E in Ht. cbn [fst snd] in Ht. rewrite Ht; [exact M|].
        intros I. apply (Av r); [|exact HD]. clear - I. destruct c; cbn [touches mentions In] in *; tauto.
      - rewrite P. apply Permutation_app_swap_app.
    Qed.
    Lemma refused_step c r D s2 s hp (S : nat -> list kv) s1 ss rs lost e s2' hp' (w w' : W) :
      ward lt D s2 s hp S s1 ss rs lost -> legal c -> avoids c D -> adds c r -> hxstep c s2 hp w = (Err e, s2', hp', w') -> mlen (s2' r) <> 0 ->
      exists T s' s1' ss' rs' lost', ward lt (suspect c (Err e) ++ D) s2' s' hp' T s1' ss' rs' lost' /\ doomed (suspect c (Err e) ++ D) s2' lost' r.
    Proof.
      intros Wd Hc Av Ad E Hn. pose proof Wd as [W1 W2 W3 W4 W5 W6 W7].
      assert (mentions c = [r]) as Hm by (destruct c; cbn [adds] in Ad; try contradiction; subst; reflexivity).
      assert (suspect c (Err e) = [r]) as Es by (destruct c; cbn [adds] in Ad; try contradiction; subst; reflexivity). rewrite Es.
      destruct (@hxstep_agree K V Q W nalloc place kclone vclone kcmp qcmp qeq qgt view eqb pcmp c s2 (hup_ hstart r (s r)) hp w) as (A1 & A2 & A3 & A4).
      { rewrite Hm. intros i [<- |[]]. unfold hup_. rewrite Nat.eqb_refl. apply W1, Av. rewrite Hm. now left. }
      specialize (A4 r). rewrite E in A1, A2, A4.
      destruct (@alone K V lt s S s1 ss r W3 W7) as (R' & H' & RS').
      assert (okay nalloc kclone vclone some_panic c (upd (nothing K V) r (S r)) hp (sres (ss r)) (hxstep c (hup_ hstart r (s r)) hp w)) as Ok.
      { eapply step_o; try eassumption; [..|exact (own_reg W4 (own_sub W5) r)]; unfold calm, Properties_Hostile.some_panic; eauto 10. }
      destruct (hxstep c (hup_ hstart r (s r)) hp w) as [[[o' sv] hpv] wv]. cbn [fst snd] in A1, A2, A4. subst o' hpv.
      assert (s2' r = sv r) as Er by (apply A4; unfold hup_; rewrite Nat.eqb_refl; apply W1, Av; rewrite Hm; now left).
      destruct Ok as [(S' & HS & [Ok|[Ok|(s1' & ss' & rs' & R2 & H2 & G & RS2)]])|(HG & s1' & ss' & rs' & lo & R2 & H2 & G & Hd)]; try discriminate.
      - exfalso. apply Hn. rewrite Er. destruct (R2 r) as (El & _). rewrite El. destruct (RS2 r) as [(_ & Hl) Ee].
        destruct (RS2 r) as [[(_ & _ & Hlen) _] Ee2]. rewrite Hlen, Ee2.
        destruct c; cbn [adds] in Ad; try contradiction; subst; cbn [HostileSpec.loose] in HS;
          repeat match goal with
                 | H : _ \/ _ |- _ => destruct H
                 | H : exists _, _ |- _ => destruct H
                 | H : _ /\ _ |- _ => destruct H
                 end; try discriminate;
          match goal with H : HostileSpec.is _ S', H0 : _ = [] |- _ => rewrite (H r), H0; reflexivity end.
      - specialize (Hd r Ad).
        assert (forall i, i <> r -> s2' i = s2 i) as Oth.
        { intros i Hi. pose proof (@hxstep_touches K V Q W nalloc place kclone vclone kcmp qcmp qeq qgt view eqb pcmp c s2 hp w i) as Ht.
          rewrite E in Ht. apply Ht. intros I. assert (In i (mentions c)) as I' by (clear - I; destruct c; cbn [touches mentions In] in *; tauto). rewrite Hm in I'. destruct I' as [<- |[]]. congruence. }
        destruct (@ward_harm K V lt D s2 s hp S s1 ss rs lost r hp' (rs' ++ lo) s2' S Wd G Oth ltac:(reflexivity)) as (T & s' & s1x & ssx & rsx & lostx & ET & Wd' & ->).
        exists T, s', s1x, ssx, rsx, ((rs' ++ lo) ++ lost). split; [exact Wd'|]. split; [now left|].
        destruct (held_focus r H2) as (rest & P & _). exists (s1' r), (ss' r), (rest ++ lo ++ lost). split; [rewrite Er; apply R2|]. split; [exact Hd|].
        rewrite P, <- !app_assoc. reflexivity.
    Qed.
    Lemma doomed_drop d D s2 s hp (S : nat -> list kv) s1 ss rs lost r (w : W) :
      ward lt D s2 s hp S s1 ss rs lost -> doomed D s2 lost r -> d = New r \/ d = Clear r -> hxstep d s2 hp w = (UB, s2, hp, w).
    Proof.
      intros [W1 W2 W3 W4 W5 W6 W7] (_ & m1 & sr & Y & M & Hd & P) Ed.
      assert (own hp (sres sr)) as O.
      { apply own_app in W5 as (_ & O & _). pose proof (own_perm P O) as O2. exact (own_sub O2). }
      pose proof (h_drop_damaged M O Hd) as Dr. destruct Ed as [-> | ->]; cbn [HostileModel.hxstep]; unfold pure, hbind; rewrite Dr; reflexivity.
    Qed.

    (** ** Runs *)
    Lemma run_cut (x : result) rest ops s hp (w : W) : hxrun ops s hp w = x :: rest ->
      exists c ops' w', ops = c :: ops' /\ hxstep c s hp w = (fst (fst x), snd (fst x), snd x, w') /\
        (rest <> [] -> fst (fst x) <> Abort /\ fst (fst x) <> UB /\ hxrun ops' (snd (fst x)) (snd x) w' = rest).
    Proof.
      destruct ops as [|c ops]; [discriminate|]. cbn [HostileModel.hxrun]. destruct (hxstep c s hp w) as [[[o s'] hp'] w'] eqn:E. intros H. injection H as <- <-.
      exists c, ops, w'. split; [reflexivity|]. cbn [fst snd]. split; [exact E|]. cbn [fst snd]. intros Ne. destruct o; try (split; [discriminate|]; split; [discriminate|reflexivity]); exfalso; apply Ne; reflexivity.
    Qed.
    Lemma cut_doomed d r (Ed : d = New r \/ d = Clear r) ops2 : forall D s2 s hp (S : nat -> list kv) s1 ss rs lost (w : W) res2 rest,
      ward lt D s2 s hp S s1 ss rs lost -> doomed D s2 lost r -> Forall (@legal K V Q) ops2 -> length res2 = length ops2 -> rest <> [] ->
      careful D ops2 (map (fun x : result => fst (fst x)) res2) -> hxrun (ops2 ++ [d]) s2 hp w = res2 ++ rest ->
      exists s' hp', rest = [(UB, s', hp')].
    Proof.
      induction ops2 as [|c ops2 IH]; intros D s2 s hp S s1 ss rs lost w res2 rest Wd Hd HL El Ne C E.
      - destruct res2; [|discriminate El]. cbn [app HostileModel.hxrun] in E. rewrite (doomed_drop w Wd Hd Ed) in E. subst rest. eauto.
      - destruct res2 as [|[[o s'] hp'] res2]; [discriminate El|]. cbn [app] in E. apply run_cut in E as (c0 & ops' & w' & Eo & Ex & Er). cbn [app] in Eo. injection Eo as <- <-.
        destruct Er as (Na & Nu & Er); [intros Hn; apply app_eq_nil in Hn as [_ Hn]; contradiction|]. cbn [fst snd] in *.
        cbn [map careful] in C. destruct C as [Av C]. cbn [fst] in C. inversion HL as [|? ? Hc HL']; subst.
        destruct (doomed_step _ Wd Hd Hc Av Ex Na Nu) as (T & sn & s1' & ss' & rs' & lost' & Wd' & Hd').
        eapply IH; [exact Wd'|exact Hd'|exact HL'|exact (f_equal Nat.pred El)|exact Ne|exact C|exact Er].
    Qed.
    Lemma cut_refused c r ops2 d (Ed : d = New r \/ d = Clear r) (Ad : adds c r) ops1 : forall D s2 s hp (S : nat -> list kv) s1 ss rs lost (w : W) res1 e sx hpx res2 rest,
      ward lt D s2 s hp S s1 ss rs lost -> Forall (@legal K V Q) (ops1 ++ c :: ops2) -> length res1 = length ops1 -> length res2 = length ops2 -> rest <> [] ->
      careful D (ops1 ++ c :: ops2) (map (fun x : result => fst (fst x)) (res1 ++ (Err e, sx, hpx) :: res2)) -> mlen (sx r) <> 0 ->
      hxrun (ops1 ++ c :: ops2 ++ [d]) s2 hp w = res1 ++ (Err e, sx, hpx) :: res2 ++ rest ->
      exists s' hp', rest = [(UB, s', hp')].
    Proof.
      induction ops1 as [|c1 ops1 IH]; intros D s2 s hp S s1 ss rs lost w res1 e sx hpx res2 rest Wd HL El1 El2 Ne C Hn E.
      - destruct res1; [|discriminate El1]. cbn [app] in *. apply run_cut in E as (c0 & ops' & w' & Eo & Ex & Er). injection Eo as <- <-.
        destruct Er as (_ & _ & Er); [intros Hx; apply app_eq_nil in Hx as [_ Hx]; contradiction|]. cbn [fst snd] in *.
        cbn [map careful] in C. destruct C as [Av C]. cbn [fst] in C. inversion HL as [|? ? Hc HL']; subst.
        destruct (refused_step _ _ Wd Hc Av Ad Ex Hn) as (T & sn & s1' & ss' & rs' & lost' & Wd' & Hd').
        eapply cut_doomed; [exact Ed|exact Wd'|exact Hd'|exact HL'|exact El2|exact Ne|exact C|exact Er].
      - destruct res1 as [|[[o s'] hp'] res1]; [discriminate El1|]. cbn [app] in E. apply run_cut in E as (c0 & ops' & w' & Eo & Ex & Er). cbn [app] in Eo. injection Eo as <- <-.
        destruct Er as (Na & Nu & Er); [intros Hx; apply app_eq_nil in Hx as [_ Hx]; discriminate Hx|]. cbn [fst snd] in *.
        cbn [app map careful] in C. destruct C as [Av C]. cbn [fst] in C. cbn [app] in HL. inversion HL as [|? ? Hc HL']; subst.
        destruct (careful_step _ Wd Hc Av Ex Na Nu) as (T & sn & s1' & ss' & rs' & Y & Wd').
        eapply IH; [exact Wd'|exact HL'|exact (f_equal Nat.pred El1)|exact El2|exact Ne|exact C|exact Hn|exact Er].
    Qed.

    (** For every program that has so far left damaged maps alone: when an insertion [c] into [r] fails, and the map is not empty, then
        whatever the program goes on to do with its other maps, dropping or clearing [r] is undefined behaviour. *)
    Theorem C24_hostile_drop : forall ops1 c r ops2 d w res1 e s hp res2 rest,
      Forall (@legal K V Q) (ops1 ++ c :: ops2) -> adds c r -> d = New r \/ d = Clear r ->
      hxrun (ops1 ++ c :: ops2 ++ [d]) hstart [] w = res1 ++ (Err e, s, hp) :: res2 ++ rest ->
      length res1 = length ops1 -> length res2 = length ops2 -> rest <> [] ->
      careful [] (ops1 ++ c :: ops2) (map (fun x : result => fst (fst x)) (res1 ++ (Err e, s, hp) :: res2)) ->
      mlen (s r) <> 0 ->
      exists s' hp', rest = [(UB, s', hp')].
    Proof.
      intros ops1 c r ops2 d w res1 e s hp res2 rest HL Ad Ed E El1 El2 Ne C Hn.
      eapply cut_refused with (s := hstart) (s1 := start K V) (ss := fun _ => None) (rs := []) (lost := []) (S := nothing K V); eauto. constructor.
      - reflexivity.
      - intros r0 [].
      - intros r0. apply mrep_new.
      - exists 0. split; [reflexivity|constructor].
      - constructor; [constructor|constructor].
      - intros l Hl Hg. apply Hg. unfold hget. destruct (l =? sroot) eqn:E0; [apply Nat.eqb_eq in E0; congruence|reflexivity].
      - apply start_rep.
    Qed.
  End Run.
End Hostile.

Section Pure.
  Variables (K V Q W : Type) (nalloc : bool -> W -> option reserve_error * W) (place : heap K V -> W -> loc).
  Hypothesis place_fresh : forall hp w, hget hp (place hp w) = None.
  Variables (cmp : K -> K -> comparison) (qcmp : Q -> Q -> comparison) (borrow : K -> Q).
  Variables (kclone : K -> W -> outcome reserve_error K * W) (vclone : V -> W -> outcome reserve_error V * W).
  Notation kv := (K * V)%type.
  Variables (eqb : kv -> kv -> bool) (pcmp : kv -> kv -> option comparison).
  Notation hrun := (hrun nalloc place cmp qcmp borrow kclone vclone eqb pcmp).
  Notation pure_run := (pure_run nalloc place cmp qcmp borrow kclone vclone eqb pcmp).
  Notation result := (outcome reserve_error (obs K V) * hregs * heap K V)%type.

  Lemma hrun_length ops : forall s hp (w : W), length (hrun ops s hp w) <= length ops.
  Proof.
    induction ops as [|c ops IH]; intros s hp w; cbn [HeapMapModel.hrun]; [auto|]. destruct (hstep _ _ _ _ _ _ _ _ _ c s hp w) as [[[o s'] hp'] w'].
    cbn [length]. destruct o; cbn [length]; try lia; specialize (IH s' hp' w'); lia.
  Qed.
  Lemma hrun_ub ops : forall s hp (w : W), Forall (fun x : result => fst (fst x) <> UB) (hrun ops s hp w) \/ exists a s' hp', hrun ops s hp w = a ++ [(UB, s', hp')].
  Proof.
    induction ops as [|c ops IH]; intros s hp w; cbn [HeapMapModel.hrun]; [left; constructor|]. destruct (hstep _ _ _ _ _ _ _ _ _ c s hp w) as [[[o s'] hp'] w'].
    destruct o as [x|e| | |]; try (left; constructor; [discriminate|constructor]); try (right; exists [], s', hp'; reflexivity);
      (destruct (IH s' hp' w') as [F|(l & s2 & hp2 & E)]; [left; constructor; [discriminate|exact F]|right; eexists (_ :: l), s2, hp2; rewrite E; reflexivity]).
  Qed.

  (** The same of programs whose comparisons are functions, lawful or not. *)
  Theorem C24_drop : forall ops1 c r ops2 d w res1 e s hp res2 rest,
    Forall (@legal K V Q) (ops1 ++ c :: ops2) -> adds c r -> d = New r \/ d = Clear r ->
    hrun (ops1 ++ c :: ops2 ++ [d]) hstart [] w = res1 ++ (Err e, s, hp) :: res2 ++ rest ->
    length res1 = length ops1 -> length res2 = length ops2 -> rest <> [] ->
    careful [] (ops1 ++ c :: ops2) (map (fun x : result => fst (fst x)) (res1 ++ (Err e, s, hp) :: res2)) ->
    mlen (s r) <> 0 ->
    exists s' hp', rest = [(UB, s', hp')].
  Proof using place_fresh.
    intros ops1 c r ops2 d w res1 e s hp res2 rest HL Ad Ed E El1 El2 Ne C Hn.
    destruct (hrun_ub (ops1 ++ c :: ops2 ++ [d]) hstart [] w) as [F|(l & s' & hp' & Eu)].
    - pose proof (@pure_run_same K V W nalloc place cmp Q qcmp borrow kclone vclone eqb pcmp _ _ _ _ F) as Ep. rewrite <- Ep in E. unfold HostilePure.pure_run in E.
      eapply C24_hostile_drop; [exact place_fresh|exact HL|exact Ad|exact Ed|exact E|exact El1|exact El2|exact Ne|exact C|exact Hn].
    - pose proof (hrun_length (ops1 ++ c :: ops2 ++ [d]) hstart [] w) as Hl. rewrite E in Hl, Eu. rewrite !app_length in Hl. cbn [length] in Hl. rewrite !app_length in Hl. cbn [length] in Hl.
      destruct rest as [|x [|y rest]]; [now destruct Ne| |cbn [length] in Hl; lia].
      rewrite app_comm_cons, app_assoc in Eu. apply app_inj_tail in Eu as [_ ->]. eauto.
  Qed.
End Pure.

(** ** A program that meets this: eleven insertions into the map 0, a twelfth that is refused, two more maps, Clear *)
Definition torn_before : list (op nat nat nat) := map (fun k => Insert 0 k k) (seq 0 11).
Definition torn_between : list (op nat nat nat) := [Len 1; Get 1 3; New 2; Clear 1].
Notation brun ops w := (hrun budget (@place_reuse nat nat nat) Nat.compare Nat.compare (fun k => k) copy_ copy_
  (fun x y : nat * nat => (fst x =? fst y) && (snd x =? snd y)) (fun x y => Some (Nat.compare (fst x) (fst y))) ops hstart [] w).
Example torn_outcomes : map (fun x => fst (fst x)) (skipn 11 (brun (torn_before ++ Insert 0 11 11 :: torn_between ++ [Clear 0]) 1)) =
  [Err AllocError; Ret (ONat 0); Ret (OVal nat None); Ret (@OUnit nat nat); Ret (@OUnit nat nat); UB].
Proof. vm_compute. reflexivity. Qed.
Example torn_len : map (fun x => mlen (snd (fst x) 0)) (skipn 11 (brun (torn_before ++ Insert 0 11 11 :: torn_between ++ [Clear 0]) 1)) = [12; 12; 12; 12; 12; 12].
Proof. vm_compute. reflexivity. Qed.
Example torn_careful : careful [] (torn_before ++ Insert 0 11 11 :: torn_between)
  (map (fun x => fst (fst x)) (firstn 16 (brun (torn_before ++ Insert 0 11 11 :: torn_between ++ [Clear 0]) 1))).
Proof. vm_compute. repeat split; intros r H I; repeat (destruct H as [<- |H]); try destruct H; repeat (destruct I as [I|I]; try discriminate I); destruct I. Qed.

Print Assumptions C24_hostile_drop.
Print Assumptions C24_drop.
