(** * Properties_FrameSet: C60 for sets

    Comparing two sets and iterating over their difference, symmetric
    difference, intersection or union - next(), size_hint(), clone() and {:?},
    panics caught or not - writes nothing.  An operator [-], [^], [&], [|]
    writes nothing to its operands, and collecting writes only to the set it
    assigns to; whatever else is in memory stays as it is, cell by cell. *)
From Coq Require Import List Arith Lia Bool Permutation.
From Verif Require Import Base MapSpec IterSpec SetSpec BTreeModel BTreeInv BTreeLemmas BTreeIterModel BTreeClone HeapModel HistoryModel HistorySpec HistoryProofs HeapMapModel HeapRep HeapWp HeapRes HeapMap HeapSplit HeapTorn HeapInto HeapSpec HeapHistory HeapMemory.
From Verif Require Import HostileModel HostileSpec HostileOps HostileHistory HostileSetModel HostileSetSpec HostileSets HostileSetOps HostileSetHistory LazyModel ContainSpec ContainProofs ContainSetSpec FrameSpec FrameProofs FrameSetSpec FrameSetProofs.
From Verif Require Import Examples Properties_BTree Properties_BTree2 Properties_History Properties_Heap Properties_Hostile Properties_HostileSet Properties_Contain Properties_ContainSet Properties_Frame.
Import ListNotations.
Set Implicit Arguments.

Section HostileSet.
  Variables (T Q W : Type) (nalloc : bool -> W -> option reserve_error * W) (place : heap T unit -> W -> loc).
  Variable tclone : T -> W -> outcome Empty_set T * W.
  Variables (kcmp : T -> T -> asks W comparison) (qcmp : Q -> T -> asks W comparison) (qeq qgt : Q -> Q -> asks W bool) (view : bound_ Q -> asks W (bound_ Q)).
  Variables (eqb : T * unit -> T * unit -> asks W bool) (pcmp : T * unit -> T * unit -> asks W (option comparison)).
  Notation xstep := (xstep kcmp nalloc place tclone qcmp qeq qgt view eqb pcmp).
  Notation xrun := (xrun kcmp nalloc place tclone qcmp qeq qgt view eqb pcmp).
  Notation zstep := (zstep kcmp nalloc place tclone qcmp qeq qgt view eqb pcmp).
  Notation kc := (xkclone tclone).
  Notation vc := (@xvclone W).
  Notation hxstep := (hxstep nalloc place kcmp qcmp qeq qgt view kc vc eqb pcmp).
  Notation lt := (fun _ _ : T => Lt).
  Notation sc := (some_panic (K := T) (V := unit) (Q := Q) (W := W) kcmp qcmp eqb pcmp).
  Notation xloose := (xloose (T := T) (Q := Q) (no_memory nalloc) (clones tclone) (clone_ends tclone) (clone_fails nalloc kc vc) sc).
  Notation yes := (fun (_ _ : T) (_ : comparison) => True).
  Notation perhaps := (fun (_ : T) (_ : list T) (_ : bool) => True).

  Lemma xread_kept (m : AM T unit W (xobs T)) (s : hregs) hp w : akeeps_ (@eqh T unit) m ->
    snd (fst (fst (xread m s hp w))) = s /\ snd (fst (xread m s hp w)) = hp.
  Proof. intros H. specialize (H hp w). unfold xread. destruct (m hp w) as [[o hp'] w']. split; [reflexivity|exact H]. Qed.

  Lemma look_kept (m : AM T unit W (zres T)) (s : hregs) hp w : akeeps_ (@eqh T unit) m ->
    let x := (let '(o, hp', w') := m hp w in (o, s, hp', w')) in snd (fst (fst x)) = s /\ snd (fst x) = hp.
  Proof. intros H. specialize (H hp w). destruct (m hp w) as [[o hp'] w']. split; [reflexivity|exact H]. Qed.

  (** any heap, in order or not; whatever the comparisons do *)
  Theorem C60_set_readers : forall c s hp w, xreader c = true -> snd (fst (fst (xstep c s hp w))) = s /\ snd (fst (xstep c s hp w)) = hp.
  Proof.
    intros c s hp w H. destruct c as [c|k r t n m|r t|r t|r t|k r t u|r l]; try discriminate H; cbn [HostileSetModel.xstep xreader] in *.
    - pose proof (@C60_readers T unit Q W nalloc place kc vc kcmp qcmp qeq qgt view eqb pcmp c s hp w H) as X.
      destruct (hxstep c s hp w) as [[[o s'] hp'] w']. exact X.
    - apply xread_kept, aq_xlazy.
    - apply xread_kept, aq_xsub.
    - apply xread_kept, aq_xsub.
    - apply xread_kept, aq_xdis.
  Qed.
  (** a session on the lazy iterators, with clones and {:?}, panics caught *)
  Theorem C60_sessions : forall k r t cs s hp w, snd (fst (fst (zstep (ZLook k r t cs) s hp w))) = s /\ snd (fst (zstep (ZLook k r t cs) s hp w)) = hp.
  Proof.
    intros k r t cs s hp w. cbn [LazyModel.zstep]. apply look_kept, aq_look.
  Qed.

  Section Run.
    Hypothesis place_fresh : forall hp w, hget hp (place hp w) = None.

    Lemma assign_goes CE P n x u s s1 ss hp (S : nat -> list (T * unit)) o s' hp' (w' : W) : reps s s1 ss -> own hp (sres (ss u)) -> rep lt s1 S ->
      built (W := W) nalloc sc (valid (V := unit) lt) CE P n new None hp x ->
      xassign u x s = (o, s', hp', w') -> o <> Abort -> o <> UB -> exists X, goes hp (sres (ss u)) hp' X.
    Proof.
      intros Rp Ou0 RS (o0 & m2' & m1' & s0 & lost & hp1 & w1 & -> & M) E Na Nu. unfold xassign in E. cbn [sres app] in M.
      destruct o0 as [a|e| | |]; try contradiction.
      - destruct M as (M & G & -> & I & Pl). rewrite app_nil_r in G. pose proof (goes_add G Ou0) as G1.
        assert (own hp1 (sres (ss u))) as Ou by (pose proof (go_own G1) as Q0; apply own_app in Q0; apply Q0).
        destruct (drop_m (Rp u) Ou (any_reg RS u) (len_reg RS u)) as (l & fr & _ & Wp).
        unfold wp in Wp. destruct (h_drop (s u) hp1) as [[r hp2]|]; [|contradiction]. destruct Wp as [_ G2].
        injection E as _ _ <- _. exists (sres s0). pose proof (goes_trans G1 (goes_snd G2 (go_own G1))) as G3. now rewrite app_nil_r in G3.
      - destruct M as (M & G & M2). destruct M2 as [(Hc & -> & Hs)|(Hm & Hn & Hd)].
        + rewrite app_nil_r in G. destruct Hs as ((_ & Hk) & _ & Hl).
          destruct (drop_m M (go_own G)) as (l & fr & _ & Wp); [eapply kids_weaken; [|exact Hk]; now unfold any|exact Hl|].
          unfold wp in Wp. destruct (h_drop m2' hp1) as [[r hp2]|]; [|contradiction]. destruct Wp as [_ G2].
          injection E as _ _ <- _. exists (sres (ss u)). exact (goes_add (goes_trans G G2) Ou0).
        + exfalso. pose proof (go_own G) as Ol. apply own_app in Ol as (Ol & _ & _). rewrite (HeapTorn.h_drop_damaged M Ol Hd) in E. injection E as <- _ _ _. now apply Nu.
      - exfalso. injection E as <- _ _ _. now apply Na.
      - exfalso. injection E as <- _ _ _. now apply Nu.
    Qed.

    Lemma set_confined c D s2 s hp (S : nat -> list (T * unit)) s1 ss rs lost o s2' hp' (w w' : W) :
      ward lt D s2 s hp S s1 ss rs lost -> xlegal c -> xavoids c D -> xstep c s2 hp w = (o, s2', hp', w') -> o <> Abort -> o <> UB ->
      xconfined c s2 hp hp'.
    Proof.
      intros Wd Hc Av E Na Nu.
      assert (forall c', c = XMap c' -> xconfined c s2 hp hp') as Map.
      { intros c' ->. cbn [HostileSetModel.xstep] in E. destruct (hxstep c' s2 hp w) as [[[o1 s1'] hp1] w1] eqn:E1. injection E as <- _ <- _.
        eapply (@step_confined T unit Q W nalloc place kc vc kcmp qcmp qeq qgt view eqb pcmp place_fresh) in E1; try eassumption;
          destruct o1; cbn in *; congruence. }
      assert (xreader c = true -> xconfined c s2 hp hp') as Rd.
      { intros Hr. pose proof (C60_set_readers c s2 hp w Hr) as [_ X]. rewrite E in X. cbn in X. subst hp'.
        assert (xgiven c = [] -> xconfined c s2 hp hp) as Y; [intros Eg; exists (fun _ => []); rewrite Eg; split; [intros t []|reflexivity]|].
        destruct c as [c|k r t n m|r t|r t|r t|k r t u|r l]; try discriminate Hr; try (now apply Y). now apply (Map c). }
      assert (forall u, (forall t, In t (xgiven c) <-> t = u) -> (exists X, goes hp (sres (ss u)) hp' X) -> ~ In u D -> xconfined c s2 hp hp') as As.
      { intros u Hu (X & G) Nd. exists (snodes ss). split.
        - intros t Ht. apply Hu in Ht as ->. exact (ward_owned _ Wd Nd).
        - intros l Hl Hn. apply (goes_rest l G Hl). apply Hn. now apply Hu. }
      destruct (@xstep_agree T Q W nalloc place tclone kcmp qcmp qeq qgt view eqb pcmp c s2 s hp w) as (A1 & A2 & A3 & _); [intros r Hr; apply (wd_same Wd), Av, Hr|].
      rewrite E in A1, A2, A3. destruct (xstep c s hp w) as [[[ov sv] hpv] wv] eqn:Ev. cbn [fst snd] in A1, A2, A3. subst ov hpv wv.
      pose proof Wd as [W1 W2 W3 W4 W5 W6 W7]. pose proof (own_sub W5) as O.
      assert (forall a b, calm sc (kcmp a b)) as Ck by (unfold calm, Properties_Hostile.some_panic; eauto 10).
      destruct c as [c|k r t n m|r t|r t|r t|k r t u|r l]; try (now apply Rd); [now apply (Map c)|..]; cbn [HostileSetModel.xstep] in Ev.
      - apply (As u); [cbn; intuition congruence| |apply Av; cbn; auto].
        refine (assign_goes _ W3 (own_reg W4 O u) W7 _ Ev Na Nu).
        exact (@operator_r T W nalloc place tclone kcmp sc Ck yes (fun _ _ _ _ _ _ => I) (valid lt) (@valid_sound T lt) (@valid_new T lt) perhaps
          (@any_contains T W kcmp sc Ck) (fun _ _ => ex_intro _ Eq I) (fun _ _ => ex_intro _ true I) (@placed_in T)
          (@any_insert T W nalloc place place_fresh kcmp sc Ck) (@placed_len T) rs _ (@fp_in T ss rs W4) hp k _ _ _ _ w O (bears_reg W3 W4 O W7 r) (bears_reg W3 W4 O W7 t)).
      - apply (As r); [cbn; intuition congruence| |apply Av; cbn; auto].
        refine (assign_goes _ W3 (own_reg W4 O r) W7 _ Ev Na Nu).
        exact (@from_r T W nalloc place kcmp sc (valid lt) (@valid_sound T lt) (@placed_in T) (@any_insert T W nalloc place place_fresh kcmp sc Ck) (@placed_len T) l h_new new None hp w (mrep_new T unit) (own_nil hp) (@valid_new T lt)).
    Qed.

    Lemma xgiven_touches (c : xop T Q) : xgiven c = xtouches c.
    Proof. destruct c; reflexivity. Qed.
    Lemma xsuspect_map (c : op T unit Q) o : xsuspect (XMap c) (omap (@XObs T) o) = suspect c o.
    Proof. destruct c, o; reflexivity. Qed.
    Lemma xloose_dead (c : xop T Q) S o S' : xloose c S o S' -> o = Abort \/ o = UB -> may_end c.
    Proof.
      destruct c as [c|k r t n m|r t|r t|r t|k r t u|r l]; intros H Ho; [|exfalso..| |exfalso]; [|..|exact I|].
      1:{ destruct H as (o' & HS & ->). assert (o' = Abort \/ o' = UB) as Ho' by (destruct Ho as [Ho|Ho], o'; try discriminate Ho; auto).
        assert (exists r t, c = TryClone r t \/ c = Clone r t) as (r & t & [-> | ->]); [|exact I..].
        clear - HS Ho'. destruct c; cbn [HostileSpec.loose] in HS; eauto; exfalso; destruct Ho' as [-> | ->];
          repeat match goal with
                 | H : _ \/ _ |- _ => destruct H as [H|H]
                 | H : exists _, _ |- _ => destruct H as [? H]
                 | H : _ /\ _ |- _ => destruct H as [? H]
                 | H : let '(_, _) := ?x in _ |- _ => destruct x
                 end; congruence. }
      all: cbn [HostileSetSpec.xloose] in H; destruct Ho as [-> | ->];
        repeat match goal with
               | H : _ \/ _ |- _ => destruct H as [H|H]
               | H : exists _, _ |- _ => destruct H as [? H]
               | H : _ /\ _ |- _ => destruct H as [? H]
               end; congruence.
    Qed.

    Lemma xframes_run ops : forall D D0 s2 s hp S s1 ss rs lost w, incl D0 D -> ward lt D0 s2 s hp S s1 ss rs lost ->
      Forall (@xlegal T Q) ops -> xframes D s2 hp ops (xrun ops s2 hp w).
    Proof.
      induction ops as [|c ops IH]; intros D D0 s2 s hp S s1 ss rs lost w I Wd HL; [constructor|]. inversion HL as [|? ? Hc HL']; subst.
      destruct (xavoids_dec c D) as [Av|Av]; [|now apply XF_risk]. assert (xavoids c D0) as Av0 by (intros r Hr Hd; exact (Av r Hr (I r Hd))).
      cbn [HostileSetModel.xrun]. pose proof (@xstep_touches T Q W nalloc place tclone kcmp qcmp qeq qgt view eqb pcmp c s2 hp w) as Ht.
      pose proof (C60_set_readers c s2 hp w) as Hr.
      destruct (xstep c s2 hp w) as [[[o s2'] hp'] w'] eqn:E. cbn [fst snd] in Ht, Hr.
      assert (((o = Abort \/ o = UB) /\ may_end c) \/
        (o <> Abort /\ o <> UB /\ exists D' S' s' s1' ss' rs' lost', incl D' (xsuspect c o ++ D0) /\ ward lt D' s2' s' hp' S' s1' ss' rs' lost')) as St.
      { assert ((forall c', c <> XMap c') \/ exists c', c = XMap c') as [Nm|(c' & ->)] by (destruct c; eauto; left; discriminate).
        - destruct (@set_step T Q W nalloc place tclone kcmp qcmp qeq qgt view eqb pcmp place_fresh c D0 s2 s hp S s1 ss rs lost o s2' hp' w w' Wd Nm Av0 E) as [(S' & HS & Ok)|(-> & NM & BM)].
          + assert (o = Abort \/ o = UB \/ (o <> Abort /\ o <> UB)) as [Ho|[Ho|[Na Nu]]] by (destruct o; auto; right; right; split; discriminate);
              [left; split; [auto|]; eapply xloose_dead; eauto..|]. right. split; [exact Na|]. split; [exact Nu|].
            destruct Ok as [Ok|[Ok|(s' & s1' & ss' & rs' & Wd')]]; try contradiction. exists D0, S', s', s1', ss', rs', lost. split; [apply incl_appr, incl_refl|exact Wd'].
          + left. split; [now right|]. destruct c; cbn [builds_many may_end] in *; auto; try contradiction.
        - cbn [HostileSetModel.xstep] in E. destruct (hxstep c' s2 hp w) as [[[o1 s3] hp1] w1] eqn:E1. injection E as <- <- <- <-.
          change (fmap XObs o1) with (omap (@XObs T) o1) in *. rewrite xsuspect_map.
          destruct (@ward_step T unit Q W nalloc place kc vc kcmp qcmp qeq qgt view eqb pcmp place_fresh c' D0 s2 s hp S s1 ss rs lost o1 s3 hp1 w w1 Wd Hc Av0 E1) as [(Ho & r & t & Hcl)|(Na & Nu & X)].
          + left. split; [destruct Ho as [-> | ->]; auto|]. destruct Hcl as [-> | ->]; exact Logic.I.
          + right. split; [destruct o1; cbn; congruence|]. split; [destruct o1; cbn; congruence|exact X]. }
      destruct St as [(Ho & Hm)|(Na & Nu & D' & S' & s' & s1' & ss' & rs' & lost' & I' & Wd')].
      - destruct Ho as [-> | ->]; apply XF_dead; auto.
      - replace (match o with Abort | UB => [] | _ => xrun ops s2' hp' w' end) with (xrun ops s2' hp' w') by (destruct o; congruence).
        apply XF_step; [exact Av|exact Na|exact Nu|..].
        + intros r. rewrite xgiven_touches. apply Ht.
        + exact (@set_confined c D0 s2 s hp S s1 ss rs lost o s2' hp' w w' Wd Hc Av0 E Na Nu).
        + exact Hr.
        + eapply IH; [|exact Wd'|exact HL']. intros x Hx. apply I' in Hx. apply in_app_or in Hx as [Hx|Hx]; apply in_or_app; auto.
    Qed.

    (** whatever the comparisons answer and the allocator does *)
    Theorem C60_set_frames : forall ops w, Forall (@xlegal T Q) ops -> xframes [] hstart [] ops (xrun ops hstart [] w).
    Proof.
      intros ops w HL. apply xframes_run with (D0 := []) (s := hstart) (s1 := start T unit) (ss := fun _ => None) (rs := []) (lost := []) (S := nothing T unit); [apply incl_refl| |exact HL]. constructor.
      - reflexivity.
      - intros r [].
      - intros r. apply mrep_new.
      - exists 0. split; [reflexivity|constructor].
      - constructor; [constructor|constructor].
      - intros l Hl Hg. apply Hg. unfold hget. destruct (l =? sroot) eqn:El; [apply Nat.eqb_eq in El; congruence|reflexivity].
      - apply start_rep.
    Qed.
  End Run.
End HostileSet.
Print Assumptions C60_set_readers.
Print Assumptions C60_sessions.
Print Assumptions C60_set_frames.

(** two sets of four nodes each; the operands of an operator keep their cells *)
Definition slives (hp : heap nat unit) : list loc := filter (fun l => match hget hp l with Some _ => negb (l =? sroot) | None => false end) (seq 0 20).
Definition ssame (a b : heap nat unit) : list bool :=
  map (fun l => match hget a l, hget b l with
                | Some c, Some d => forallb (fun p => match fst p, snd p with Some x, Some y => x =? y | None, None => true | _, _ => false end)
                                     (combine (ckeys c) (ckeys d)) && (clen c =? clen d)
                | _, _ => false end) (slives a).
Definition two_sets : list (xop nat nat) :=
  [XCollect 0 (seq 0 20); XCollect 1 (seq 10 20); XLazy SymmetricDifference 0 1 3 2; XSubset 0 1; XOperator Union 0 1 2; XOperator Difference 0 1 2; XMap (Clear 0)].
Lemma two_sets_legal : Forall (@xlegal nat nat) two_sets. Proof. repeat constructor. Qed.
Example two_sets_frames :
  let r := prun two_sets hstart [] 4000 in let hps := map snd r in
  map (fun x => match fst (fst x) with Ret _ => true | _ => false end) r = repeat true 7 /\
  length (slives (nth 1 hps [])) = 8 /\
  ssame (nth 1 hps []) (nth 3 hps []) = repeat true 8 /\        (* the lazy iterator and is_subset: everything is as it was *)
  length (slives (nth 4 hps [])) = 13 /\
  ssame (nth 1 hps []) (nth 4 hps []) = repeat true 8 /\        (* the operands of | *)
  ssame (nth 1 hps []) (nth 5 hps []) = repeat true 8 /\        (* the operands of -, after the old set 2 is dropped *)
  length (filter negb (ssame (nth 5 hps []) (nth 6 hps []))) = 4. (* only 0 is cleared *)
Proof. vm_compute. repeat split. Qed.
Example two_sets_framed : xframes [] hstart [] two_sets (prun two_sets hstart [] 4000).
Proof. apply C60_set_frames; [apply place_reuse_fresh|exact two_sets_legal]. Qed.
