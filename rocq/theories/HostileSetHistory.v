(** * HostileSetHistory: every step of a program over sets on raw memory. *)
From Coq Require Import List Arith Lia Bool Permutation.
From Verif Require Import Base IterSpec MapSpec SetSpec BTreeModel BTreeInv BTreeLemmas BTreeSearch BTreeInsert BTreeIterModel BTreeIter BTreeIterProofs BTreeBorder BTreeSplit BTreeCollect BTreeClone.
From Verif Require Import BTreeSetModel HeapModel HeapMapModel HeapArr HeapRep HeapWp HeapRes HeapPart HeapMap HeapEntry HeapIter HeapInto HeapSplit HeapHistory HeapTorn HeapSpec HeapMemory.
From Verif Require Import HistoryModel HistoryProofs HostileModel HostileSpec HostileOps HostileHistory HostileSetModel HostileSetSpec HostileSets HostileSetOps.
Import ListNotations.
Set Implicit Arguments.
Unset Strict Implicit.

Section Generic.
  Variables (T Q W : Type) (nalloc : bool -> W -> option reserve_error * W) (place : heap T unit -> W -> loc).
  Variable tclone : T -> W -> outcome Empty_set T * W.
  Variables (kcmp : T -> T -> asks W comparison) (sc : Prop).
  Variables (qcmp : Q -> T -> asks W comparison) (qeq qgt : Q -> Q -> asks W bool) (view : bound_ Q -> asks W (bound_ Q)).
  Variables (eqb : T * unit -> T * unit -> asks W bool) (pcmp : T * unit -> T * unit -> asks W (option comparison)).
  Hypothesis Ck : forall a b, calm sc (kcmp a b).
  Notation heap := (heap T unit).
  Notation bmap := (bmap T unit).
  Notation src := (src T unit).
  Notation res := (res T unit).
  Variable R : T -> T -> comparison -> Prop.
  Hypothesis HR : forall a b w c w', kcmp a b w = (Some c, w') -> R a b c.
  (** the order that explains the lists *)
  Variable c0 : T -> T -> comparison.
  Notation Inv := (valid (V := unit) c0).
  Variable Cn : T -> list T -> bool -> Prop.
  Hypothesis HC : forall x m2 (m1 : bmap) s hp, mrep m2 m1 s -> own hp (sres s) -> Inv m1 ->
    reads sc (hs_contains kcmp x m2) hp (Cn x (map fst (entries m1))).
  Hypothesis (R_total : forall x y, exists c, R x y c) (C_total : forall x B, exists c, Cn x B c).
  Variable Ins : T -> list (T * unit) -> list (T * unit) -> Prop.
  Hypothesis HI : forall y m2 (m1 : bmap) s hp w, mrep m2 m1 s -> own hp (sres s) -> Inv m1 ->
    inserts nalloc sc Inv Ins (hx_try_insert nalloc place kcmp y tt m2 hp w) y m1 s hp.
  Hypothesis Ins_len : forall y l l', Ins y l l' -> length l' <= S (length l).
  Notation xstep := (xstep kcmp nalloc place tclone qcmp qeq qgt view eqb pcmp).
  Notation future := (future R Cn).
  Notation no_memory := (no_memory nalloc).
  Notation state := (nat -> list (T * unit)).

  Definition xgen (c : xop T Q) (S : state) (o : outcome reserve_error (xobs T)) (S' : state) : Prop :=
    match c with
    | XMap _ => False
    | XLazy k r t n m =>
        (exists l lo hi, future (first_view k (elements S r) (elements S t)) l /\
           o = Ret (XItems (delivered n l) lo hi (delivered m (skipn n l))) /\ lo <= length (skipn n l) <= hi /\ is S S') \/
        (sc /\ o = Panic /\ is S S')
    | XSubset r t =>
        (exists b, o = Ret (XBool b) /\ subset_view R Cn (elements S r) (elements S t) b /\ is S S') \/ (sc /\ o = Panic /\ is S S')
    | XSuperset r t =>
        (exists b, o = Ret (XBool b) /\ subset_view R Cn (elements S t) (elements S r) b /\ is S S') \/ (sc /\ o = Panic /\ is S S')
    | XDisjoint r t =>
        (exists l, future (first_view Intersection (elements S r) (elements S t)) l /\
           o = Ret (XBool (match l with [] => true | _ => false end)) /\ is S S') \/ (sc /\ o = Panic /\ is S S')
    | XOperator k r t u =>
        (exists l l' new, future (first_view k (elements S r) (elements S t)) l /\ Forall2 (clones tclone) l l' /\ builds Ins l' [] new /\
           o = Ret XUnit /\ is (put S u new) S') \/
        (o = Panic /\ (sc \/ exists e, no_memory e) /\ is S S') \/
        (exists u, clone_ends tclone u /\ (forall a, u <> Ret a) /\ o = omap (fun _ => XUnit) (HistoryModel.cast u) /\ is S S')
    | XCollect r l =>
        (exists new, builds Ins l [] new /\ o = Ret XUnit /\ is (put S r new) S') \/
        (o = Panic /\ (sc \/ exists e, no_memory e) /\ is S S')
    end.
  Definition xup (c : xop T Q) (S : state) (o : outcome reserve_error (xobs T)) : Prop :=
    match c with
    | XOperator _ r t _ => o = UB /\ (exists e, no_memory e) /\ 12 <= length (S r) + length (S t)
    | XCollect _ l => o = UB /\ (exists e, no_memory e) /\ 12 <= length l
    | _ => False
    end.
  Definition gokay (c : xop T Q) (S : state) (hp : heap) (rs : list res) (x : outcome reserve_error (xobs T) * hregs * heap * W) : Prop :=
    let '(o, s2', hp', _) := x in
    (exists S', xgen c S o S' /\
       (o = Abort \/ o = UB \/ exists s1' ss' rs', reps s2' s1' ss' /\ held ss' rs' /\ goes hp rs hp' rs' /\ rep c0 s1' S')) \/
    xup c S o.

  Section Step.
    Variables (s1 : regs T unit) (s2 : hregs) (ss : nat -> src) (rs : list res) (hp : heap) (S : state).
    Hypothesis (Rp : reps s2 s1 ss) (H : held ss rs) (O : own hp rs) (RS : rep c0 s1 S).
    Notation FP := (fun s => exists r, s = ss r).

    Lemma fp_in (s : src) : FP s -> exists rest, Permutation rs (sres s ++ rest).
    Proof using H. clear - H. intros [r ->]. destruct (held_focus r H) as (rest & P & _). eauto. Qed.
    Lemma bears_reg r : bears Inv FP hp (s2 r) (elements S r).
    Proof using Rp H O RS.
      clear - Rp H O RS. exists (s1 r), (ss r). split; [exact (Rp r)|]. split; [split; [eauto|exact (own_reg H O r)]|]. destruct (RS r) as [Hv E]. split; [exact Hv|].
      unfold elements. now rewrite E.
    Qed.
    Lemma valid_sound (m : bmap) : Inv m -> sound m.
    Proof using. intros [Hs _]. exact Hs. Qed.
    Lemma valid_new : Inv new.
    Proof using. split; [apply new_sound|constructor]. Qed.

    Lemma g_same c o (w : W) : xgen c S o S -> gokay c S hp rs (o, s2, hp, w).
    Proof using Rp H O RS.
      intros X. left. exists S. split; [exact X|]. right. right. exists s1, ss, rs. split; [exact Rp|]. split; [exact H|]. split; [now apply goes_refl|exact RS].
    Qed.
    Lemma g_reads c (m : heap -> W -> outcome reserve_error (xobs T) * heap * W) (w : W) (P : xobs T -> Prop) :
      reads sc m hp P -> (forall x, P x -> xgen c S (Ret x) S) -> (sc -> xgen c S Panic S) -> gokay c S hp rs (xread m s2 hp w).
    Proof using Rp H O RS.
      intros M HP HS. destruct (M w) as (o & w' & E & Ho). unfold xread. rewrite E. apply g_same. destruct o; try contradiction; auto.
    Qed.
    (** [u = set] *)
    Lemma g_assign CE c u n P x : built (W := W) nalloc sc Inv CE P n new None hp x ->
      (forall l, P l -> xgen c S (Ret XUnit) (put S u l)) -> (sc \/ (exists e, no_memory e) \/ CE Panic -> xgen c S Panic S) ->
      ((exists e, no_memory e) -> 12 <= n -> xup c S UB) ->
      (CE Abort -> xgen c S Abort S) -> (CE UB -> xgen c S UB S) ->
      gokay c S hp rs (xassign u x s2).
    Proof using Rp H O RS.
      intros (o & m2' & m1' & s' & lost & hp' & w' & -> & M) HP HN HU HA HB. unfold xassign. cbn [sres app] in M.
      destruct o as [a|e| | |]; try contradiction.
      - destruct M as (M & G & -> & I & Pl). rewrite app_nil_r in G. pose proof (goes_add G (own_reg H O u)) as G1.
        assert (own hp' (sres (ss u))) as Ou by (pose proof (go_own G1) as Q0; apply own_app in Q0; apply Q0).
        destruct (RS u) as [Hu _]. pose proof (valid_sound Hu) as ((_ & Hk) & _ & Hl).
        destruct (drop_m (Rp u) Ou) as (l & fr & _ & Wp); [eapply kids_weaken; [|exact Hk]; now unfold any|exact Hl|].
        unfold wp in Wp. destruct (h_drop (s2 u) hp') as [[r hp'']|]; [|contradiction]. destruct Wp as [_ G2].
        pose proof (goes_trans G1 (goes_snd G2 (go_own G1))) as G3. rewrite !app_nil_r in G3.
        left. exists (put S u (entries m1')). split; [apply HP, Pl|]. right. right. destruct (held_focus u H) as (rest & Pm & Hh).
        exists (upd s1 u m1'), (upd ss u s'), (sres s' ++ rest). split; [|split; [apply Hh|split]].
        + intros i. unfold hup_, upd. destruct (i =? u); [exact M|apply Rp].
        + eapply goes_perm; [symmetry; exact Pm|reflexivity|]. apply goes_fst; [exact G3|]. exact (own_perm Pm O).
        + intros i. unfold upd, put. destruct (i =? u); [auto|apply RS].
      - destruct M as (M & G & M2). destruct M2 as [(Hc & -> & Hs)|(Hm & Hn & Hd)].
        + rewrite app_nil_r in G. destruct Hs as ((_ & Hk) & _ & Hl).
          destruct (drop_m M (go_own G)) as (l & fr & _ & Wp); [eapply kids_weaken; [|exact Hk]; now unfold any|exact Hl|].
          unfold wp in Wp. destruct (h_drop m2' hp') as [[r hp'']|]; [|contradiction]. destruct Wp as [_ G2]. pose proof (goes_trans G G2) as G3.
          left. exists S. split; [apply HN, Hc|]. right. right. exists s1, ss, rs. split; [exact Rp|]. split; [exact H|]. split; [exact (goes_add G3 O)|exact RS].
        + cbn [entries] in Hn. change (length (entries (@new T unit))) with 0 in Hn. cbn [plus] in Hn.
          pose proof (go_own G) as Ol. apply own_app in Ol as (Ol & _ & _). rewrite (h_drop_damaged M Ol Hd). right. apply HU; auto.
      - left. exists S. cbn [pass]. split; [auto|]. now left.
      - left. exists S. cbn [pass]. split; [auto|]. right. now left.
    Qed.
    Lemma own_nil (hp0 : heap) : own hp0 [].
    Proof using. clear. constructor; constructor. Qed.
    Lemma is_refl_ (S0 : state) : is S0 S0.
    Proof using. clear. intros i. reflexivity. Qed.

    Lemma step_g c (w : W) : (forall c', c <> XMap c') -> gokay c S hp rs (xstep c s2 hp w).
    Proof using Ck HR HC R_total C_total HI Ins_len Rp H O RS.
      intros Nm. destruct c as [c|k r t n m|r t|r t|r t|k r t u|r l]; cbn [HostileSetModel.xstep].
      - now destruct (Nm c).
      - eapply g_reads.
        + exact (@lazy_obs_r T W kcmp sc Ck R HR Inv valid_sound Cn HC FP R_total C_total hp k (s2 r) (s2 t) _ _ n m (bears_reg r) (bears_reg t)).
        + intros x (l & lo & hi & F & -> & B). left. exists l, lo, hi. split; [exact F|]. split; [reflexivity|]. split; [exact B|apply is_refl_].
        + intros Hs. right. split; [exact Hs|]. split; [reflexivity|apply is_refl_].
      - eapply g_reads.
        + apply reads_bind. eapply reads_mono; [exact (@subset_r T W kcmp sc Ck R HR Inv valid_sound Cn HC FP hp _ _ _ _ (bears_reg r) (bears_reg t))|].
          intros b Hb. apply reads_ret. instantiate (1 := fun x => exists b, x = XBool b /\ subset_view R Cn (elements S r) (elements S t) b). cbv beta; eauto.
        + intros x (b & -> & Hb). left. exists b. split; [reflexivity|]. split; [exact Hb|apply is_refl_].
        + intros Hs. right. split; [exact Hs|]. split; [reflexivity|apply is_refl_].
      - eapply g_reads.
        + apply reads_bind. eapply reads_mono; [exact (@subset_r T W kcmp sc Ck R HR Inv valid_sound Cn HC FP hp _ _ _ _ (bears_reg t) (bears_reg r))|].
          intros b Hb. apply reads_ret. instantiate (1 := fun x => exists b, x = XBool b /\ subset_view R Cn (elements S t) (elements S r) b). cbv beta; eauto.
        + intros x (b & -> & Hb). left. exists b. split; [reflexivity|]. split; [exact Hb|apply is_refl_].
        + intros Hs. right. split; [exact Hs|]. split; [reflexivity|apply is_refl_].
      - eapply g_reads.
        + apply reads_bind. eapply reads_mono; [exact (@disjoint_r T W kcmp sc Ck R HR Inv valid_sound Cn HC FP hp _ _ _ _ (future_total R_total C_total) (bears_reg r) (bears_reg t))|].
          intros b (l & F & ->). apply reads_ret.
          instantiate (1 := fun x => exists l, future (first_view Intersection (elements S r) (elements S t)) l /\ x = XBool (match l with [] => true | _ => false end)). cbv beta; eauto.
        + intros x (l & F & ->). left. exists l. split; [exact F|]. split; [reflexivity|apply is_refl_].
        + intros Hs. right. split; [exact Hs|]. split; [reflexivity|apply is_refl_].
      - eapply g_assign.
        + exact (@operator_r T W nalloc place tclone kcmp sc Ck R HR Inv valid_sound valid_new Cn HC R_total C_total Ins HI Ins_len rs FP fp_in hp k _ _ _ _ w O (bears_reg r) (bears_reg t)).
        + intros new (l & l' & F & C & B). left. exists l, l', new. split; [exact F|]. split; [exact C|]. split; [exact B|]. split; [reflexivity|apply is_refl_].
        + intros [Hs|[Hm|Hc]].
          * right. left. split; [reflexivity|]. split; [now left|apply is_refl_].
          * right. left. split; [reflexivity|]. split; [now right|apply is_refl_].
          * right. right. exists Panic. split; [exact Hc|]. split; [discriminate|]. split; [reflexivity|apply is_refl_].
        + intros Hm Hn. cbn [xup]. split; [reflexivity|]. split; [exact Hm|]. unfold elements in Hn. rewrite !map_length in Hn. exact Hn.
        + intros Hc. right. right. exists Abort. split; [exact Hc|]. split; [discriminate|]. split; [reflexivity|apply is_refl_].
        + intros Hc. right. right. exists UB. split; [exact Hc|]. split; [discriminate|]. split; [reflexivity|apply is_refl_].
      - eapply g_assign.
        + exact (@from_r T W nalloc place kcmp sc Inv valid_sound Ins HI Ins_len l h_new new None hp w (mrep_new T unit) (own_nil hp) valid_new).
        + intros new B. left. exists new. split; [exact B|]. split; [reflexivity|apply is_refl_].
        + intros [Hs|[Hm|[]]].
          * right. split; [reflexivity|]. split; [now left|apply is_refl_].
          * right. split; [reflexivity|]. split; [now right|apply is_refl_].
        + intros Hm Hn. cbn [xup]. auto.
        + intros [].
        + intros [].
    Qed.
  End Step.
End Generic.

(** ** What the deliveries have in common whatever the answers *)
Section Lists.
  Variables (T : Type) (R : T -> T -> comparison -> Prop) (Cn : T -> list T -> bool -> Prop).
  Implicit Types (l A B : list T).
  Lemma subseq_nil A : subseq [] A.
  Proof. induction A; constructor; auto. Qed.
  Lemma dif_subseq A B l : dif R A B l -> subseq l A.
  Proof. induction 1; try (constructor; auto; fail). exact IHdif. Qed.
  Lemma pick_subseq keep B A l : pick Cn keep B A l -> subseq l A.
  Proof. induction 1; constructor; auto. Qed.
  Lemma inter_subseq A B l : inter R A B l -> subseq l A.
  Proof. induction 1; try (constructor; auto; fail); auto using subseq_nil. Qed.
  Lemma sym_cancelled A B l : sym R A B l -> cancelled A B l.
  Proof.
    induction 1; try (constructor; auto; fail).
    - induction B; constructor; auto.
    - induction A; constructor; auto.
  Qed.
  Lemma uni_united A B l : uni R A B l -> united A B l.
  Proof.
    induction 1; try (constructor; auto; fail).
    - induction B; constructor; auto.
    - induction A; constructor; auto.
  Qed.
  Lemma first_combines k A B l : future R Cn (first_view k A B) l -> combines k A B l.
  Proof.
    unfold first_view, combines. destruct k.
    - destruct (length B / 16 <? length A) eqn:E; cbn [future]; intros F.
      + split; [exact (dif_subseq F)|apply dif_count in F; lia].
      + split; [exact (pick_subseq F)|]. apply Nat.ltb_ge in E. pose proof (Nat.div_le_upper_bound (length B) 16 (length B)). lia.
    - apply sym_cancelled.
    - destruct (length A <=? length B); destruct (_ <? _); cbn [future]; eauto using inter_subseq, pick_subseq.
    - apply uni_united.
  Qed.
  Lemma first_empty A B l : A = [] \/ B = [] -> future R Cn (first_view Intersection A B) l -> l = [].
  Proof.
    intros H F. apply first_combines in F. cbn [combines] in F. destruct (length A <=? length B) eqn:E.
    - apply Nat.leb_le in E. assert (A = []) as -> by (destruct H as [-> | ->]; [reflexivity|destruct A; cbn in E; [reflexivity|lia]]). now inversion F.
    - apply Nat.leb_gt in E. assert (B = []) as -> by (destruct H as [-> | ->]; [destruct B; cbn in E; [reflexivity|lia]|reflexivity]). now inversion F.
  Qed.
  Lemma subset_nil B b : subset_view R Cn [] B b -> b = true.
  Proof.
    unfold subset_view. cbn [length]. destruct (length B <? 0) eqn:E1; [apply Nat.ltb_lt in E1; lia|]. destruct (_ <? _); intros F; now inversion F.
  Qed.
  Lemma subset_short A B b : length B < length A -> subset_view R Cn A B b -> b = false.
  Proof. unfold subset_view. intros L. apply Nat.ltb_lt in L. now rewrite L. Qed.
End Lists.

(** ** Comparisons that answer anything *)
Section Hostile.
  Variables (T Q W : Type) (nalloc : bool -> W -> option reserve_error * W) (place : heap T unit -> W -> loc).
  Hypothesis place_fresh : forall hp w, hget hp (place hp w) = None.
  Variable tclone : T -> W -> outcome Empty_set T * W.
  Variables (kcmp : T -> T -> asks W comparison) (sc : Prop).
  Variables (qcmp : Q -> T -> asks W comparison) (qeq qgt : Q -> Q -> asks W bool) (view : bound_ Q -> asks W (bound_ Q)).
  Variables (eqb : T * unit -> T * unit -> asks W bool) (pcmp : T * unit -> T * unit -> asks W (option comparison)).
  Hypotheses (Ck : forall a b, calm sc (kcmp a b)) (Cq : forall a b, calm sc (qcmp a b)) (Ce : forall a b, calm sc (eqb a b)) (Cp : forall a b, calm sc (pcmp a b)).
  Notation heap := (heap T unit).
  Notation bmap := (bmap T unit).
  Notation lt := (fun _ _ : T => Lt).
  Notation yes := (fun (_ _ : T) (_ : comparison) => True).
  Notation perhaps := (fun (_ : T) (_ : list T) (_ : bool) => True).
  Definition placed_in (y : T) (l l' : list (T * unit)) : Prop := exists old, inserted y tt l old l'.
  Notation xstep := (xstep kcmp nalloc place tclone qcmp qeq qgt view eqb pcmp).
  Notation xkclone := (xkclone (T := T) (W := W) tclone).
  Notation xvclone := (@xvclone W).
  Notation no_memory := (no_memory nalloc).
  Notation state := (nat -> list (T * unit)).
  Notation xloose := (xloose (T := T) (Q := Q) no_memory (clones tclone) (clone_ends tclone) (clone_fails nalloc xkclone xvclone) sc).
  Notation xgave_up := (xgave_up (T := T) (Q := Q) no_memory sc).

  Lemma any_contains x m2 (m1 : bmap) s (hp : heap) : mrep m2 m1 s -> own hp (sres s) -> valid lt m1 ->
    reads sc (hs_contains kcmp x m2) hp (fun _ => True).
  Proof using Ck.
    intros M O [Hm _]. unfold hs_contains. apply reads_bind. eapply reads_mono; [exact (get_h (fun k => @Ck x k) M O Hm)|]. intros a _. now apply reads_ret.
  Qed.
  Lemma any_insert y m2 (m1 : bmap) s (hp : heap) (w : W) : mrep m2 m1 s -> own hp (sres s) -> valid lt m1 ->
    inserts nalloc sc (valid lt) placed_in (hx_try_insert nalloc place kcmp y tt m2 hp w) y m1 s hp.
  Proof using Ck place_fresh.
    intros M O [Hm _]. destruct (@try_insert_h T unit W nalloc place place_fresh sc kcmp Ck y tt _ _ _ hp w M O Hm) as (o & m2' & m1' & s' & lost & hp' & w' & E & M' & G & Ho).
    exists o, m2', m1', s', lost, hp', w'. split; [exact E|]. split; [exact M'|]. split; [exact G|]. destruct o as [a|e| | |]; auto.
    - destruct Ho as (-> & Hs & Hi). split; [reflexivity|]. split; [exact (lt_valid Hs)|]. now exists a.
    - destruct Ho as (Hr & [(-> & Hs & _)|Hn]); (split; [exact Hr|]); [left; auto|right; exact Hn].
    - destruct Ho as (Hc & -> & Hs & _). auto.
  Qed.
  Lemma placed_len y l l' : placed_in y l l' -> length l' <= S (length l).
  Proof using. clear. intros [old X]. destruct X; rewrite !app_length; cbn [length]; lia. Qed.
  Lemma builds_all xs : forall l l', builds placed_in xs l l' -> inserted_all (plain xs) l l'.
  Proof using. clear. induction 1 as [|x xs l l1 l2 [old X] B IH]; [constructor|]. econstructor; eauto. Qed.

  Definition xokay (c : xop T Q) (S : state) (hp : heap) (rs : list (res T unit)) (x : outcome reserve_error (xobs T) * hregs * heap * W) : Prop :=
    let '(o, s2', hp', _) := x in
    (exists S', xloose c S o S' /\
       (o = Abort \/ o = UB \/ exists s1' ss' rs', reps s2' s1' ss' /\ held ss' rs' /\ goes hp rs hp' rs' /\ rep lt s1' S')) \/
    xgave_up c S o s2' hp'.

  Lemma gen_loose c S o S' : xgen nalloc tclone sc yes perhaps placed_in c S o S' -> xloose c S o S'.
  Proof using.
    clear. destruct c as [c|k r t n m|r t|r t|r t|k r t u|r l]; cbn [xgen HostileSetSpec.xloose].
    - contradiction.
    - intros [(l & lo & hi & F & X)|X]; [left|now right]. exists l, lo, hi. split; [exact (first_combines F)|exact X].
    - intros [(b & -> & F & X)|X]; [left|now right]. exists b. split; [reflexivity|]. split; [|split; [|exact X]].
      + intros E. unfold elements in F. rewrite E in F. exact (subset_nil F).
      + intros E. eapply subset_short; [|exact F]. unfold elements. now rewrite !map_length.
    - intros [(b & -> & F & X)|X]; [left|now right]. exists b. split; [reflexivity|]. split; [|split; [|exact X]].
      + intros E. unfold elements in F. rewrite E in F. exact (subset_nil F).
      + intros E. eapply subset_short; [|exact F]. unfold elements. now rewrite !map_length.
    - intros [(l & F & -> & X)|X]; [left|now right]. eexists. split; [reflexivity|]. split; [|exact X]. intros E.
      assert (l = []) as ->; [|reflexivity]. eapply first_empty; [|exact F]. unfold elements. destruct E as [-> | ->]; auto.
    - intros [(l & l' & new & F & C & B & X)|X]; [left|now right]. exists l, l', new. split; [exact (first_combines F)|]. split; [exact C|]. split; [exact (builds_all B)|exact X].
    - intros [(new & B & X)|X]; [left|now right]. exists new. split; [exact (builds_all B)|exact X].
  Qed.
  Lemma loose_copy c S o S' : loose no_memory (cloned xkclone xvclone) (clone_fails nalloc xkclone xvclone) sc c S o S' ->
    loose (Q := Q) no_memory (fun x y => clones tclone (fst x) (fst y)) (clone_fails nalloc xkclone xvclone) sc c S o S'.
  Proof using.
    clear. assert (forall l l' : list (T * unit), Forall2 (cloned xkclone xvclone) l l' -> Forall2 (fun x y => clones tclone (fst x) (fst y)) l l') as X.
    { induction 1 as [|x y l l' [(w & w' & E) _] F IH]; constructor; auto. unfold HostileSetModel.xkclone in E. destruct (tclone (fst x) w) as [oc w1] eqn:Ec.
      exists w, w'. destruct oc; cbn in E; try discriminate E; try (destruct e). now inversion E; subst. }
    destruct c; auto; cbn [loose]; intros [(-> & l & F & Y)|Y]; [left|right; exact Y|left|right; exact Y]; (split; [reflexivity|]); exists l; auto.
  Qed.

  Section Step.
    Variables (s1 : regs T unit) (s2 : hregs) (ss : nat -> src T unit) (rs : list (res T unit)) (hp : heap) (S : state).
    Hypothesis (Rp : reps s2 s1 ss) (H : held ss rs) (O : own hp rs) (RS : rep lt s1 S) (X : exact_heap hp rs).
    Lemma other_x c (w : W) : (forall c', c <> XMap c') -> xokay c S hp rs (xstep c s2 hp w).
    Proof using Ck place_fresh Rp H O RS.
      intros L.
      pose proof (@step_g T Q W nalloc place tclone kcmp sc qcmp qeq qgt view eqb pcmp Ck yes (fun _ _ _ _ _ _ => I) lt perhaps any_contains
        (fun _ _ => ex_intro _ Eq I) (fun _ _ => ex_intro _ true I) placed_in any_insert placed_len s1 s2 ss rs hp S Rp H O RS c w L) as Y.
      destruct (xstep c s2 hp w) as [[[o s2'] hp'] w']. destruct Y as [(S' & G & Y)|Y]; [left; exists S'; split; [exact (gen_loose G)|exact Y]|right].
      destruct c; try contradiction; exact Y.
    Qed.
    Lemma step_x c (w : W) : xlegal c -> xokay c S hp rs (xstep c s2 hp w).
    Proof using Ck Cq Ce Cp place_fresh Rp H O RS X.
      intros L. destruct c as [c|k r t n m|r t|r t|r t|k r t u|r l].
      - cbn [HostileSetModel.xstep]. cbn [xlegal] in L.
        assert (okay nalloc xkclone xvclone sc c S hp rs (hxstep nalloc place kcmp qcmp qeq qgt view xkclone xvclone eqb pcmp c s2 hp w)) as Ok by (eapply step_o; eassumption).
        destruct (hxstep nalloc place kcmp qcmp qeq qgt view xkclone xvclone eqb pcmp c s2 hp w) as [[[o s2'] hp'] w'].
        destruct Ok as [(S' & HS & Ok)|(HG & s1' & ss' & rs' & lost & R' & H' & G & _)].
        + left. exists S'. split; [exists o; split; [exact (loose_copy HS)|reflexivity]|]. destruct Ok as [-> |[-> |Ok]]; auto.
        + right. exists o. split; [exact HG|]. split; [reflexivity|]. exact (torn_ok R' H' (go_own G) (goes_exact G X)).
      - exact (other_x (c := XLazy k r t n m) w ltac:(discriminate)).
      - exact (other_x (c := XSubset r t) w ltac:(discriminate)).
      - exact (other_x (c := XSuperset r t) w ltac:(discriminate)).
      - exact (other_x (c := XDisjoint r t) w ltac:(discriminate)).
      - exact (other_x (c := XOperator k r t u) w ltac:(discriminate)).
      - exact (other_x (c := XCollect r l) w ltac:(discriminate)).
    Qed.
  End Step.
End Hostile.
