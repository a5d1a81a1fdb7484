(** * LawfulSets: every step of a program over sets on raw memory, when the
    order of the elements is a total order. *)
From Coq Require Import List Arith Lia Bool Permutation Sorted.
From Verif Require Import Base IterSpec MapSpec SetSpec SpecFacts BTreeModel BTreeInv BTreeLemmas BTreeSearch BTreeInsert BTreeOps BTreeSets BTreeIterModel BTreeIter BTreeIterProofs BTreeBorder BTreeSplit BTreeCollect BTreeClone.
From Verif Require Import BTreeSetModel HeapModel HeapMapModel HeapArr HeapRep HeapWp HeapRes HeapPart HeapMap HeapEntry HeapIter HeapInto HeapSplit HeapHistory HeapSpec HeapMemory.
From Verif Require Import HistoryModel HistorySpec HistoryProofs Properties_History SetHistorySpec SetHistoryProofs Properties_Heap.
From Verif Require Import HostileModel HostileOps HostileHistory HostilePure HostileSetModel HostileSetSpec HostileSets HostileSetOps HostileSetHistory LawfulSetSpec.
Import ListNotations.
Set Implicit Arguments.
Unset Strict Implicit.

Section Lists.
  Variables (T : Type) (cmp : T -> T -> comparison).
  Hypothesis laws : ord_laws cmp.
  Implicit Types (A B l : list T).
  Notation R := (fun x y c => c = cmp x y).
  Notation Cn := (fun x B c => c = memb cmp x B).

  Lemma below_eq x y A : cmp x y = Eq -> Forall (fun z => cmp x z = Lt) A -> Forall (fun z => cmp y z = Lt) A.
  Proof. intros E. apply (asc_below laws). right. now apply (cmp_eq_sym_ laws). Qed.
  Lemma below_gt x y A : cmp x y = Gt -> Forall (fun z => cmp x z = Lt) A -> Forall (fun z => cmp y z = Lt) A.
  Proof. intros E. apply (asc_below laws). left. now apply (cmp_gt_lt laws). Qed.
  Lemma dif_lawful A B l : dif R A B l -> ascending cmp A -> ascending cmp B -> l = diffl cmp A B.
  Proof.
    induction 1 as [B|x A l D IH|x A y B l E D IH|x A y B l E D IH|x A y B l E D IH]; intros HA HB; auto.
    - rewrite IH by (auto; apply (asc_cons HA)). now rewrite !diffl_nil.
    - destruct (asc_cons HA) as [HA1 _]. rewrite diff_cons, (@memb_lt _ _ laws x y B (eq_sym E) HB). now rewrite IH.
    - destruct (asc_cons HA) as [HA1 HA2]. destruct (asc_cons HB) as [HB1 _]. rewrite diff_cons, (@memb_eq _ cmp x y B (eq_sym E)).
      rewrite (diffl_skip laws) by (auto; exact (below_eq (eq_sym E) HA2)). now apply IH.
    - destruct (asc_cons HA) as [HA1 HA2]. destruct (asc_cons HB) as [HB1 _].
      rewrite (diffl_skip laws); auto. constructor; [now apply (cmp_gt_lt laws)|exact (below_gt (eq_sym E) HA2)].
  Qed.
  Lemma inter_lawful A B l : inter R A B l -> ascending cmp A -> ascending cmp B -> l = interl cmp A B.
  Proof.
    induction 1 as [B|A|x A y B l E D IH|x A y B l E D IH|x A y B l E D IH]; intros HA HB; auto.
    - now rewrite interl_nil.
    - destruct (asc_cons HA) as [HA1 _]. rewrite inter_cons, (@memb_lt _ _ laws x y B (eq_sym E) HB). now rewrite IH.
    - destruct (asc_cons HA) as [HA1 HA2]. destruct (asc_cons HB) as [HB1 _]. rewrite inter_cons, (@memb_eq _ cmp x y B (eq_sym E)).
      rewrite (interl_skip laws) by (auto; exact (below_eq (eq_sym E) HA2)). f_equal. now apply IH.
    - destruct (asc_cons HA) as [HA1 HA2]. destruct (asc_cons HB) as [HB1 _].
      rewrite (interl_skip laws); auto. constructor; [now apply (cmp_gt_lt laws)|exact (below_gt (eq_sym E) HA2)].
  Qed.
  Lemma sym_lawful A B l : sym R A B l -> l = syml cmp A B.
  Proof.
    induction 1 as [B|A|x A y B l E D IH|x A y B l E D IH|x A y B l E D IH]; rewrite ?syml_nil_l, ?syml_nil_r, ?syml_cons, <- ?E; congruence.
  Qed.
  Lemma uni_lawful A B l : uni R A B l -> l = unionl cmp A B.
  Proof.
    induction 1 as [B|A|x A y B l E D IH|x A y B l E D IH|x A y B l E D IH]; rewrite ?unionl_nil_l, ?unionl_nil_r, ?unionl_cons, <- ?E; congruence.
  Qed.
  Lemma pick_lawful keep B A l : pick Cn keep B A l -> l = filter (fun x => Bool.eqb (memb cmp x B) keep) A.
  Proof.
    induction 1 as [|x A l c E Ek D IH|x A l c E Ek D IH]; auto; cbn [filter]; subst c.
    - now rewrite Ek, Bool.eqb_reflx, IH.
    - destruct (Bool.eqb (memb cmp x B) keep) eqn:Ex; [apply Bool.eqb_prop in Ex; congruence|auto].
  Qed.
  Lemma within_lawful A B b : within R A B b -> ascending cmp A -> ascending cmp B -> b = subl cmp A B.
  Proof.
    assert (forall y B l, Forall (fun z => cmp y z = Lt) l -> subl cmp l B = subl cmp l (y :: B)) as SK.
    { intros y B0 l. unfold subl. induction 1 as [|z l Hz HF IHF]; cbn [forallb]; auto. rewrite IHF, (@memb_gt _ cmp z y B0); auto. apply (cmp_gt_lt laws); auto. }
    induction 1 as [B|x A|x A y B b E D IH|x A y B E|x A y B b E D IH]; intros HA HB; auto.
    - destruct (asc_cons HA) as [HA1 HA2]. destruct (asc_cons HB) as [HB1 _].
      rewrite <- SK; [now apply IH|]. constructor; [auto|]. eapply (asc_below laws); [left; symmetry; exact E|auto].
    - unfold subl. cbn [forallb]. rewrite (@memb_lt _ _ laws _ _ _ (proj1 (cmp_gt_lt laws _ _) (eq_sym E)) HB). reflexivity.
    - destruct (asc_cons HA) as [HA1 HA2]. destruct (asc_cons HB) as [HB1 _].
      assert (subl cmp (x :: A) (y :: B) = subl cmp A (y :: B)) as ->.
      { unfold subl. cbn [forallb]. rewrite (@memb_eq _ cmp x y B); [reflexivity|]. apply (cmp_eq_sym_ laws). auto. }
      rewrite <- SK; [now apply IH|]. eapply (asc_below laws); [right; symmetry; exact E|auto].
  Qed.
  Lemma within__lawful B A b : within_ Cn B A b -> b = subl cmp A B.
  Proof.
    induction 1 as [|x A b E D IH|x A E]; auto; unfold subl in *; cbn [forallb].
    - now rewrite <- E, IH.
    - now rewrite <- E.
  Qed.

  Lemma diffl_all A B : ascending cmp A -> all_with cmp (minus cmp A B) (diffl cmp A B).
  Proof. intros HA. split; [now apply asc_filter|]. intros x. apply diffl_In. Qed.
  Lemma interl_all A B : ascending cmp A -> all_with cmp (fun x => In x A /\ member cmp x B) (interl cmp A B).
  Proof. intros HA. split; [now apply asc_filter|]. intros x. apply interl_In. Qed.
  Lemma common_all A B l : (if length A <=? length B then all_with cmp (fun x => In x A /\ member cmp x B) l else all_with cmp (fun x => In x B /\ member cmp x A) l) ->
    all_with cmp (belongs cmp Intersection A B) l.
  Proof. intros H. split; [destruct (_ <=? _); apply H|]. intros x. cbn [belongs]. unfold common. destruct (length A <=? length B); apply H. Qed.
  Lemma first_lawful k A B l : future R Cn (first_view k A B) l -> ascending cmp A -> ascending cmp B -> all_with cmp (belongs cmp k A B) l.
  Proof.
    unfold first_view. intros F HA HB. destruct k; cbn [belongs].
    - destruct (_ <? _); cbn [future] in F.
      + rewrite (dif_lawful F HA HB). now apply diffl_all.
      + apply pick_lawful in F. subst l. erewrite filter_ext; [apply (@diffl_all A B HA)|]. intros x. cbv beta. now destruct (memb cmp x B).
    - cbn [future] in F. apply sym_lawful in F. subst l. destruct (@syml_spec _ _ laws _ A B (le_n _) HA HB) as (H1 & H2 & _). split; auto.
    - apply common_all. destruct (length A <=? length B); (destruct (_ <? _); cbn [future] in F).
      + rewrite (inter_lawful F HA HB). now apply interl_all.
      + apply pick_lawful in F. subst l. erewrite filter_ext; [apply (@interl_all A B HA)|]. intros x. cbv beta. now destruct (memb cmp x B).
      + rewrite (inter_lawful F HB HA). now apply interl_all.
      + apply pick_lawful in F. subst l. erewrite filter_ext; [apply (@interl_all B A HB)|]. intros x. cbv beta. now destruct (memb cmp x A).
    - cbn [future] in F. apply uni_lawful in F. subst l. destruct (@unionl_spec _ _ laws _ A B (le_n _) HA HB) as (H1 & H2 & _). split; auto.
  Qed.
  Lemma subset_lawful A B b : subset_view R Cn A B b -> ascending cmp A -> ascending cmp B -> (b = true <-> forall x, In x A -> member cmp x B).
  Proof.
    unfold subset_view. intros F HA HB. destruct (length B <? length A) eqn:E.
    - subst b. split; [discriminate|]. intros H. apply Nat.ltb_lt in E. pose proof (@sub_length _ _ laws A B HA HB H). lia.
    - destruct (length B / 16 <? length A).
      + rewrite (within_lawful F HA HB). apply subl_ok.
      + apply within__lawful in F. subst b. apply subl_ok.
  Qed.
  Lemma disjoint_lawful A B l : future R Cn (first_view Intersection A B) l -> ascending cmp A -> ascending cmp B ->
    ((match l with [] => true | _ => false end) = true <-> forall x, In x A -> ~ member cmp x B).
  Proof.
    intros F HA HB. destruct (first_lawful F HA HB) as [_ HI]. cbn [belongs] in HI. unfold common in HI. clear F.
    assert ((match l with [] => true | _ => false end) = true <-> l = []) as -> by (destruct l; split; congruence).
    split.
    - intros -> x Hx (y & Hy & Ey). destruct (length A <=? length B).
      + apply (HI x). split; [auto|]. exists y. auto.
      + apply (HI y). split; [auto|]. exists x. split; [auto|]. now apply (cmp_eq_sym_ laws).
    - intros H. destruct l as [|x l]; [reflexivity|]. exfalso. assert (In x (x :: l)) as Hx by now left. apply HI in Hx.
      destruct (length A <=? length B); destruct Hx as [H1 H2]; [now apply (H x)|]. destruct H2 as (y & Hy & Ey). apply (H y); [auto|]. exists x. split; [auto|]. now apply (cmp_eq_sym_ laws).
  Qed.

  (** a set built of the copies of an ascending list *)
  Lemma copies_asc (copy : T -> T -> Prop) : (forall x y, copy x y -> cmp x y = Eq) -> forall l l', Forall2 copy l l' -> ascending cmp l -> ascending cmp l'.
  Proof.
    intros HC. induction 1 as [|x y l l' Hx F IH]; intros HL; [constructor|]. destruct (asc_cons HL) as [H1 H2].
    constructor; [exact (IH H1)|]. apply HC in Hx. clear IH HL H1. induction F as [|x2 y2 l l' Hy F IH]; constructor.
    - inversion H2 as [|? ? H3 _]; subst. apply HC in Hy. rewrite <- (cmp_eq_l laws _ _ _ Hx), <- (@cmp_eq_r _ _ laws _ _ _ Hy). exact H3.
    - apply IH. now inversion H2.
  Qed.
  Lemma builds_asc l : forall (pre : list T) (new : list (T * unit)), builds (fun y (l l' : list (T * unit)) => l' = s_insert cmp y tt l) l (plain pre) new -> ascending cmp (pre ++ l) -> new = plain (pre ++ l).
  Proof.
    induction l as [|x l IH]; intros pre new B HA; inversion B; subst.
    - now rewrite app_nil_r.
    - assert (s_insert cmp x tt (plain pre) = plain (pre ++ [x])) as E.
      { unfold plain. rewrite map_app. apply (s_insert_last laws). apply Forall_map. cbn [fst]. apply Forall_forall. intros z Hz.
        clear - HA Hz. induction pre as [|a pre IH]; [destruct Hz|].
        cbn [app] in HA. inversion HA as [|? ? H1 H2]; subst. destruct Hz as [->|Hz]; [|auto]. rewrite Forall_forall in H2. apply H2. apply in_or_app. right. now left. }
      rewrite E in *. replace (pre ++ x :: l) with ((pre ++ [x]) ++ l) by (now rewrite <- app_assoc). apply IH; [assumption|]. now rewrite <- app_assoc.
  Qed.
  Lemma builds_fold l : forall s new : list (T * unit), sorted cmp s -> builds (fun y (l l' : list (T * unit)) => l' = s_insert cmp y tt l) l s new -> map fst new = fold_left (fun s x => inserted cmp x s) l (map fst s).
  Proof.
    induction l as [|x l IH]; intros s new Hs B; inversion B; subst; auto. cbn [fold_left]. rewrite <- (insert_inserted laws) by auto.
    apply IH; [now apply s_insert_sorted|assumption].
  Qed.
  Lemma plain_fst (l : list (T * unit)) : plain (map fst l) = l.
  Proof. unfold plain. induction l as [|[x []] l IH]; auto. cbn. now f_equal. Qed.
End Lists.

Section Steps.
  Variables (T Q W : Type) (nalloc : bool -> W -> option reserve_error * W) (place : heap T unit -> W -> loc).
  Hypothesis place_fresh : forall hp w, hget hp (place hp w) = None.
  Variable tclone : T -> W -> outcome Empty_set T * W.
  Variables (cmp : T -> T -> comparison) (qcmp : Q -> Q -> comparison) (borrow : T -> Q).
  Variables (eqb : T * unit -> T * unit -> bool) (pcmp : T * unit -> T * unit -> option comparison).
  Hypothesis laws : ord_laws cmp.
  Hypothesis blaws : borrow_laws cmp qcmp borrow.
  Hypothesis lawful : forall x w y w', tclone x w = (Ret y, w') -> cmp x y = Eq.
  Notation heap := (heap T unit).
  Notation bmap := (bmap T unit).
  Notation kcmp := (fun a b => @tells W _ (cmp a b)).
  Notation R := (fun x y c => c = cmp x y).
  Notation Cn := (fun x B c => c = memb cmp x B).
  Notation Ins := (fun y (l l' : list (T * unit)) => l' = s_insert cmp y tt l).
  Notation xkclone := (xkclone (T := T) (W := W) tclone).
  Notation xvclone := (@xvclone W).
  Notation no_memory := (no_memory nalloc).
  Notation state := (nat -> list (T * unit)).
  Notation xstep := (xstep kcmp nalloc place tclone (fun x k => @tells W _ (qcmp x (borrow k))) (fun x y => @tells W _ (same_ (qcmp x y))) (fun x y => @tells W _ (more_ (qcmp x y))) (fun b => @tells W _ b)
    (fun x y => @tells W _ (eqb x y)) (fun x y => @tells W _ (pcmp x y))).
  Notation xspec := (xspec (T := T) (Q := Q) cmp qcmp borrow eqb pcmp no_memory (HostileSetOps.clones tclone) (clone_ends tclone) (clone_fails nalloc xkclone xvclone)).
  Notation xquits := (xquits (T := T) (Q := Q) cmp no_memory).
  Notation hstep := (hstep nalloc place cmp qcmp borrow xkclone xvclone eqb pcmp).
  Notation step := (step nalloc cmp qcmp borrow xkclone xvclone eqb pcmp).

  Lemma calm_tells A (a : A) : calm False (@tells W _ a).
  Proof using. clear. intros w w' E. discriminate E. Qed.
  Lemma l_contains x m2 (m1 : bmap) s (hp : heap) : mrep m2 m1 s -> own hp (sres s) -> valid cmp m1 ->
    reads False (hs_contains kcmp x m2) hp (fun c => c = memb cmp x (map fst (entries m1))).
  Proof using laws.
    intros M O Hv. pose proof Hv as [((_ & Hk) & _ & Hl) _].
    pose proof (@get_m T unit (cmp x) m2 m1 s hp M O) as G. specialize (G ltac:(eapply kids_weaken; [|exact Hk]; now unfold any)).
    unfold wp in G. destruct (h_get_key_value (cmp x) m2 hp) as [[r hp']|] eqn:E; [|contradiction]. destruct G as [-> G].
    intros w. pose proof (@get_key_value_pure T unit W (cmp x) m2 hp w _ _ E) as A. unfold hs_contains, abind. rewrite A.
    eexists _, w. split; [reflexivity|]. cbn beta. pose proof (contains_ok laws x (s := m1) Hv) as C. unfold set_contains, contains_key, get in C.
    unfold elems in C. rewrite G in C. cbn [omap] in C. unfold aret. destruct r; cbn in *; congruence.
  Qed.
  Lemma l_insert y m2 (m1 : bmap) s (hp : heap) (w : W) : mrep m2 m1 s -> own hp (sres s) -> valid cmp m1 ->
    inserts nalloc False (valid cmp) Ins (hx_try_insert nalloc place kcmp y tt m2 hp w) y m1 s hp.
  Proof using laws place_fresh.
    intros M O Hv. pose proof Hv as [Hm Hs].
    pose proof (@try_insert_m T unit W nalloc place place_fresh cmp y tt _ _ _ hp w laws M O Hv) as X.
    pose proof (@try_insert_ok T unit W nalloc cmp laws y tt m1 w Hm Hs) as HI.
    destruct (try_insert nalloc cmp y tt m1 w) as [[o m1'] w']. destruct X as (s' & hp' & m2' & lost & E & R' & G & L).
    destruct (@try_insert_h T unit W nalloc place place_fresh False kcmp (fun a b => @calm_tells _ (cmp a b)) y tt _ _ _ hp w M O Hm) as (oh & m2h & m1h & sh & losth & hph & wh & Eh & Rh & Gh & Hh).
    rewrite try_insert_pure in Eh |- * by (rewrite E; destruct o; try contradiction; discriminate). rewrite E in Eh. injection Eh as <- <- <- <-.
    destruct o as [a|e| | |]; try contradiction.
    - exists (Ret a), m2', m1', s', lost, hp', w'. split; [exact E|]. split; [exact R'|]. split; [exact G|].
      destruct HI as (_ & Hm' & E' & _). split; [exact L|]. split; [|exact E']. split; [exact Hm'|]. rewrite E'. now apply s_insert_sorted.
    - exists (Err e), m2', m1h, sh, losth, hp', w'. split; [exact E|]. split; [exact Rh|]. split; [exact Gh|].
      destruct Hh as [Hr [(-> & Hh & _)|Hd]]; (split; [exact Hr|]); [left; auto|right; exact Hd].
  Qed.
  Lemma ins_len y (l l' : list (T * unit)) : l' = s_insert cmp y tt l -> length l' <= S (length l).
  Proof using. clear. intros ->. induction l as [|[z u] l IH]; cbn [s_insert]; [auto|]. destruct (cmp y z); cbn [length]; lia. Qed.

  Definition xfine (c : xop T Q) (S : state) (hp : heap) (rs : list (res T unit)) (x : outcome reserve_error (xobs T) * hregs * heap * W) : Prop :=
    let '(o, s2', hp', _) := x in
    (exists S', xspec c S o S' /\
       (o = Abort \/ o = UB \/ exists s1' ss' rs', reps s2' s1' ss' /\ held ss' rs' /\ goes hp rs hp' rs' /\ rep cmp s1' S')) \/
    xquits c S o s2' hp'.

  Lemma gen_spec c S o S' : (forall r, ascending cmp (elements S r)) -> xgen nalloc tclone False R Cn Ins c S o S' -> xspec c S o S'.
  Proof using laws lawful.
    intros HA. destruct c as [c|k r t n m|r t|r t|r t|k r t u|r l]; cbn [xgen LawfulSetSpec.xspec].
    - contradiction.
    - intros [(l & lo & hi & F & X)|[[] _]]. exists l, lo, hi. split; [exact (first_lawful laws F (HA r) (HA t))|exact X].
    - intros [(b & -> & F & X)|[[] _]]. exists b. split; [reflexivity|]. split; [exact (subset_lawful laws F (HA r) (HA t))|exact X].
    - intros [(b & -> & F & X)|[[] _]]. exists b. split; [reflexivity|]. split; [exact (subset_lawful laws F (HA t) (HA r))|exact X].
    - intros [(l & F & -> & X)|[[] _]]. eexists. split; [reflexivity|]. split; [exact (disjoint_lawful laws F (HA r) (HA t))|exact X].
    - intros [(l & l' & new & F & C & B & -> & X)|[(-> & [[]|He] & X)|X]]; [left|right; left; auto|right; right; exact X].
      pose proof (first_lawful laws F (HA r) (HA t)) as FA. exists l, l'. split; [exact FA|]. split; [exact C|]. split; [reflexivity|].
      assert (new = plain l') as <-; [|exact X]. apply (builds_asc laws (pre := []) B). cbn [app]. eapply copies_asc; [exact laws| |exact C|exact (proj1 FA)].
      intros x y (w & w' & E). exact (lawful E).
    - intros [(new & B & -> & X)|(-> & [[]|He] & X)]; [left|right; auto]. split; [reflexivity|].
      assert (new = plain (fold_left (fun s x => inserted cmp x s) l [])) as <-; [|exact X].
      rewrite <- (plain_fst new). f_equal. apply (builds_fold laws (s := [])); [constructor|exact B].
  Qed.
  Lemma spec_copy c S o S' : spec cmp qcmp borrow eqb pcmp no_memory (cloned xkclone xvclone) (clone_fails nalloc xkclone xvclone) c S o S' ->
    spec (Q := Q) cmp qcmp borrow eqb pcmp no_memory (fun x y => HostileSetOps.clones tclone (fst x) (fst y)) (clone_fails nalloc xkclone xvclone) c S o S'.
  Proof using.
    clear. assert (forall l l' : list (T * unit), Forall2 (cloned xkclone xvclone) l l' -> Forall2 (fun x y => HostileSetOps.clones tclone (fst x) (fst y)) l l') as X.
    { induction 1 as [|x y l l' [(w & w' & E) _] F IH]; constructor; auto. unfold HostileSetModel.xkclone in E. destruct (tclone (fst x) w) as [oc w1] eqn:Ec.
      exists w, w'. destruct oc; cbn in E; try discriminate E; try (destruct e). now inversion E; subst. }
    destruct c; auto; cbn [spec]; (intros [(-> & l & F & Y)|Y]; [left|right; exact Y]); (split; [reflexivity|]); exists l; auto.
  Qed.
  Lemma xkclone_same k w k' w' : xkclone k w = (Ret k', w') -> cmp k k' = Eq.
  Proof using lawful. unfold HostileSetModel.xkclone. intros E. destruct (tclone k w) as [oc w1] eqn:Ec. destruct oc; cbn in E; try discriminate E; try (destruct e). inversion E; subst. exact (lawful Ec). Qed.

  Section Step.
    Variables (s1 : regs T unit) (s2 : hregs) (ss : nat -> src T unit) (rs : list (res T unit)) (hp : heap) (S : state).
    Hypothesis (Rp : reps s2 s1 ss) (H : held ss rs) (O : own hp rs) (RS : rep cmp s1 S) (X : exact_heap hp rs).
    Lemma asc_reg r : ascending cmp (elements S r).
    Proof using RS. destruct (RS r) as [[_ Hs] E]. unfold elements. rewrite <- E. now apply map_fst_asc. Qed.
    Lemma other_l c (w : W) : (forall c', c <> XMap c') -> xfine c S hp rs (xstep c s2 hp w).
    Proof using laws lawful place_fresh Rp H O RS.
      intros L.
      pose proof (@step_g T Q W nalloc place tclone kcmp False (fun x k => @tells W _ (qcmp x (borrow k))) (fun x y => @tells W _ (same_ (qcmp x y))) (fun x y => @tells W _ (more_ (qcmp x y))) (fun b => @tells W _ b)
        (fun x y => @tells W _ (eqb x y)) (fun x y => @tells W _ (pcmp x y)) (fun a b => @calm_tells _ (cmp a b)) R (fun a b w c w' E => eq_sym (f_equal (fun p => match fst p with Some c => c | None => Eq end) E)) cmp Cn l_contains
        (fun x y => ex_intro _ (cmp x y) eq_refl) (fun x B => ex_intro _ (memb cmp x B) eq_refl) Ins l_insert ins_len s1 s2 ss rs hp S Rp H O RS c w L) as Y.
      destruct (xstep c s2 hp w) as [[[o s2'] hp'] w']. destruct Y as [(S' & G & Y)|Y]; [left; exists S'; split; [exact (gen_spec asc_reg G)|exact Y]|right].
      destruct c; try contradiction; exact Y.
    Qed.
    Lemma map_l c (w : W) : legal c -> xfine (XMap c) S hp rs (xstep (XMap c) s2 hp w).
    Proof using laws blaws lawful place_fresh Rp H O RS X.
      intros L. cbn [HostileSetModel.xstep].
      pose proof (@step_fine T unit Q cmp qcmp borrow laws blaws W nalloc place place_fresh xkclone xvclone eqb pcmp s1 s2 ss rs hp S Rp H O RS c w L) as HF.
      pose proof (@step_good T unit Q cmp qcmp borrow laws blaws W nalloc xkclone xvclone xkclone_same eqb pcmp c s1 S w L RS) as HG.
      pose proof (@pure_step_ok T unit W nalloc place cmp Q qcmp borrow xkclone xvclone eqb pcmp c s2 hp w) as PS. unfold pure_step in PS.
      unfold fine in HF. unfold good in HG.
      destruct (step c s1 w) as [[o s1'] w'], (hstep c s2 hp w) as [[[o2 s2'] hp'] w2]. destruct HF as (-> & -> & HF). cbn [fst] in PS.
      rewrite PS; clear PS.
      2:{ destruct o; try (left; discriminate). right. destruct HG as [(S' & HS & _)|HG]; [exact (spec_ub HS)|]. destruct (gave_up_ub HG). }
      unfold xfine.
      assert (forall ss' rs' lost, reps s2' s1' ss' -> held ss' rs' -> goes hp rs hp' (rs' ++ lost) -> (lost = [] \/ quits c S o) ->
        (exists S', xspec (XMap c) S (fmap XObs o) S' /\ (fmap XObs o = Abort \/ fmap XObs o = UB \/ exists s1' ss' rs', reps s2' s1' ss' /\ held ss' rs' /\ goes hp rs hp' rs' /\ rep cmp s1' S')) \/
        xquits (XMap c) S (fmap XObs o) s2' hp') as KEY.
      { intros ss' rs' lost R' H' G Q'. pose proof (goes_exact G X) as E'. pose proof (go_own G) as O'.
        destruct HG as [(S' & HS & RS')|HG].
        - destruct Q' as [-> |Q'].
          + left. exists S'. split; [exists o; split; [exact (spec_copy HS)|reflexivity]|]. right. right. rewrite app_nil_r in G. eauto 8.
          + right. exists o. split; [eapply quits_gave_up; eassumption|]. split; [reflexivity|exact (torn_ok R' H' O' E')].
        - right. exists o. split; [exact HG|]. split; [reflexivity|exact (torn_ok R' H' O' E')]. }
      destruct o; try (destruct HF as (ss' & rs' & lost & F1 & F2 & F3 & F4); eapply KEY; eauto; fail).
      - destruct HG as [(S' & HS & _)|HG]; [left; exists S'; split; [exists Abort; split; [exact (spec_copy HS)|reflexivity]|auto]|]. edestruct gave_up_alive as [(e & Y)|Y]; [exact HG|discriminate Y..].
      - destruct HG as [(S' & HS & _)|HG]; [left; exists S'; split; [exists UB; split; [exact (spec_copy HS)|reflexivity]|auto]|]. edestruct gave_up_alive as [(e & Y)|Y]; [exact HG|discriminate Y..].
    Qed.
    Lemma step_l c (w : W) : xlegal c -> xfine c S hp rs (xstep c s2 hp w).
    Proof using laws blaws lawful place_fresh Rp H O RS X.
      intros L. destruct c as [c|k r t n m|r t|r t|r t|k r t u|r l]; [now apply map_l|..].
      - exact (other_l (c := XLazy k r t n m) w ltac:(discriminate)).
      - exact (other_l (c := XSubset r t) w ltac:(discriminate)).
      - exact (other_l (c := XSuperset r t) w ltac:(discriminate)).
      - exact (other_l (c := XDisjoint r t) w ltac:(discriminate)).
      - exact (other_l (c := XOperator k r t u) w ltac:(discriminate)).
      - exact (other_l (c := XCollect r l) w ltac:(discriminate)).
    Qed.
  End Step.
End Steps.
