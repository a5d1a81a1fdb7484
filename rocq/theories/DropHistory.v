(** * DropHistory: programs on raw memory with destructors that panic. *)
From Coq Require Import List Arith Lia Bool Permutation.
From Verif Require Import Base MapSpec MergeSpec IterSpec BTreeModel BTreeInv BTreeLemmas BTreeSearch BTreeInsert BTreeIterModel BTreeIter BTreeStep BTreeIterProofs.
From Verif Require Import BTreeRange BTreeOps BTreeEntry BTreeWrites BTreeBulkModel BTreeBorder BTreeSplit BTreeAppend BTreeClone BTreeCollect HistoryModel HistorySpec HistoryProofs.
From Verif Require Import HeapModel HeapMapModel HeapArr HeapRep HeapWp HeapRes HeapPart HeapMap HeapEntry HeapIter HeapInto HeapBorder HeapSplit HeapAppend HeapClone HeapHistory HeapSpec HeapMemory.
From Verif Require Import Properties_BTree2 DropModel DropSpec DropProofs DropAppend.
Import ListNotations.
Set Implicit Arguments.
Unset Strict Implicit.

Section History.
  Variables (K V Q : Type) (cmp : K -> K -> comparison) (qcmp : Q -> Q -> comparison) (borrow : K -> Q).
  Hypothesis laws : ord_laws cmp.
  Hypothesis blaws : borrow_laws cmp qcmp borrow.
  Variables (W : Type) (nalloc : bool -> W -> option reserve_error * W) (place : HeapModel.heap K V -> W -> loc).
  Hypothesis place_fresh : forall hp w, hget hp (place hp w) = None.
  Variables (kclone : K -> W -> outcome reserve_error K * W) (vclone : V -> W -> outcome reserve_error V * W).
  Hypothesis kclone_eq : forall k w k' w', kclone k w = (Ret k', w') -> cmp k k' = Eq.
  Notation kv := (K * V)%type.
  Variables (eqb : kv -> kv -> bool) (pcmp : kv -> kv -> option comparison).
  Variables (kdrop : K -> W -> bool * W) (vdrop : V -> W -> bool * W).
  Notation heap := (heap K V).
  Notation HM := (HM K V).
  Notation ltree := (ltree K V).
  Notation bmap := (bmap K V).
  Notation src := (src K V).
  Notation res := (res K V).
  Notation op := (op K V Q).
  Notation obs := (obs K V).
  Notation step := (step nalloc cmp qcmp borrow kclone vclone eqb pcmp).
  Notation hstep := (hstep nalloc place cmp qcmp borrow kclone vclone eqb pcmp).
  Notation hdstep := (hdstep kdrop vdrop nalloc place cmp qcmp borrow kclone vclone eqb pcmp).
  Notation rep := (rep cmp).
  Notation spec_ := (spec cmp qcmp borrow eqb pcmp (no_memory nalloc) (cloned kclone vclone) (clone_fails nalloc kclone vclone)).
  Notation gave_up_ := (gave_up cmp (no_memory nalloc)).
  Notation panics := (panics kdrop vdrop).
  Notation blasts := (blasts kdrop vdrop).
  Notation dropped := (dropped cmp).
  Implicit Types (hp : heap).

  Definition kept_ok (S' : nat -> list kv) (s2' : hregs) hp (rs : list res) hp' (lost : list res) : Prop :=
    exists s1' ss' rs', rep s1' S' /\ reps s2' s1' ss' /\ held ss' rs' /\ goes hp rs hp' (rs' ++ lost).
  Definition torn_ok_ (s2' : hregs) hp (rs : list res) hp' : Prop :=
    exists s1' ss' rs' lost, reps s2' s1' ss' /\ held ss' rs' /\ goes hp rs hp' (rs' ++ lost).
  Inductive outcome_ok (c : op) (S : nat -> list kv) hp (rs : list res) : outcome reserve_error obs -> list kv -> hregs -> heap -> Prop :=
  | O_step o l s hp' S' : spec_ c S o S' -> l = (match o with Ret _ => dropped c S | _ => [] end) -> o <> Abort -> o <> UB ->
      kept_ok S' s hp rs hp' [] -> outcome_ok c S hp rs o l s hp'
  | O_panic l x kept s hp' S' lost a : replaces c = false -> spec_ c S (Ret a) S' -> dropped c S = l ++ x :: kept -> panics x ->
      kept_ok S' s hp rs hp' lost -> outcome_ok c S hp rs Panic (l ++ [x]) s hp'
  | O_dead o l s hp' S' : spec_ c S o S' -> o = Abort \/ o = UB -> outcome_ok c S hp rs o l s hp'
  | O_abort l s hp' : blasts l 2 \/ (blasts l 1 /\ gave_up_ c S Panic) -> outcome_ok c S hp rs Abort l s hp'
  | O_gave_up o l s hp' : gave_up_ c S o -> torn_ok_ s hp rs hp' -> outcome_ok c S hp rs o l s hp'
  | O_append r t l kept s hp' : c = Append r t -> blasts l 1 -> Permutation (S r ++ S t) (kept ++ l) -> torn_ok_ s hp rs hp' ->
      outcome_ok c S hp rs Panic l s hp'.
  Definition fine_d (c : op) (S : nat -> list kv) hp (rs : list res) (x : outcome reserve_error obs * list kv * hregs * heap * W) : Prop :=
    let '(o, l, s, hp', _) := x in outcome_ok c S hp rs o l s hp'.

  Section Step.
    Variables (s1 : regs K V) (s2 : hregs) (ss : nat -> src) (rs : list res) (hp : heap) (S : nat -> list kv).
    Hypothesis (R : reps s2 s1 ss) (H : held ss rs) (O : own hp rs) (RS : rep s1 S).

    (** steps that destroy nothing *)
    Lemma plain_d c (w : W) : legal c -> dropped c S = [] ->
      fine_d c S hp rs (let '(o, s', hp', w') := hstep c s2 hp w in (o, [], s', hp', w')).
    Proof using R H O RS laws blaws place_fresh kclone_eq.
      intros Hc Hd.
      pose proof (@step_fine K V Q cmp qcmp borrow laws blaws W nalloc place place_fresh kclone vclone eqb pcmp s1 s2 ss rs hp S R H O RS c w Hc) as HF.
      pose proof (@step_good K V Q cmp qcmp borrow laws blaws W nalloc kclone vclone kclone_eq eqb pcmp c s1 S w Hc RS) as HG.
      unfold fine in HF. unfold good in HG.
      destruct (step c s1 w) as [[o s1'] w'], (hstep c s2 hp w) as [[[o2 s2'] hp'] w2]. destruct HF as (-> & -> & HF). cbn [fine_d].
      assert (forall ss' rs' lost, reps s2' s1' ss' -> held ss' rs' -> goes hp rs hp' (rs' ++ lost) -> (lost = [] \/ quits c S o) -> o <> Abort -> o <> UB ->
        outcome_ok c S hp rs o [] s2' hp') as KEY.
      { intros ss' rs' lost R' H' G Q' Na Nu. destruct HG as [(S' & HS & RS')|HG].
        - destruct Q' as [-> |Q'].
          + eapply O_step; [exact HS|rewrite Hd; now destruct o|exact Na|exact Nu|]. exists s1', ss', rs'. auto.
          + eapply O_gave_up; [|exists s1', ss', rs', lost; auto]. clear HF.
            destruct c; cbn [quits] in Q'; try contradiction; cbn [spec gave_up] in *.
            * destruct Q' as [(e & ->) Q']. destruct HS as [[X _]|(e' & E & H1 & H2 & _)]; [discriminate X|]. exfalso. rewrite H2 in Q'. cbn in Q'. lia.
            * destruct Q' as [(e & ->) Q']. destruct HS as [[X _]|(e' & E & H1 & H2 & _)]; [discriminate X|]. exfalso. rewrite H2 in Q'. cbn in Q'. lia.
            * destruct HS as [X _]. congruence.
            * destruct HS as [X _]. congruence.
            * destruct Q' as [(e & ->) Q']. unfold absent. destruct (s_get (cmp k) (S r)) as [x|]; [destruct HS as [X _]; discriminate X|].
              destruct HS as [[X _]|(e' & E & H1 & H2 & _)]; [discriminate X|]. exfalso. rewrite H2 in Q'. cbn in Q'. lia.
        - eapply O_gave_up; [exact HG|exists s1', ss', rs', lost; auto]. }
      destruct o; try (destruct HF as (ss' & rs' & lost & F1 & F2 & F3 & F4); eapply KEY; eauto; discriminate).
      - destruct HG as [(S' & HS & _)|HG]; [eapply O_dead; eauto|]. exfalso. destruct c; cbn [gave_up] in HG; try contradiction; try (destruct HG as (e & X & _); discriminate X); destruct HG as (X & _); discriminate X.
      - destruct HG as [(S' & HS & _)|HG]; [eapply O_dead; eauto|]. exfalso. destruct c; cbn [gave_up] in HG; try contradiction; try (destruct HG as (e & X & _); discriminate X); destruct HG as (X & _); discriminate X.
    Qed.

    (** a variable is overwritten *)
    Lemma assign_d c t s2a s1' m2 hp1 (w1 : W) ss' rs' S' : replaces c = false -> dropped c S = S t -> s2a t = s2 t ->
      spec_ c S (Ret OUnit) S' -> rep s1' S' -> reps (hup_ s2a t m2) s1' ss' -> held ss' rs' -> goes hp rs hp1 (sres (ss t) ++ rs') ->
      fine_d c S hp rs (hd_assign kdrop vdrop s2a t m2 hp1 w1).
    Proof using R RS.
      clear H O. intros Hr Hd E2 HS RS' R' H' G. unfold hd_assign. rewrite E2. destruct (RS t) as [Va Ee].
      destruct (@hd_drop_m K V W kdrop vdrop (s2 t) (s1 t) (ss t) hp1 w1 (R t)) as (o & l & hp2 & w2 & lost & E & G2 & Ho).
      { exact (own_sub (go_own G)). } { apply sound_any. apply Va. } { destruct Va as [(_ & _ & Hl) _]. exact Hl. }
      rewrite E. clear E. rewrite Ee in Ho. pose proof (goes_trans G (goes_fst G2 (go_own G))) as G3.
      assert (kept_ok S' (hup_ s2a t m2) hp rs hp2 lost) as Kp. { exists s1', ss', rs'. split; [exact RS'|]. split; [exact R'|]. split; [exact H'|]. eapply goes_perm; [reflexivity|apply Permutation_app_comm|exact G3]. }
      destruct o as [u|e| | |]; try contradiction; cbn [fmap omap fine_d].
      - destruct Ho as (-> & ->). eapply O_step; [exact HS|now rewrite Hd|discriminate|discriminate|exact Kp].
      - destruct Ho as (l0 & x & kept & -> & E & P). eapply O_panic; [exact Hr|exact HS|rewrite Hd; exact E|exact P|exact Kp].
      - apply O_abort. left. apply Ho.
    Qed.

    Lemma new_va : valid cmp (@new K V).
    Proof using. split; [apply new_sound|constructor]. Qed.
    Lemma clear_d r (w : W) : fine_d (New r) S hp rs (hdstep (New r) s2 hp w) /\ fine_d (Clear r) S hp rs (hdstep (Clear r) s2 hp w).
    Proof using R H O RS.
      cbn [DropModel.hdstep]. destruct (held_focus r H) as (rest & P & F).
      split; (eapply (@assign_d _ r s2 (upd s1 r (@new K V)) h_new hp w (upd ss r None) rest (upd S r [])); [reflexivity|reflexivity|reflexivity| | | |exact (F None)|]).
      1,5: (split; [reflexivity|intros i; reflexivity]).
      1,4: (apply rep_upd; [exact RS|apply new_va|reflexivity]).
      1,3: (intros i; unfold hup_, upd; destruct (i =? r); [apply mrep_new|apply R]).
      all: (eapply goes_perm; [reflexivity|exact P|now apply goes_refl]).
    Qed.
    Lemma split_d r x t (w : W) : r <> t -> fine_d (SplitOff r x t) S hp rs (hdstep (SplitOff r x t) s2 hp w).
    Proof using R H O RS laws blaws place_fresh kclone_eq.
      intros Ne. pose proof (@step_good K V Q cmp qcmp borrow laws blaws W nalloc kclone vclone kclone_eq eqb pcmp (SplitOff r x t) s1 S w Ne RS) as HG. unfold good in HG.
      cbn [DropModel.hdstep]. cbn [HistoryModel.step] in HG. destruct (RS r) as [[Hm Hs] _]. pose proof (@cut_reg K V Q cmp qcmp borrow blaws s1 S RS r x) as Cut.
      pose proof (@split_off_m K V W nalloc place place_fresh _ _ _ _ hp w (R r) (own_reg H O r) Hm Cut) as M.
      pose proof (@split_off_ok K V W nalloc _ (s1 r) w Hm Cut) as HS.
      destruct (split_off nalloc (look qcmp borrow x) (s1 r) w) as [[[o m] ds] w']. destruct M as (s' & hp' & m2' & o2 & E & R' & M). rewrite E. clear E.
      destruct HS as [Hd HS]. destruct o as [m2|e| | |]; try contradiction.
      - destruct M as (r2 & sr & -> & Rr & G). destruct (held_focus2 Ne H) as (rest & P & F).
        assert (goes hp rs hp' (sres (ss t) ++ sres s' ++ sres sr ++ rest)) as G1.
        { pose proof (own_perm P O) as O1. pose proof (goes_fst G O1) as G1. eapply goes_perm; [symmetry; exact P| |exact G1].
          rewrite <- !app_assoc. rewrite (Permutation_app_swap_app (sres sr)). apply Permutation_app_swap_app. }
        assert (drop_all [s1 t] = Ret tt) as Ed.
        { apply drop_all_ok. constructor; [|constructor]. destruct (RS t) as [Va _]. eapply valid_droppable; exact Va. }
        rewrite Ed in HG. cbn [after] in HG. destruct HG as [(S' & HS' & RS')|HG]; [|cbn in HG; contradiction].
        eapply assign_d; [reflexivity|reflexivity| |exact HS'|exact RS'| |exact (F s' sr)|exact G1].
        + unfold hup_. destruct (Nat.eqb_spec t r); congruence.
        + intros i. unfold hup_, upd. destruct (i =? t); [exact Rr|]. destruct (i =? r); [exact R'|apply R].
      - destruct M as (-> & -> & G). rewrite drop_all_ok in HG by exact Hd. cbn [after fmap omap pass] in *.
        destruct HG as [(S' & HS' & RS')|HG]; [|cbn in HG; contradiction]. destruct (held_focus r H) as (rest & P & F). cbn [fine_d].
        eapply O_step; [exact HS'|reflexivity|discriminate|discriminate|]. exists (upd s1 r m), (upd ss r (ss r)), (sres (ss r) ++ rest).
        split; [exact RS'|]. split; [intros i; unfold hup_, upd; destruct (i =? r); [exact R'|apply R]|]. split; [apply F|]. rewrite app_nil_r.
        pose proof (goes_fst G (own_perm P O)) as G1. eapply goes_perm; [symmetry; exact P|reflexivity|exact G1].
    Qed.
    Lemma clone_d r t (w : W) : r <> t -> fine_d (TryClone r t) S hp rs (hdstep (TryClone r t) s2 hp w) /\ fine_d (Clone r t) S hp rs (hdstep (Clone r t) s2 hp w).
    Proof using R H O RS laws blaws place_fresh kclone_eq.
      intros Ne. pose proof (@step_good K V Q cmp qcmp borrow laws blaws W nalloc kclone vclone kclone_eq eqb pcmp (TryClone r t) s1 S w Ne RS) as HG1.
      pose proof (@step_good K V Q cmp qcmp borrow laws blaws W nalloc kclone vclone kclone_eq eqb pcmp (Clone r t) s1 S w Ne RS) as HG2. unfold good in HG1, HG2.
      cbn [DropModel.hdstep]. cbn [HistoryModel.step] in HG1, HG2. unfold clone in HG2. unfold h_clone. destruct (RS r) as [[Hm Hs] _].
      pose proof (@try_clone_m K V W nalloc place place_fresh kclone vclone _ _ _ hp w (R r) (own_reg H O r) Hm) as M.
      pose proof (@try_clone_ok K V W nalloc kclone vclone (s1 r) w Hm) as HC.
      destruct (try_clone nalloc kclone vclone (s1 r) w) as [[o d] w']. destruct M as (hp' & o2 & E & M). rewrite E. clear E. destruct HC as [Hd HC].
      assert (drop_all [s1 t] = Ret tt) as Ed.
      { apply drop_all_ok. constructor; [|constructor]. destruct (RS t) as [Va _]. eapply valid_droppable; exact Va. }
      assert (forall c o', goes hp [] hp' [] -> (exists S', spec_ c S o' S' /\ rep s1 S') \/ gave_up_ c S o' -> (forall a, o' <> Ret a) -> o' <> Abort -> o' <> UB ->
        outcome_ok c S hp rs o' [] s2 hp') as Same.
      { intros c o' G HG Nr Na Nu. destruct HG as [(S' & HS' & RS')|HG].
        - eapply O_step; [exact HS'|destruct o'; try reflexivity; exfalso; eapply Nr; reflexivity|exact Na|exact Nu|]. exists s1, ss, rs. rewrite app_nil_r.
          split; [exact RS'|]. split; [exact R|]. split; [exact H|]. exact (goes_add G O).
        - eapply O_gave_up; [exact HG|]. exists s1, ss, rs, []. rewrite app_nil_r. split; [exact R|]. split; [exact H|]. exact (goes_add G O). }
      destruct o as [m'|e| | |].
      - destruct M as (r2 & sr & -> & Rr & G). cbn [expect] in *. rewrite Ed in HG1, HG2. cbn [after] in HG1, HG2.
        destruct HG1 as [(S1 & HS1 & RS1)|HG]; [|cbn in HG; contradiction]. destruct HG2 as [(S2 & HS2 & RS2)|HG]; [|cbn in HG; contradiction].
        destruct (held_focus t H) as (rest & P & F).
        assert (goes hp rs hp' (sres (ss t) ++ sres sr ++ rest)) as G1.
        { pose proof (goes_add G O) as G1. eapply goes_perm; [reflexivity| |exact G1]. rewrite (Permutation_app_head (sres sr) P). apply Permutation_app_swap_app. }
        assert (reps (hup_ s2 t r2) (upd s1 t m') (upd ss t sr)) as R1.
        { intros i. unfold hup_, upd. destruct (i =? t); [exact Rr|apply R]. }
        split; (eapply assign_d; [reflexivity|reflexivity|reflexivity|eassumption|eassumption|exact R1|exact (F sr)|exact G1]).
      - destruct M as (-> & G). rewrite drop_all_ok in HG1, HG2 by exact Hd. cbn [after fmap omap pass expect cast] in *. split; (apply Same; [exact G|assumption|discriminate|discriminate|discriminate]).
      - destruct M as (-> & G). rewrite drop_all_ok in HG1, HG2 by exact Hd. cbn [after fmap omap pass expect cast] in *. split; (apply Same; [exact G|assumption|discriminate|discriminate|discriminate]).
      - subst o2. rewrite drop_all_ok in HG1, HG2 by exact Hd. cbn [after fmap omap pass expect cast] in *.
        split; [destruct HG1 as [(S' & HS' & RS')|HG]|destruct HG2 as [(S' & HS' & RS')|HG]]; try (cbn in HG; contradiction); (eapply O_dead; [exact HS'|now left]).
      - subst o2. rewrite drop_all_ok in HG1, HG2 by exact Hd. cbn [after fmap omap pass expect cast] in *.
        split; [destruct HG1 as [(S' & HS' & RS')|HG]|destruct HG2 as [(S' & HS' & RS')|HG]]; try (cbn in HG; contradiction); (eapply O_dead; [exact HS'|now right]).
    Qed.
    Lemma into_d r cs (w : W) : fine_d (IntoIter_ r cs) S hp rs (hdstep (IntoIter_ r cs) s2 hp w).
    Proof using R H O RS.
      cbn [DropModel.hdstep]. destruct (RS r) as [Va Ee]. pose proof Va as [(Hbt & Hs & Hlen) _]. assert (kids any (bheight (s1 r)) (bnode (s1 r))) as Hk by (apply sound_any; apply Va).
      destruct (into_iter_m (R r) (own_reg H O r) Hk Hlen) as (it & Ei & Wp).
      destruct (map_into_iter_ok (s1 r) Hk Hlen) as (it0 & E0 & Ok); [apply Hs|]. rewrite Ei in *. injection E0 as <-.
      destruct (into_calls cs Ok) as (outs & it' & a & b & Ec & Ok' & Edq). pose proof (mrep_height (R r)) as Hh. change (inorder (bnode (s1 r))) with (entries (s1 r)) in Edq, Ok'.
      rewrite seg_all, Ee in Edq.
      assert (wp (hbind (h_into_iter (s2 r)) (fun it => hcalls (h_into_next (rh (mroot (s2 r)))) (h_into_next_back (rh (mroot (s2 r)))) cs it)) hp
        (fun x hp' => fst x = outs /\ nrep (ss r) (bheight (s1 r)) (sres (ss r)) hp it' (snd x) hp')) as Wc.
      { apply wp_bind. eapply wp_mono; [exact Wp|]. intros i2 hp1 (-> & N).
        eapply wp_mono; [eapply (@hcalls_sim K V _ _ _ _ (fun i1 i2 hp' => nrep (ss r) (bheight (s1 r)) (sres (ss r)) hp i1 i2 hp') eq); [| |exact N|exact Ec]|].
        - intros j1 j2 hp1 x j1' Ir E. eapply into_next_m; [exact Hh|exact Ir|exact E].
        - intros j1 j2 hp1 x j1' Ir E. eapply into_next_back_m; [exact Hh|exact Ir|exact E].
        - intros x hp1 (F & N2). split; [exact (vals_eq F)|exact N2]. }
      unfold wp in Wc. match type of Wc with match ?m with _ => _ end => destruct m as [[[outs2 it2] hp1]|] end; [|contradiction]. destruct Wc as (Eo2 & N). cbn [fst snd] in N, Eo2. subst outs2.
      assert (tree_of (ss r) = bnode (s1 r)) as Et by (symmetry; exact (tree_of_m (R r))).
      assert (bshared (s1 r) = shared_of (ss r)) as Sh by (destruct (R r) as (_ & R0); destruct (ss r); tauto).
      destruct (@hd_drop_into_m K V W kdrop vdrop (ss r) (bheight (s1 r)) (rh (mroot (s2 r))) it' it2 (sres (ss r)) hp hp1 a b w Hh) as (o & l & hp2 & w2 & lost & E & G & Ho).
      { now rewrite Et. } { exact N. } { rewrite Et, <- Sh. exact Ok'. }
      rewrite E. clear E. rewrite Et in Ho. change (inorder (bnode (s1 r))) with (entries (s1 r)) in Ho. rewrite Ee in Ho.
      destruct (held_focus r H) as (rest & P & F).
      assert (kept_ok (upd S r []) (hup_ s2 r h_new) hp rs hp2 lost) as Kp.
      { exists (upd s1 r (@new K V)), (upd ss r None), rest. split; [apply rep_upd; [exact RS|apply new_va|reflexivity]|].
        split; [intros i; unfold hup_, upd; destruct (i =? r); [apply mrep_new|apply R]|]. split; [exact (F None)|].
        pose proof (goes_fst G (own_perm P O)) as G1. eapply goes_perm; [symmetry; exact P|apply Permutation_app_comm|exact G1]. }
      assert (spec_ (IntoIter_ r cs) S (Ret (ODropped outs (seg (S r) a b))) (upd S r [])) as HS.
      { cbn [spec]. rewrite Edq. split; [reflexivity|]. intros i. reflexivity. }
      assert (@DropSpec.dropped K V Q cmp (IntoIter_ r cs) S = seg (S r) a b) as Hd by (cbn [DropSpec.dropped]; now rewrite Edq).
      destruct o as [u|e| | |]; try contradiction; cbn [fmap omap fine_d].
      - destruct Ho as (-> & ->). eapply O_step; [exact HS|now rewrite Hd|discriminate|discriminate|exact Kp].
      - destruct Ho as (l0 & x & kept & -> & E & Px). eapply O_panic; [reflexivity|exact HS|rewrite Hd; exact E|exact Px|exact Kp].
      - apply O_abort. left. apply Ho.
    Qed.
    Lemma append_dd r t (w : W) : r <> t -> fine_d (Append r t) S hp rs (hdstep (Append r t) s2 hp w).
    Proof using R H O RS laws place_fresh.
      intros Ne. cbn [DropModel.hdstep]. destruct (RS r) as [[Hm Hs] Er]. destruct (RS t) as [[Hm2 Hs2] Et].
      destruct (@append_d K V W kdrop vdrop cmp nalloc place place_fresh _ _ _ _ _ _ hp w (R r) (R t) (own_regs H O Ne) Hm Hm2) as (o & log & m2' & o2' & hp' & w' & E & Ho).
      rewrite E. clear E. rewrite Er, Et in *. destruct (held_focus2 Ne H) as (rest & P & F).
      assert (own hp ((sres (ss r) ++ sres (ss t)) ++ rest)) as O1 by (rewrite <- app_assoc; exact (own_perm P O)).
      destruct o as [u|e| | |]; try contradiction; cbn [fmap omap fine_d].
      - destruct Ho as (m1' & o1' & sm' & so' & Rm & Ro & G & Sm & So & Ea & Eo & El).
        eapply O_step with (S' := upd (upd S r (s_append cmp (S r) (S t))) t []).
        + cbn [spec]. split; [reflexivity|intros i; reflexivity].
        + cbn [DropSpec.dropped]. rewrite El. now apply overwritten_has.
        + discriminate.
        + discriminate.
        + exists (upd (upd s1 r m1') t o1'), (upd (upd ss r sm') t so'), (sres sm' ++ sres so' ++ rest). split; [|split; [|split; [apply F|]]].
          * apply rep_upd; [apply rep_upd; [exact RS| |]| |].
            -- split; [exact Sm|]. rewrite Ea. now apply merge2_sorted.
            -- rewrite Ea. now apply merge2_append.
            -- split; [exact So|]. rewrite Eo. constructor.
            -- exact Eo.
          * intros i. unfold hup_, upd. destruct (i =? t); [exact Ro|]. destruct (i =? r); [exact Rm|apply R].
          * pose proof (goes_fst G O1) as G1. rewrite app_nil_r. eapply goes_perm; [|rewrite app_assoc; reflexivity|exact G1]. rewrite <- app_assoc. symmetry. exact P.
      - destruct Ho as (m1' & o1' & sm' & so' & lost & Rm & Ro & G & U & Pm & _).
        assert (torn_ok_ (hup_ (hup_ s2 r m2') t o2') hp rs hp') as To.
        { exists (upd (upd s1 r m1') t o1'), (upd (upd ss r sm') t so'), (sres sm' ++ sres so' ++ rest), lost. split; [|split; [apply F|]].
          - intros i. unfold hup_, upd. destruct (i =? t); [exact Ro|]. destruct (i =? r); [exact Rm|apply R].
          - pose proof (goes_fst G O1) as G1. eapply goes_perm; [| |exact G1].
            + rewrite <- app_assoc. symmetry. exact P.
            + rewrite <- !app_assoc. do 2 apply Permutation_app_head. apply Permutation_app_comm. }
        destruct U as [B1|(e & Ue)].
        + eapply O_append; [reflexivity|exact B1|exact Pm|exact To].
        + eapply O_gave_up; [|exact To]. cbn [gave_up]. eauto.
      - apply O_abort. destruct Ho as [B|[B U]]; [now left|]. right. split; [exact B|]. cbn [gave_up]. auto.
    Qed.

    Theorem step_fine_d c (w : W) : legal c -> fine_d c S hp rs (hdstep c s2 hp w).
    Proof using R H O RS laws blaws place_fresh kclone_eq.
      intros L. destruct c; cbn [legal] in L;
        try (match goal with |- fine_d ?c _ _ _ _ => exact (@plain_d c w I eq_refl) end); try (now apply clear_d); try (now apply split_d); try (now apply clone_d); try (apply into_d); try (now apply append_dd).
    Qed.
  End Step.
End History.
