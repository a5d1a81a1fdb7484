(** * Properties_Look: C53

    Iterators can be cloned, asked for their length and printed at any point:
    a clone and the original each deliver the entries that were left, printing
    shows exactly the entries that are left and changes nothing, and printing a
    half-consumed IntoIter touches no node that was freed.  [LookSpec.dd_ok]
    says this after every step of a program on raw memory. *)
From Coq Require Import List Arith Lia Bool Permutation.
From Verif Require Import Base MapSpec IterSpec BTreeModel BTreeInv BTreeLemmas BTreeInsert BTreeIterModel BTreeIterProofs BTreeRange BTreeBulkModel BTreeClone
  BTreeWrites BTreeCollect Properties_BTree Properties_BTree2 HistoryModel HistorySpec HistoryProofs Properties_History Examples.
From Verif Require Import HeapModel HeapMapModel HeapArr HeapRep HeapWp HeapRes HeapMap HeapIter HeapSplit HeapHistory HeapSpec HeapMemory Properties_Heap.
From Verif Require Import LookModel LookSpec LookProofs.
Import ListNotations.
Set Implicit Arguments.

Section Look.
  Variables (K V Q : Type) (cmp : K -> K -> comparison) (qcmp : Q -> Q -> comparison) (borrow : K -> Q).
  Notation kv := (K * V)%type.
  Notation heap := (heap K V).
  Variables (W : Type) (nalloc : bool -> W -> option reserve_error * W) (place : heap -> W -> loc).
  Variables (kclone : K -> W -> outcome reserve_error K * W) (vclone : V -> W -> outcome reserve_error V * W).
  Variables (eqb : kv -> kv -> bool) (pcmp : kv -> kv -> option comparison).
  Notation step := (step nalloc cmp qcmp borrow kclone vclone eqb pcmp).
  Notation hstep := (hstep nalloc place cmp qcmp borrow kclone vclone eqb pcmp).
  Notation dstep := (dstep nalloc place cmp qcmp borrow kclone vclone eqb pcmp).
  Notation ddrun := (ddrun nalloc place cmp qcmp borrow kclone vclone eqb pcmp).
  Notation dspec_ := (dspec cmp qcmp borrow eqb pcmp (no_memory nalloc) (cloned kclone vclone) (clone_fails nalloc kclone vclone)).
  Notation dd_ok := (dd_ok cmp qcmp borrow eqb pcmp (no_memory nalloc) (cloned kclone vclone) (clone_fails nalloc kclone vclone)).

  (** append(), split_off() and clone need two different variables *)
  Definition dlegal (c : dop K V Q) : Prop := match c with Plain c => legal c | _ => True end.

  Lemma session_ok (m : HM K V (outcome reserve_error (dobs K V) * hregs)) s hp0 (w : W) (P : outcome reserve_error (dobs K V) -> hregs -> heap -> Prop) :
    wp m hp0 (fun x hp' => P (fst x) (snd x) hp') -> exists o s' hp', session m s hp0 w = (o, s', hp', w) /\ P o s' hp'.
  Proof. unfold session, wp. destruct (m hp0) as [[[o s'] hp']|]; [|contradiction]. cbn. eauto 10. Qed.

  Section Run.
    Hypothesis (L1 : ord_laws cmp) (L2 : borrow_laws cmp qcmp borrow).
    Hypothesis L3 : forall k w k' w', kclone k w = (Ret k', w') -> cmp k k' = Eq.
    Hypothesis place_fresh : forall hp w, hget hp (place hp w) = None.

    (** the sessions, from a state in order *)
    Lemma session_good c s2 s1 ss rs hp S w : reps s2 s1 ss -> held ss rs -> own hp rs -> rep cmp s1 S ->
      match c with Plain _ => False | _ => True end ->
      exists o s2' s1' ss' rs' hp' S', dstep c s2 hp w = (o, s2', hp', w) /\ o <> Abort /\ o <> UB /\
        reps s2' s1' ss' /\ held ss' rs' /\ goes hp rs hp' rs' /\ rep cmp s1' S' /\ dspec_ c S o S' /\
        (only_looks c -> s2' = s2 /\ hp' = hp).
    Proof.
      intros R H O RS Hc.
      assert (forall r, mlen (s2 r) = length (S r) /\ blen (s1 r) = length (entries (s1 r)) /\ kids any (bheight (s1 r)) (bnode (s1 r)) /\ own hp (sres (ss r)) /\
                        entries (s1 r) = S r /\ (bshared (s1 r) = true -> bheight (s1 r) = 0) /\ sorted cmp (entries (s1 r))) as F.
      { intros r. pose proof (len_reg RS r) as El. pose proof (RS r) as [[(Ho & Hs & Hl) So] Ee]. pose proof (R r) as (Em & _).
        split; [congruence|]. split; [exact El|]. split; [exact (any_reg RS r)|]. split; [exact (own_reg H O r)|]. split; [exact Ee|]. split; [apply Hs|exact So]. }
      destruct c as [c|r cs|r lo hi cs|r cs]; [contradiction| | |]; destruct (F r) as (Em & El & Hk & Or & Ee & Hs & So); cbn [LookModel.dstep dspec only_looks].
      - match goal with |- context [session ?mm ?s0 _ _] =>
          destruct (@session_ok mm s0 hp w (fun o s' hp' => o = Ret (DSession (sees true cs [S r]) []) /\ s' = s2 /\ hp' = hp)) as (o & s' & hp' & E & -> & -> & ->) end.
        { apply wp_bind. eapply wp_mono; [apply (look_ok cs (R r) Or Hk El); congruence|]. intros x hp' (-> & ->). apply wp_ret. cbn. rewrite Ee. auto. }
        rewrite E. eexists _, s2, s1, ss, rs, hp, S. split; [reflexivity|]. split; [discriminate|]. split; [discriminate|]. split; [exact R|]. split; [exact H|].
        split; [now apply goes_refl|]. split; [exact RS|]. auto.
      - destruct (map_range_ok L2 lo hi (s1 r) Hk So) as [R1 R2]. destruct (bad_dec qcmp lo hi) as [Hb|Hb].
        + pose proof (@range_m K V Q qcmp borrow _ _ _ hp lo hi (R r) Or (or_intror (R1 Hb))) as Wp. rewrite (R1 Hb) in *.
          match goal with |- context [session ?mm ?s0 _ _] =>
            destruct (@session_ok mm s0 hp w (fun o s' hp' => o = Panic /\ s' = s2 /\ hp' = hp)) as (o & s' & hp' & E & -> & -> & ->) end.
          { apply wp_bind. eapply wp_mono; [exact Wp|]. intros o hp' (-> & ->). apply wp_ret. auto. }
          rewrite E. eexists _, s2, s1, ss, rs, hp, S. split; [reflexivity|]. split; [discriminate|]. split; [discriminate|]. split; [exact R|]. split; [exact H|].
          split; [now apply goes_refl|]. split; [exact RS|]. auto.
        + destruct (R2 Hb) as (it & a & b & Ei & Hbt & Es).
          pose proof (@range_m K V Q qcmp borrow _ _ _ hp lo hi (R r) Or (or_introl (ex_intro _ it Ei))) as Wp. rewrite Ei in Wp.
          match goal with |- context [session ?mm ?s0 _ _] =>
            destruct (@session_ok mm s0 hp w (fun o s' hp' => o = Ret (DSession (sees false cs [s_range qcmp borrow lo hi (S r)]) []) /\ s' = s2 /\ hp' = hp)) as (o & s' & hp' & E & -> & -> & ->) end.
          { apply wp_bind. eapply wp_mono; [exact Wp|]. intros o hp' (-> & it2 & -> & A & B). apply wp_bind.
            eapply wp_mono; [eapply (look_range_ok cs (l := s_range qcmp borrow lo hi (S r)) (R r) Or); [congruence|]|].
            - pose proof (tree_of_m (R r)) as ET. exists it, a, b. split; [|split].
              + split; [reflexivity|]. split; [|split; [exact A|exact B]]. rewrite <- ET. eauto.
              + rewrite <- ET. exact Hbt.
              + rewrite <- ET, <- Ee. symmetry. exact Es.
            - intros x hp' (-> & ->). apply wp_ret. auto. }
          rewrite E. eexists _, s2, s1, ss, rs, hp, S. split; [reflexivity|]. split; [discriminate|]. split; [discriminate|]. split; [exact R|]. split; [exact H|].
          split; [now apply goes_refl|]. split; [exact RS|]. auto.
      - match goal with |- context [session ?mm ?s0 _ _] =>
          destruct (@session_ok mm s0 hp w (fun o s' hp' => o = Ret (DSession (fst (eats cs (S r))) (snd (eats cs (S r)))) /\ s' = hup_ s2 r h_new /\ goes hp (sres (ss r)) hp' []))
            as (o & s' & hp' & E & -> & -> & G) end.
        { pose proof (consume_ok cs (R r) Or Hk El Hs) as Wp. unfold wp, hbind, hret in *. rewrite Ee in Wp.
          destruct (h_into_iter (s2 r) hp) as [[it hp1]|]; [|contradiction].
          destruct (into_look_run (rh (mroot (s2 r))) cs it hp1) as [[x hp2]|]; [|contradiction].
          destruct (h_drop_into_iter (rh (mroot (s2 r))) (snd x) hp2) as [[d hp3]|]; [|contradiction].
          destruct Wp as [E G]. rewrite <- E. cbn. auto. }
        rewrite E. destruct (held_focus r H) as (rest & P & HF). eexists _, (hup_ s2 r h_new), (upd s1 r (@new K V)), (upd ss r None), rest, hp', (upd S r []).
        split; [reflexivity|]. split; [discriminate|]. split; [discriminate|]. split; [|split; [exact (HF None)|split; [|split; [|split]]]].
        + intros i. unfold hup_, upd. destruct (i =? r); [apply mrep_new|apply R].
        + pose proof (HeapSplit.goes_fst (b := rest) G (own_perm P O)) as G2. eapply goes_perm; [symmetry; exact P| |exact G2]. reflexivity.
        + apply rep_upd; [exact RS|apply new_valid|reflexivity].
        + split; [reflexivity|]. unfold upd. split; [now rewrite Nat.eqb_refl|]. intros i Ni. now destruct (Nat.eqb_spec i r).
        + contradiction.
    Qed.

    Lemma ddrun_ok ops : forall s2 s1 ss rs hp S w, reps s2 s1 ss -> held ss rs -> own hp rs -> exact_heap hp rs -> rep cmp s1 S ->
      Forall dlegal ops -> dd_ok S s2 hp ops (ddrun ops s2 hp w).
    Proof.
      induction ops as [|c ops IH]; intros s2 s1 ss rs hp S w R H O E RS HL; [constructor|]. inversion HL as [|? ? Hc HL']; subst.
      destruct c as [c| r cs|r lo hi cs|r cs].
      2,3,4: match goal with |- dd_ok _ _ _ (?c :: _) _ => destruct (@session_good c s2 s1 ss rs hp S w R H O RS I) as (o & s2' & s1' & ss' & rs' & hp' & S' & Es & Na & Nu & R' & H' & G & RS' & HS & HR) end;
        cbn [LookModel.ddrun]; rewrite Es;
        replace (match o with Abort | UB => [] | _ => ddrun ops s2' hp' w end) with (ddrun ops s2' hp' w) by (destruct o; congruence);
        pose proof (goes_exact G E) as E'; pose proof (go_own G) as O';
        eapply D_step; [exact HS|exact (memory_ok R' H' O' E' RS')|exact HR|exact Na|exact Nu|eapply IH; eauto].
      cbn [dlegal] in Hc.
      pose proof (@step_fine K V Q cmp qcmp borrow L1 L2 W nalloc place place_fresh kclone vclone eqb pcmp s1 s2 ss rs hp S R H O RS c w Hc) as HF.
      pose proof (@step_good K V Q cmp qcmp borrow L1 L2 W nalloc kclone vclone L3 eqb pcmp c s1 S w Hc RS) as HG.
      cbn [LookModel.ddrun LookModel.dstep]. unfold fine in HF. unfold good in HG.
      destruct (step c s1 w) as [[o s1'] w'], (hstep c s2 hp w) as [[[o2 s2'] hp'] w2]. destruct HF as (-> & -> & HF).
      assert (forall ss' rs' lost, reps s2' s1' ss' -> held ss' rs' -> goes hp rs hp' (rs' ++ lost) -> (lost = [] \/ quits c S o) -> o <> Abort -> o <> UB ->
        dd_ok S s2 hp (Plain c :: ops) ((fmap (@DPlain K V) o, s2', hp') :: ddrun ops s2' hp' w')) as KEY.
      { intros ss' rs' lost R' H' G Q' Na Nu. pose proof (goes_exact G E) as E'. pose proof (go_own G) as O'.
        assert (dgave_up cmp (no_memory nalloc) (Plain c) S (fmap (@DPlain K V) o) \/ lost = [] /\ exists S', spec cmp qcmp borrow eqb pcmp (no_memory nalloc) (cloned kclone vclone) (clone_fails nalloc kclone vclone) c S o S' /\ rep cmp s1' S') as X.
        { destruct HG as [(S' & HS & RS')|HG]; [destruct Q' as [Q'|Q']; [right; eauto|left]|left].
          - exists o. split; [reflexivity|]. eapply quits_gave_up; eauto.
          - exists o. auto. }
        destruct X as [X|(-> & S' & HS & RS')]; [apply D_gave_up; [exact X|exact (torn_ok R' H' O' E')]|].
        rewrite app_nil_r in O', E'. eapply D_step; [exists o; split; [reflexivity|exact HS]|exact (memory_ok R' H' O' E' RS')|intros []|destruct o; cbn; congruence|destruct o; cbn; congruence|]. eapply IH; eauto. }
      destruct o; cbn [fmap]; try (destruct HF as (ss' & rs' & lost & F1 & F2 & F3 & F4); eapply KEY; eauto; discriminate).
      - destruct HG as [(S' & HS & _)|HG]; [eapply D_dead; [exists Abort; eauto|auto]|]. eapply gave_up_alive in HG; destruct HG as [(e & X)|X]; discriminate X.
      - destruct HG as [(S' & HS & _)|HG]; [eapply D_dead; [exists UB; eauto|auto]|]. eapply gave_up_alive in HG; destruct HG as [(e & X)|X]; discriminate X.
    Qed.

    (** ** C53: every program *)
    Theorem C53_history : forall ops w, Forall dlegal ops -> dd_ok (nothing K V) hstart [] ops (ddrun ops hstart [] w).
    Proof.
      intros ops w HL. apply ddrun_ok with (s1 := start K V) (ss := fun _ => None) (rs := []); auto.
      - intros r. apply mrep_new.
      - exists 0. split; [reflexivity|constructor].
      - constructor; [constructor|constructor].
      - intros l Hl Hg. apply Hg. unfold hget. destruct (l =? sroot) eqn:El; [apply Nat.eqb_eq in El; congruence|reflexivity].
      - apply start_rep.
    Qed.
  End Run.
End Look.

(** ** A concrete program: 30 entries over several nodes.  An iterator is cloned halfway and both are run on;
    an IntoIter is printed after it has freed the first nodes of the tree *)
Definition looking : list (dop nat nat nat) :=
  map (fun k => Plain (Insert 0 ((k * 7) mod 30) k)) (seq 0 30) ++
  [ Look 0 ([LCall Front 0; LCall Back 0; LClone 0; LCall Front 1; LLen 0; LLen 1; LCall Front 0] ++ repeat (LCall Back 0) 25 ++ [LDebug 0; LLen 1; LCall Back 7]);
    LookRange 0 (Included 4) (Excluded 8) [LCall Back 0; LClone 0; LDebug 0; LCall Front 0; LDebug 0; LDebug 1; LLen 0];
    LookRange 0 (Excluded 3) (Excluded 3) [LDebug 0];
    Consume 0 (repeat (ICall Front) 20 ++ [ICall Back; ILen; IDebug; ICall Front; IDebug]);
    Look 0 [LDebug 0; LCall Front 0] ].
Example looking_legal : Forall (@dlegal nat nat nat) looking.
Proof. repeat constructor. Qed.
Notation nddrun := (ddrun grant (@place_reuse nat nat unit) Nat.compare Nat.compare (fun k => k) copy_ copy_
  (fun x y : nat * nat => (fst x =? fst y) && (snd x =? snd y)) (fun x y => Some (Nat.compare (fst x) (fst y)))).
Example looking_result : map (fun x => match fst (fst x) with Ret (DSession l d) => (skipn 20 (map (fun o => match o with LShown l => map fst l | LItem (Some x) => [fst x] | LCount (Some n) => [n; n] | _ => [] end) l), map fst d) | _ => ([], []) end) (skipn 30 (nddrun looking hstart [] tt)) =
  [ ([[15]; [14]; [13]; [12]; [11]; [10]; [9]; [8]; [7]; [6]; [5]; [4]; [2; 3]; [27; 27]; []], []);
    ([], []); ([], []);
    ([[29]; [9; 9]; [20; 21; 22; 23; 24; 25; 26; 27; 28]; [20]; [21; 22; 23; 24; 25; 26; 27; 28]], [21; 22; 23; 24; 25; 26; 27; 28]);
    ([], []) ].
Proof. vm_compute. reflexivity. Qed.
Example looking_range : map (fun x => fst (fst x)) (firstn 2 (skipn 31 (nddrun looking hstart [] tt))) =
  [ Ret (DSession [LItem (Some (7, 1)); LDone; LShown [(4, 22); (5, 5); (6, 18)]; LItem (Some (4, 22)); LShown [(5, 5); (6, 18)];
                   LShown [(4, 22); (5, 5); (6, 18)]; LCount None] []); Panic ].
Proof. vm_compute. reflexivity. Qed.
Example looking_ok : dd_ok Nat.compare Nat.compare (fun k => k) (fun x y : nat * nat => (fst x =? fst y) && (snd x =? snd y))
  (fun x y => Some (Nat.compare (fst x) (fst y))) (no_memory grant) (cloned (@copy_ unit) (@copy_ unit)) (clone_fails grant (@copy_ unit) (@copy_ unit))
  (nothing nat nat) hstart [] looking (nddrun looking hstart [] tt).
Proof.
  apply C53_history; auto using nat_laws, nat_borrow, place_reuse_fresh, looking_legal.
  intros k w k' w' E. injection E. intros. subst. apply Nat.compare_refl.
Qed.
(** nodes: five before the IntoIter, none afterwards *)
Example looking_nodes : map (fun x => length (allocated (snd x))) (skipn 30 (nddrun looking hstart [] tt)) = [5; 5; 5; 0; 0].
Proof. vm_compute. reflexivity. Qed.

Print Assumptions C53_history.
