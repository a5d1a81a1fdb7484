(** * Properties_Heap: C40

    The operations on raw memory ([HeapModel], [HeapMapModel]: cells with
    uninitialised slots, parent pointers, explicit allocation and freeing;
    any undefined behaviour makes the outcome [UB]).  [HeapSpec.memory]
    says, about cells and addresses only, that the variables hold the given
    lists and that every allocated node belongs to one of them;
    [HeapSpec.runs_ok] that this is so after every step of a program. *)
From Coq Require Import List Arith Lia Bool Sorted Permutation.
From Verif Require Import Base MapSpec IterSpec BTreeModel BTreeInv BTreeLemmas BTreeInsert BTreeIterModel BTreeBulkModel BTreeClone BTreeSplit
  BTreeWrites BTreeCollect BTreeSetModel Properties_BTree Properties_BTree2 HistoryModel HistorySpec HistoryProofs Properties_History Examples.
From Verif Require Import HeapModel HeapMapModel HeapArr HeapRep HeapWp HeapRes HeapMap HeapHistory HeapSpec HeapMemory.
Import ListNotations.
Set Implicit Arguments.

(** the variables an operation writes *)
Definition touches K V Q (c : op K V Q) : list nat :=
  match c with
  | New r | Clear r | Insert r _ _ | Replace r _ _ | Remove r _ | Take r _ | GetMut r _ _ | Extend r _ | IterMut r _ _ | RangeMut r _ _ _ _
  | IntoIter_ r _ | EntryOr r _ _ _ | EntryRemove r _ => [r]
  | Append r t | SplitOff r _ t => [r; t]
  | TryClone _ t | Clone _ t => [t]
  | _ => []
  end.

Section Heap.
  Variables (K V Q : Type) (cmp : K -> K -> comparison) (qcmp : Q -> Q -> comparison) (borrow : K -> Q).
  Notation kv := (K * V)%type.
  Notation heap := (heap K V).
  Variables (W : Type) (nalloc : bool -> W -> option reserve_error * W) (place : heap -> W -> loc).
  Variables (kclone : K -> W -> outcome reserve_error K * W) (vclone : V -> W -> outcome reserve_error V * W).
  Variables (eqb : kv -> kv -> bool) (pcmp : kv -> kv -> option comparison).
  Notation step := (step nalloc cmp qcmp borrow kclone vclone eqb pcmp).
  Notation hstep := (hstep nalloc place cmp qcmp borrow kclone vclone eqb pcmp).
  Notation hrun := (hrun nalloc place cmp qcmp borrow kclone vclone eqb pcmp).
  Notation spec_ := (spec cmp qcmp borrow eqb pcmp (no_memory nalloc) (cloned kclone vclone) (clone_fails nalloc kclone vclone)).
  Notation runs_ok := (runs_ok cmp qcmp borrow eqb pcmp (no_memory nalloc) (cloned kclone vclone) (clone_fails nalloc kclone vclone)).

  (** all variables start as BTreeMap::new(), nothing is allocated *)
  Definition hstart : hregs := fun _ => h_new.

  Lemma quits_gave_up c S o S' : spec_ c S o S' -> quits c S o -> gave_up cmp (no_memory nalloc) c S o.
  Proof.
    intros HS HQ. destruct c; cbn [quits] in HQ; try contradiction; cbn [spec gave_up] in *.
    - destruct HQ as [(e & ->) HQ]. destruct HS as [[X _]|(e' & E & H1 & H2 & _)]; [discriminate X|]. exfalso. rewrite H2 in HQ. cbn in HQ. lia.
    - destruct HQ as [(e & ->) HQ]. destruct HS as [[X _]|(e' & E & H1 & H2 & _)]; [discriminate X|]. exfalso. rewrite H2 in HQ. cbn in HQ. lia.
    - destruct HS as [X _]. congruence.
    - destruct HS as [X _]. congruence.
    - destruct HQ as [(e & ->) HQ]. unfold absent. destruct (s_get (cmp k) (S r)) as [x|]; [destruct HS as [X _]; discriminate X|].
      destruct HS as [[X _]|(e' & E & H1 & H2 & _)]; [discriminate X|]. exfalso. rewrite H2 in HQ. cbn in HQ. lia.
  Qed.

  Lemma gave_up_alive (c : op K V Q) S o : gave_up cmp (no_memory nalloc) c S o -> (exists e, o = Err e) \/ o = Panic.
  Proof.
    destruct c; cbn [gave_up]; try contradiction; try (intros (e & H & _); eauto); intros [H _]; auto.
  Qed.

  Section Run.
    Hypothesis (L1 : ord_laws cmp) (L2 : borrow_laws cmp qcmp borrow).
    Hypothesis L3 : forall k w k' w', kclone k w = (Ret k', w') -> cmp k k' = Eq.
    Hypothesis place_fresh : forall hp w, hget hp (place hp w) = None.

    Lemma hrun_ok ops : forall s2 s1 ss rs hp S w, reps s2 s1 ss -> held ss rs -> own hp rs -> exact_heap hp rs -> rep cmp s1 S ->
      Forall (@legal K V Q) ops -> runs_ok S ops (hrun ops s2 hp w).
    Proof.
      induction ops as [|c ops IH]; intros s2 s1 ss rs hp S w R H O E RS HL; [constructor|]. inversion HL as [|? ? Hc HL']; subst.
      pose proof (@step_fine K V Q cmp qcmp borrow L1 L2 W nalloc place place_fresh kclone vclone eqb pcmp s1 s2 ss rs hp S R H O RS c w Hc) as HF.
      pose proof (@step_good K V Q cmp qcmp borrow L1 L2 W nalloc kclone vclone L3 eqb pcmp c s1 S w Hc RS) as HG.
      cbn [HeapMapModel.hrun]. unfold fine in HF. unfold good in HG.
      destruct (step c s1 w) as [[o s1'] w'], (hstep c s2 hp w) as [[[o2 s2'] hp'] w2]. destruct HF as (-> & -> & HF).
      assert (forall ss' rs' lost, reps s2' s1' ss' -> held ss' rs' -> goes hp rs hp' (rs' ++ lost) -> (lost = [] \/ quits c S o) -> o <> Abort -> o <> UB ->
        runs_ok S (c :: ops) ((o, s2', hp') :: match o with Abort | UB => [] | _ => hrun ops s2' hp' w' end)) as KEY.
      { intros ss' rs' lost R' H' G Q' Na Nu. pose proof (goes_exact G E) as E'. pose proof (go_own G) as O'.
        destruct HG as [(S' & HS & RS')|HG].
        - destruct Q' as [-> |Q'].
          + rewrite app_nil_r in O', E'.
            replace (match o with Abort | UB => [] | _ => hrun ops s2' hp' w' end) with (hrun ops s2' hp' w') by (destruct o; congruence).
            eapply H_step; [exact HS|exact (memory_ok R' H' O' E' RS')|exact Na|exact Nu|]. eapply IH; eauto.
          + apply H_gave_up; [exact (@quits_gave_up _ _ _ _ HS Q')|exact (torn_ok R' H' O' E')].
        - apply H_gave_up; [exact HG|exact (torn_ok R' H' O' E')]. }
      destruct o; try (destruct HF as (ss' & rs' & lost & F1 & F2 & F3 & F4); eapply KEY; eauto; discriminate).
      - destruct HG as [(S' & HS & _)|HG]; [eapply H_dead; eauto|]. destruct (@gave_up_alive _ _ _ HG) as [(e & X)|X]; discriminate X.
      - destruct HG as [(S' & HS & _)|HG]; [eapply H_dead; eauto|]. destruct (@gave_up_alive _ _ _ HG) as [(e & X)|X]; discriminate X.
    Qed.

    (** ** C40: every history, whatever the allocator grants and wherever it places nodes *)
    Theorem C40_history : forall ops w, Forall (@legal K V Q) ops -> runs_ok (nothing K V) ops (hrun ops hstart [] w).
    Proof.
      intros ops w HL. apply hrun_ok with (s1 := start K V) (ss := fun _ => None) (rs := []); auto.
      - intros r. apply mrep_new.
      - exists 0. split; [reflexivity|constructor].
      - constructor; [constructor|constructor].
      - intros l Hl Hg. apply Hg. unfold hget. destruct (l =? sroot) eqn:El; [apply Nat.eqb_eq in El; congruence|reflexivity].
      - apply start_rep.
    Qed.
  End Run.

  (** with memory and clone functions that return, a program runs to its end:
      every step is as specified and leaves the memory of the lists *)
  Inductive runs_good : (nat -> list kv) -> list (op K V Q) -> list (outcome reserve_error (obs K V) * hregs * heap) -> Prop :=
  | G_end S : runs_good S [] []
  | G_step S c l o s hp S' rest :
      spec cmp qcmp borrow eqb pcmp (fun _ => False) (cloned kclone vclone) (fun _ => False) c S o S' ->
      memory cmp s hp S' ->
      match o with
      | Ret _ => True
      | Panic => match c with Index _ _ | RangeOver _ _ _ _ | RangeMut _ _ _ _ _ => True | _ => False end
      | _ => False
      end -> runs_good S' l rest -> runs_good S (c :: l) ((o, s, hp) :: rest).

  Theorem C40_with_memory : ord_laws cmp -> borrow_laws cmp qcmp borrow ->
    (forall k w k' w', kclone k w = (Ret k', w') -> cmp k k' = Eq) ->
    (forall hp w, hget hp (place hp w) = None) ->
    (forall internal w, fst (nalloc internal w) = None) ->
    (forall k w, is_ret (fst (kclone k w))) -> (forall v w, is_ret (fst (vclone v w))) ->
    forall ops w, Forall (@legal K V Q) ops -> runs_good (nothing K V) ops (hrun ops hstart [] w).
  Proof.
    intros L1 L2 L3 PF A1 A2 A3 ops w HL. pose proof (C40_history L1 L2 L3 PF w HL) as HA. clear HL.
    destruct (spec_with_memory cmp qcmp borrow nalloc kclone vclone eqb pcmp A1 A2 A3) as [NM HX].
    induction HA as [S|S c l o s hp S' rest HS HM Ha Hu HA IH|S c l o s hp S' HS Hd|S c l o s hp rest HG HT].
    - constructor.
    - destruct (HX _ _ _ _ HS) as [X1 X2]. eapply G_step; eauto.
    - destruct (HX _ _ _ _ HS) as [X1 X2]. destruct Hd; subst o; contradiction.
    - exfalso. destruct c; cbn [gave_up] in HG; try contradiction;
        [destruct HG as (e & _ & He & _)|destruct HG as (e & _ & He & _)|destruct HG as (_ & e & He)|destruct HG as (_ & e & He)|destruct HG as (e & _ & He & _)];
        exact (NM _ He).
  Qed.

  (** ** Nothing is leaked *)
  (** a step that neither killed the program nor was refused while adding entries *)
  Definition unharmed (c : op K V Q) (x : outcome reserve_error (obs K V) * hregs * heap) : Prop :=
    match fst (fst x) with
    | Ret _ => True
    | Err _ | Panic => match c with Insert _ _ _ | Replace _ _ _ | EntryOr _ _ _ _ | Extend _ _ | Append _ _ => False | _ => True end
    | Abort | UB => False
    end.
  Definition last_regs (s : hregs) (l : list (outcome reserve_error (obs K V) * hregs * heap)) : hregs := last (map (fun x => snd (fst x)) l) s.
  Definition last_heap (l : list (outcome reserve_error (obs K V) * hregs * heap)) : heap := last (map snd l) [].

  Lemma hup_other s r m i : i <> r -> hup_ s r m i = s i.
  Proof. intros H. unfold hup_. destruct (Nat.eqb_spec i r); congruence. Qed.

  Lemma hstep_touches c s hp w r : ~ In r (touches c) -> snd (fst (fst (hstep c s hp w))) r = s r.
  Proof.
    intros H. unfold HeapMapModel.hstep, pure, hbind, hret, lift.
    destruct c; cbn [touches In] in H;
      repeat match goal with
             | |- context [match ?x with _ => _ end] => lazymatch x with context [match _ with _ => _ end] => fail | _ => destruct x end
             end; cbn [fst snd]; repeat rewrite hup_other by (intro; subst; tauto); reflexivity.
  Qed.
  Lemma last_cons_ A (x d : A) l : last (x :: l) d = last l x.
  Proof. revert x d. induction l as [|y l IH]; intros x d; [reflexivity|]. change (last (x :: y :: l) d) with (last (y :: l) d). now rewrite !IH. Qed.

  Lemma hrun_untouched ops r : forall s hp w, ~ In r (flat_map (@touches K V Q) ops) -> last_regs s (hrun ops s hp w) r = s r.
  Proof.
    induction ops as [|c ops IH]; intros s hp w H; [reflexivity|]. cbn [flat_map] in H. rewrite in_app_iff in H. cbn [HeapMapModel.hrun].
    pose proof (@hstep_touches c s hp w r) as X. destruct (hstep c s hp w) as [[[o s'] hp'] w']. cbn [fst snd] in X.
    unfold last_regs. cbn [map fst snd]. rewrite last_cons_. rewrite <- X by tauto.
    destruct o; try (apply IH; tauto); reflexivity.
  Qed.
  Lemma hstep_clear s hp w r : fst (fst (fst (hstep (Clear r) s hp w))) = UB \/ snd (fst (fst (hstep (Clear r) s hp w))) r = h_new.
  Proof.
    unfold HeapMapModel.hstep, pure, hbind, hret. destruct (h_drop (s r) hp) as [[u hp']|]; cbn [fst snd]; [right|now left].
    unfold hup_. now rewrite Nat.eqb_refl.
  Qed.
  Lemma hrun_cleared a b r : ~ In r (flat_map (@touches K V Q) b) ->
    forall s hp w, Forall2 unharmed (a ++ Clear r :: b) (hrun (a ++ Clear r :: b) s hp w) ->
    last_regs s (hrun (a ++ Clear r :: b) s hp w) r = h_new.
  Proof.
    intros Hb. induction a as [|c a IH]; intros s hp w; cbn [app].
    - cbn [HeapMapModel.hrun]. pose proof (hstep_clear s hp w r) as X.
      destruct (hstep (Clear r) s hp w) as [[[o s'] hp'] w']. cbn [fst snd] in X. intros F. inversion F as [|? ? ? ? U F']; subst.
      destruct X as [-> |X]; [destruct U|]. unfold last_regs. cbn [map fst snd]. rewrite last_cons_. rewrite <- X.
      destruct o; try (now apply hrun_untouched); reflexivity.
    - cbn [HeapMapModel.hrun]. destruct (hstep c s hp w) as [[[o s'] hp'] w']. intros F. inversion F as [|? ? ? ? U F']; subst.
      unfold last_regs. cbn [map fst snd]. rewrite last_cons_. destruct o; try (exact (IH _ _ _ F')); destruct U.
  Qed.

  Lemma runs_ok_last S l res s0 : runs_ok S l res -> Forall2 unharmed l res -> l <> [] -> exists S', memory cmp (last_regs s0 res) (last_heap res) S'.
  Proof.
    intros H. unfold last_regs, last_heap. generalize (@nil (loc * option (cell K V))) as hp0. revert s0.
    induction H as [S|S c l o s hp S' rest HS HM Ha Hu HA IH|S c l o s hp S' HS Hd|S c l o s hp rest HG HT]; intros s0 hp0 F Ne.
    - congruence.
    - inversion F as [|? ? ? ? U F']; subst. cbn [map fst snd]. rewrite !last_cons_. destruct l as [|c' l].
      + inversion F'; subst. cbn [map last]. eauto.
      + apply IH; [exact F'|discriminate].
    - inversion F as [|? ? ? ? U F']; subst. destruct Hd; subst o; destruct U.
    - inversion F as [|? ? ? ? U F']; subst. exfalso. unfold unharmed in U. cbn [fst] in U.
      destruct c; cbn [gave_up] in HG; try contradiction.
      + destruct HG as (e & -> & _). contradiction.
      + destruct HG as (e & -> & _). contradiction.
      + destruct HG as (-> & _). contradiction.
      + destruct HG as (-> & _). contradiction.
      + destruct HG as (e & -> & _). contradiction.
  Qed.

  (** a program that works on the variables below [N] and drops them in the
      end has freed every node, unless it was refused memory while adding
      entries or a clone of an element killed it *)
  Theorem C40_no_leak : ord_laws cmp -> borrow_laws cmp qcmp borrow ->
    (forall k w k' w', kclone k w = (Ret k', w') -> cmp k k' = Eq) ->
    (forall hp w, hget hp (place hp w) = None) ->
    forall ops N w, Forall (@legal K V Q) ops -> (forall c r, In c ops -> In r (touches c) -> r < N) ->
    let prog := ops ++ map Clear (seq 0 N) in
    let res := hrun prog hstart [] w in
    Forall2 unharmed prog res -> forall l, l <> sroot -> hget (last_heap res) l = None.
  Proof.
    intros L1 L2 L3 PF ops N w HL HT prog res F l Hl.
    assert (Forall (@legal K V Q) prog) as HLp.
    { apply Forall_app. split; [exact HL|]. apply Forall_forall. intros c Hc. apply in_map_iff in Hc as (r & <- & _). exact I. }
    assert (forall r, last_regs hstart res r = h_new) as Hnew.
    { intros r. destruct (le_lt_dec N r) as [Hr|Hr].
      - unfold res. rewrite hrun_untouched; [reflexivity|]. intros H. apply in_flat_map in H as (c & Hc & H). apply in_app_or in Hc as [Hc|Hc].
        + specialize (HT c r Hc H). lia.
        + apply in_map_iff in Hc as (i & <- & Hi). apply in_seq in Hi. destruct H as [<- |[]]. lia.
      - assert (prog = (ops ++ map Clear (seq 0 r)) ++ Clear r :: map Clear (seq (S r) (N - S r))) as E.
        { unfold prog. rewrite <- app_assoc. f_equal. replace N with (r + S (N - S r)) at 1 by lia. rewrite seq_app, map_app. reflexivity. }
        unfold res. rewrite E. apply hrun_cleared; [|rewrite <- E; exact F]. intros H. apply in_flat_map in H as (c & Hc & H).
        apply in_map_iff in Hc as (i & <- & Hi). apply in_seq in Hi. destruct H as [<- |[]]. lia. }
    destruct prog as [|c prog'] eqn:Ep.
    - unfold res. cbn. unfold hget. destruct (l =? sroot) eqn:El; [apply Nat.eqb_eq in El; congruence|reflexivity].
    - assert (exists S', memory cmp (last_regs hstart res) (last_heap res) S') as (S' & nodes & M1 & M2 & M3).
      { eapply runs_ok_last; [|exact F|discriminate]. unfold res. now apply C40_history. }
      destruct (hget (last_heap res) l) eqn:E; [|reflexivity]. exfalso. destruct (M3 l Hl ltac:(congruence)) as (r & Hr).
      destruct (M1 r) as (_ & _ & [(_ & _ & X)|X]); [rewrite X in Hr; destruct Hr|]. rewrite Hnew in X. cbn in X. destruct X as [X _]. now apply X.
  Qed.
End Heap.

(** ** Concrete programs *)
(** two placements: a new address each time, and the most recently freed one first *)
Definition place_new K V W (hp : heap K V) (_ : W) : loc := S (list_max (map fst hp)).
Definition place_reuse K V W (hp : heap K V) (w : W) : loc :=
  match find (fun l => match hget hp l with Some _ => false | None => true end) (map fst hp) with Some l => l | None => place_new hp w end.
Lemma place_new_fresh K V W (hp : heap K V) (w : W) : hget hp (place_new hp w) = None.
Proof.
  assert (forall (l : list (loc * option (cell K V))) x, list_max (map fst l) < x -> hfind l x = None) as H.
  { induction l as [|[a c] l IH]; intros x Hx; [reflexivity|]. cbn [map fst list_max fold_right hfind] in *. fold (list_max (map fst l)) in Hx.
    destruct (Nat.eqb_spec a x); [lia|]. apply IH. lia. }
  unfold hget, place_new. cbn [Nat.eqb sroot]. apply H. lia.
Qed.
Lemma place_reuse_fresh K V W (hp : heap K V) (w : W) : hget hp (place_reuse hp w) = None.
Proof.
  unfold place_reuse. destruct (find _ _) as [l|] eqn:E; [|apply place_new_fresh]. apply find_some in E as [_ E]. now destruct (hget hp l).
Qed.

Notation nhrun := (hrun grant (@place_reuse nat nat unit) Nat.compare Nat.compare (fun k => k) copy_ copy_
  (fun x y : nat * nat => (fst x =? fst y) && (snd x =? snd y)) (fun x y => Some (Nat.compare (fst x) (fst y)))).
Example demo_good : runs_good Nat.compare Nat.compare (fun k => k) (@copy_ unit) (@copy_ unit)
  (fun x y : nat * nat => (fst x =? fst y) && (snd x =? snd y)) (fun x y => Some (Nat.compare (fst x) (fst y)))
  (nothing nat nat) demo (nhrun demo hstart [] tt).
Proof.
  apply C40_with_memory; auto using nat_laws, nat_borrow, demo_legal, place_reuse_fresh; try (intros; exact I).
  intros k w k' w' E. injection E. intros. subst. apply Nat.compare_refl.
Qed.
(** the outcomes are those of the program on trees (Properties_History) *)
Example demo_same : map (fun x => fst (fst x)) (nhrun demo hstart [] tt) = map fst (nrun demo (start nat nat) tt).
Proof. vm_compute. reflexivity. Qed.
Lemma unharmed_outcomes K V Q (l : list (op K V Q)) : forall res, Forall2 (fun c o => unharmed c (o, hstart, [])) l (map (fun x => fst (fst x)) res) ->
  Forall2 (@unharmed K V Q) l res.
Proof. induction l as [|c l IH]; intros [|x res] F; inversion F; subst; constructor; auto. Qed.
(** and after dropping its three maps nothing is allocated *)
Example demo_clean : forall l, l <> sroot -> hget (last_heap (nhrun (demo ++ map Clear (seq 0 3)) hstart [] tt)) l = None.
Proof.
  apply C40_no_leak; auto using nat_laws, nat_borrow, demo_legal, place_reuse_fresh.
  - intros k w k' w' E. injection E. intros. subst. apply Nat.compare_refl.
  - intros c r Hc Hr. unfold demo in Hc. cbn in Hc.
    repeat (destruct Hc as [<- |Hc]; [cbn in Hr; repeat (destruct Hr as [<- |Hr]; [lia|]); destruct Hr|]). destruct Hc.
  - apply unharmed_outcomes. vm_compute. repeat constructor.
Qed.
(** while it runs, nodes are allocated, freed, and their addresses used again *)
Definition allocated (hp : heap nat nat) : list loc := filter (fun l => match hget hp l with Some _ => true | None => false end) (seq 1 20).
Example demo_nodes : map (fun x => length (allocated (snd x))) (skipn 29 (nhrun (demo ++ map Clear (seq 0 3)) hstart [] tt)) =
  [5; 7; 7; 7; 7; 4; 4; 8; 8; 8; 8; 8; 8; 8; 4; 4; 4; 0; 0; 0].
Proof. vm_compute. reflexivity. Qed.

(** the exception is real: an insertion that is refused memory for the second
    of the two nodes it needs leaves a node that no map has any more, and dropping the map
    is then undefined (C24) *)
Definition refused : list (op nat nat nat) := map (fun k => Insert 0 k k) (seq 0 12) ++ [Clear 0].
Notation bhrun := (hrun budget (@place_reuse nat nat nat) Nat.compare Nat.compare (fun k => k) copy_ copy_
  (fun x y : nat * nat => (fst x =? fst y) && (snd x =? snd y)) (fun x y => Some (Nat.compare (fst x) (fst y)))).
Theorem C24_raw_memory_refuted : exists ops w, Forall (@legal nat nat nat) ops /\
  map (fun x => (fst (fst x), allocated (snd x))) (skipn 10 (bhrun ops hstart [] w)) =
  [(Ret (OVal nat None), [1]); (Err AllocError, [1; 2]); (UB, [1; 2])].
Proof. exists refused, 2. split; [repeat constructor|]. vm_compute. reflexivity. Qed.
(** up to there the memory is as C40_history says *)
Example refused_ok : runs_ok Nat.compare Nat.compare (fun k => k) (fun x y : nat * nat => (fst x =? fst y) && (snd x =? snd y))
  (fun x y => Some (Nat.compare (fst x) (fst y))) (no_memory budget) (cloned (@copy_ nat) (@copy_ nat)) (clone_fails budget (@copy_ nat) (@copy_ nat))
  (nothing nat nat) refused (bhrun refused hstart [] 2).
Proof.
  apply C40_history; auto using nat_laws, nat_borrow, place_reuse_fresh.
  - intros k w k' w' E. injection E. intros. subst. apply Nat.compare_refl.
  - repeat constructor.
Qed.

Print Assumptions C40_history.
Print Assumptions C40_with_memory.
Print Assumptions C40_no_leak.
Print Assumptions C24_raw_memory_refuted.
