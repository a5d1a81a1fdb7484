(** * Properties_SetHistory: C47

    A program ([SetHistoryModel]) is any list of calls on any number of
    BTreeSets, starting with empty ones: insertions, removals, lookups, append,
    split_off, clone, extend, collect, iterators, ranges, comparisons, the four
    lazy combinations, the three relations and the four operators.
    [SetHistorySpec.sspec] says what each call may do, about ascending lists. *)
From Coq Require Import List Arith Lia Bool Sorted.
From Verif Require Import Base MapSpec IterSpec SetSpec BTreeModel BTreeInv BTreeLemmas BTreeInsert BTreeIterModel BTreeRange BTreeSetModel BTreeSets BTreeCollect BTreeSplit BTreeWrites BTreeClone HistoryModel HistorySpec
  HistoryProofs Properties_BTree Properties_BTree2 Properties_History SetHistoryModel SetHistorySpec SetHistoryProofs Examples.
Import ListNotations.
Set Implicit Arguments.

Section SetHistory.
  Variables (T Q : Type) (cmp : T -> T -> comparison) (qcmp : Q -> Q -> comparison) (borrow : T -> Q).
  Variables (W : Type) (nalloc : bool -> W -> option reserve_error * W).
  Variables (tclone : T -> W -> outcome Empty_set T * W) (teq : T -> T -> bool) (tpcmp : T -> T -> option comparison).
  Notation srun := (srun nalloc cmp qcmp borrow tclone teq tpcmp).

  Definition sstart : sregs T := fun _ => set_new T.
  Definition snothing : nat -> list T := fun _ => [].
  Lemma sstart_rep : srep cmp sstart snothing.
  Proof. intros r. split; [split; [apply new_sound|constructor]|reflexivity]. Qed.

  (** ** C47: every program over sets agrees with ascending lists, with every set
      well built after every step (up to a refused insertion of a new element
      into a set of 11 or more elements, or a bulk operation that panicked for
      lack of memory) *)
  Theorem C47_history : ord_laws cmp -> borrow_laws cmp qcmp borrow -> clone_lawful cmp tclone ->
    forall ops w, Forall (@slegal T Q) ops ->
    sagrees cmp qcmp borrow teq tpcmp (no_memory nalloc) (copy_of tclone) (tclone_ends tclone) snothing ops (srun ops sstart w).
  Proof. intros L1 L2 L3 ops w HL. eapply srun_agrees; eauto. apply sstart_rep. Qed.

  (** with memory and clones that return, a program runs to its end as
      specified, and only bad range bounds panic *)
  Inductive sagrees_ : (nat -> list T) -> list (sop T Q) -> list (outcome reserve_error (sobs T) * sregs T) -> Prop :=
  | SB_end S : sagrees_ S [] []
  | SB_step S c l o s S' rest :
      sspec cmp qcmp borrow teq tpcmp (fun _ => False) (copy_of tclone) (fun _ => False) c S o S' ->
      (forall r, well_built cmp (s r) (map (fun x => (x, tt)) (S' r))) ->
      match o with
      | Ret _ => True
      | Panic => match c with SRange _ lo hi _ => s_bad qcmp lo hi | _ => False end
      | _ => False
      end -> sagrees_ S' l rest -> sagrees_ S (c :: l) ((o, s) :: rest).

  Lemma sspec_with_memory :
    (forall internal w, fst (nalloc internal w) = None) -> (forall x w, is_ret (fst (tclone x w))) ->
    (forall e, ~ no_memory nalloc e) /\
    forall c S o S', sspec cmp qcmp borrow teq tpcmp (no_memory nalloc) (copy_of tclone) (tclone_ends tclone) c S o S' ->
      sspec cmp qcmp borrow teq tpcmp (fun _ => False) (copy_of tclone) (fun _ => False) c S o S' /\
      match o with
      | Ret _ => True
      | Panic => match c with SRange _ lo hi _ => s_bad qcmp lo hi | _ => False end
      | _ => False
      end.
  Proof.
    intros A1 A2.
    assert (NM : forall e, ~ no_memory nalloc e) by (intros e (i & w0 & w' & E); specialize (A1 i w0); rewrite E in A1; discriminate).
    assert (NC : forall u, tclone_ends tclone u -> u = Ret tt).
    { intros u (x & w0 & <-). specialize (A2 x w0). destruct (fst (tclone x w0)); cbn in *; try contradiction; auto. }
    assert (NB : forall P u S o S', built_ cmp (no_memory nalloc) (copy_of tclone) (tclone_ends tclone) P u S o S' ->
       built_ cmp (fun _ => False) (copy_of tclone) (fun _ => False) P u S o S' /\ o = Ret SUnit).
    { intros P u S o S' [(R & l & H1 & H2 & -> & H3)|[(_ & (e & He) & _)|(v & Hv & Hn & _)]]; [|destruct (NM _ He)|apply NC in Hv; now destruct (Hn tt)].
      split; [left; exists R, l|]; auto. }
    split; [exact NM|].
    intros c S o S' HS. destruct c; cbn [sspec] in *; try (destruct HS as [-> HS]; split; [split; auto|exact I]);
      try (apply NB in HS; destruct HS as [HS ->]; split; [exact HS|exact I]);
      try (destruct HS as (b & -> & HS); split; [exists b; auto|exact I]);
      try (destruct HS as (R & a & b & H1 & -> & H2); split; [exists R, a, b; auto|exact I]).
    - destruct HS as [[-> HS]|(e & _ & He & _)]; [auto|destruct (NM _ He)].
    - destruct HS as [[-> HS]|(e & _ & He & _)]; [auto|destruct (NM _ He)].
    - destruct HS as (l & H1 & -> & H2). split; [exists l; auto|exact I].
    - destruct HS as [[-> HS]|(e & _ & He & _)]; [auto|destruct (NM _ He)].
    - destruct HS as [[-> HS]|(_ & (e & He) & _)]; [auto|destruct (NM _ He)].
    - destruct (dq_run calls (S r)) as [x y]. destruct HS as [-> HS]. auto.
    - destruct HS as [(Hb & -> & HS)|(Hb & -> & HS)]; split; auto.
    - destruct (dq_run calls (S r)) as [x y]. destruct HS as [-> HS]. auto.
  Qed.

  Theorem C47_with_memory : ord_laws cmp -> borrow_laws cmp qcmp borrow -> clone_lawful cmp tclone ->
    (forall internal w, fst (nalloc internal w) = None) -> (forall x w, is_ret (fst (tclone x w))) ->
    forall ops w, Forall (@slegal T Q) ops -> sagrees_ snothing ops (srun ops sstart w).
  Proof.
    intros L1 L2 L3 A1 A2 ops w HL. pose proof (C47_history L1 L2 L3 w HL) as HA. clear HL.
    destruct (sspec_with_memory A1 A2) as [NM HX].
    induction HA as [S|S c l o s S' rest HS HP Ha Hu HA IH|S c l o s S' HS Hd|S c l o s rest HG].
    - constructor.
    - destruct (HX _ _ _ _ HS) as [H1 H2]. eapply SB_step; eauto.
    - destruct (HX _ _ _ _ HS) as [H1 H2]. destruct Hd; subst o; contradiction.
    - exfalso. destruct c; cbn [sgave_up] in HG; try contradiction;
        try (destruct HG as (e & _ & He & _); exact (NM _ He)); destruct HG as (_ & e & He); exact (NM _ He).
  Qed.
End SetHistory.

(** ** A concrete program meeting the hypotheses *)
Definition tcopy {W} (x : nat) (w : W) : outcome Empty_set nat * W := (Ret x, w).
Notation nsrun := (srun grant Nat.compare Nat.compare (fun k => k) tcopy Nat.eqb (fun x y => Some (Nat.compare x y))).
Definition sdemo : list (sop nat nat) :=
  map (fun k => SInsert 0 ((k * 7) mod 30)) (seq 0 30) ++
  [ SInsert 0 4; SSplitOff 0 12 1; SLen 0; SExtend 1 [3; 40; 3; 12]; SIsSubset 0 1; SIsDisjoint 0 1;
    SDifference 1 0 3; SIntersection 0 1 2; SUnion 0 1 4; SSymmetricDifference 0 1 4;
    SSub 1 0 2; SIterate 2 [Back; Front; Front]; SAnd 0 1 3; SIntoIter 3 [Front; Front]; SOr 0 1 4; SIsSuperset 4 1; SXor 0 1 5;
    SEqual 4 5; SCompare 4 5; SAppend 0 1; SEqual 0 4; SIsEmpty 1; SRemove 0 3; STake 0 3; SGet 0 40; SContains 0 41; SReplace 0 50;
    SRange 0 (Excluded 2) (Included 6) [Front; Back; Front; Front]; SRange 0 (Included 3) (Included 2) []; SCollect 6 [5; 1; 5; 2]; SClone 6 7; SIntoIter 7 [Back] ].
Example sdemo_legal : Forall (@slegal nat nat) sdemo.
Proof. repeat constructor; cbn; lia. Qed.
Example sdemo_result : map fst (skipn 30 (nsrun sdemo (sstart nat) tt)) =
  [ Ret (SBool false); Ret SUnit; Ret (SNat 12); Ret SUnit; Ret (SBool false); Ret (SBool false);
    Ret (SLazy [Some 12; Some 13; Some 14] 16 (Some 16)); Ret (SLazy [Some 3; None] 0 (Some 0));
    Ret (SLazy [Some 0; Some 1; Some 2; Some 3] 19 (Some 27)); Ret (SLazy [Some 0; Some 1; Some 2; Some 4] 0 (Some 26));
    Ret SUnit; Ret (SSized [Some 40; Some 12; Some 13] 16); Ret SUnit; Ret (SDropped [Some 3; None] []); Ret SUnit; Ret (SBool true); Ret SUnit;
    Ret (SBool false); Ret (SCmp (Some Lt)); Ret SUnit; Ret (SBool true); Ret (SBool true); Ret (SBool true); Ret (SElem None); Ret (SElem (Some 40)); Ret (SBool false); Ret (SElem None);
    Ret (SItems [Some 4; Some 6; Some 5; None]); Panic; Ret SUnit; Ret SUnit; Ret (SDropped [Some 5] [1; 2]) ].
Proof. vm_compute. reflexivity. Qed.
Example sdemo_agrees : sagrees_ Nat.compare Nat.compare (fun k => k) (@tcopy unit) Nat.eqb (fun x y => Some (Nat.compare x y))
  (snothing nat) sdemo (nsrun sdemo (sstart nat) tt).
Proof.
  apply C47_with_memory; auto using nat_laws, nat_borrow, sdemo_legal; try (intros; exact I).
  intros x w y w' E. injection E. intros. subst. apply Nat.compare_refl.
Qed.
(** with a budget of three nodes collecting 12 elements panics *)
Example sdemo_refused : map fst (srun budget Nat.compare Nat.compare (fun k => k) tcopy Nat.eqb (fun x y => Some (Nat.compare x y))
  [SCollect 0 (seq 0 11); SLen 0; SCollect 1 (seq 0 11); SCollect 2 [7]; SLen 1; SLen 2] (sstart nat) 2) =
  [Ret SUnit; Ret (SNat 11); Ret SUnit; Panic; Ret (SNat 11); Ret (SNat 0)].
Proof. vm_compute. reflexivity. Qed.

Print Assumptions C47_history.
Print Assumptions C47_with_memory.
