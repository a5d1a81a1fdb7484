(** * Properties_HostileSet: C50

    Programs over BTreeSets on raw memory ([HostileSetModel]) when comparisons
    are arbitrary user code.  [HostileSetSpec.xloose] says what each operation
    may then do, about lists of elements; [HostileSetSpec.xruns] that after
    every step of a program the memory is that of these lists. *)
From Coq Require Import List Arith Lia Bool.
From Verif Require Import Base MapSpec IterSpec SetSpec BTreeModel BTreeIterModel BTreeClone HeapModel HistoryModel HistoryProofs HeapMapModel HeapRes HeapMap HeapSpec HeapHistory HeapMemory.
From Verif Require Import HostileModel HostileSpec HostileOps HostileHistory HostileSetModel HostileSetSpec HostileSets HostileSetOps HostileSetHistory.
From Verif Require Import Examples Properties_BTree Properties_BTree2 Properties_History Properties_Heap Properties_Hostile.
Import ListNotations.
Set Implicit Arguments.

Section HostileSet.
  Variables (T Q W : Type) (nalloc : bool -> W -> option reserve_error * W) (place : heap T unit -> W -> loc).
  Variable tclone : T -> W -> outcome Empty_set T * W.
  (** Ord of the elements, of an element with a looked-up value, == and > of two looked-up values, RangeBounds, PartialEq and PartialOrd of elements *)
  Variables (kcmp : T -> T -> asks W comparison) (qcmp : Q -> T -> asks W comparison) (qeq qgt : Q -> Q -> asks W bool) (view : bound_ Q -> asks W (bound_ Q)).
  Variables (eqb : T * unit -> T * unit -> asks W bool) (pcmp : T * unit -> T * unit -> asks W (option comparison)).
  Notation xstep := (xstep kcmp nalloc place tclone qcmp qeq qgt view eqb pcmp).
  Notation xrun := (xrun kcmp nalloc place tclone qcmp qeq qgt view eqb pcmp).
  Notation lt := (fun _ _ : T => Lt).
  Notation sc := (some_panic (K := T) (V := unit) (Q := Q) (W := W) kcmp qcmp eqb pcmp).
  Notation kc := (xkclone tclone).
  Notation vc := (@xvclone W).
  Notation xruns := (xruns (T := T) (Q := Q) (no_memory nalloc) (clones tclone) (clone_ends tclone) (clone_fails nalloc kc vc) sc).
  Notation xloose := (xloose (T := T) (Q := Q) (no_memory nalloc) (clones tclone) (clone_ends tclone) (clone_fails nalloc kc vc) sc).

  Section Run.
    Hypothesis place_fresh : forall hp w, hget hp (place hp w) = None.
    Lemma xrun_ok ops : forall s2 s1 ss rs hp S w, reps s2 s1 ss -> held ss rs -> own hp rs -> exact_heap hp rs -> rep lt s1 S ->
      Forall (@xlegal T Q) ops -> xruns S ops (xrun ops s2 hp w).
    Proof.
      induction ops as [|c ops IH]; intros s2 s1 ss rs hp S w R H O E RS HL; [constructor|]. inversion HL as [|? ? Hc HL']; subst.
      assert (xokay nalloc tclone sc c S hp rs (xstep c s2 hp w)) as Ok.
      { eapply step_x; try eassumption; unfold calm, some_panic; eauto 10. }
      cbn [HostileSetModel.xrun]. destruct (xstep c s2 hp w) as [[[o s2'] hp'] w']. destruct Ok as [(S' & HS & Ok)|HG].
      - destruct Ok as [-> |[-> |(s1' & ss' & rs' & R' & H' & G & RS')]]; [eapply XR_dead; eauto|eapply XR_dead; eauto|].
        pose proof (goes_exact G E) as E'. pose proof (go_own G) as O'.
        destruct o as [a|e| | |]; try (eapply XR_dead; [exact HS|auto]; fail);
          (eapply XR_step; [exact HS|exact (memory_ok R' H' O' E' RS')|discriminate|discriminate|]; eapply IH; eauto).
      - now apply XR_gave_up.
    Qed.
    (** ** C50: whatever the comparisons answer *)
    Theorem C50_history : forall ops w, Forall (@xlegal T Q) ops -> xruns (nothing T unit) ops (xrun ops hstart [] w).
    Proof.
      intros ops w HL. apply xrun_ok with (s1 := start T unit) (ss := fun _ => None) (rs := []); auto.
      - intros r. apply mrep_new.
      - exists 0. split; [reflexivity|constructor].
      - constructor; [constructor|constructor].
      - intros l Hl Hg. apply Hg. unfold hget. destruct (l =? sroot) eqn:El; [apply Nat.eqb_eq in El; congruence|reflexivity].
      - apply start_rep.
    Qed.
  End Run.

  (** every step returns (or panics where [may_panic] says so) and leaves the memory of lists; the program runs to its end *)
  Inductive xruns_calm (may_panic : xop T Q -> Prop) : (nat -> list (T * unit)) -> list (xop T Q) -> list (outcome reserve_error (xobs T) * hregs * heap T unit) -> Prop :=
  | XM_end S : xruns_calm may_panic S [] []
  | XM_step S c l o s hp S' rest :
      HostileSetSpec.xloose (fun _ => False) (clones tclone) (fun _ => False) (fun _ => False) sc c S o S' ->
      memory lt s hp S' ->
      match o with Ret _ => True | Panic => may_panic c | _ => False end ->
      xruns_calm may_panic S' l rest -> xruns_calm may_panic S (c :: l) ((o, s, hp) :: rest).
  (** the steps that may panic, when nothing is refused *)
  Definition xpanics (c : xop T Q) : Prop :=
    match c with XMap c => panics (K := T) (V := unit) kcmp qcmp eqb pcmp c | _ => sc end.

  Section Memory.
    Hypothesis (A1 : forall internal w, fst (nalloc internal w) = None) (A2 : forall x w, is_ret (fst (tclone x w))).
    Lemma kc_ret x w : is_ret (fst (kc x w)).
    Proof. unfold xkclone. specialize (A2 x w). destruct (tclone x w) as [[y|[]| | |] w']; auto. Qed.
    Lemma no_end u : clone_ends tclone u -> u = Ret tt.
    Proof. intros (x & w & <-). specialize (A2 x w). destruct (fst (tclone x w)); cbn in *; try contradiction; auto. Qed.
    Lemma xloose_calm c S o S' : xloose c S o S' ->
      HostileSetSpec.xloose (fun _ => False) (clones tclone) (fun _ => False) (fun _ => False) sc c S o S' /\ match o with Ret _ => True | Panic => xpanics c | _ => False end.
    Proof.
      assert (forall e, ~ no_memory nalloc e) as NM by (intros e; exact (@never_refused W nalloc A1 e)).
      destruct c as [c|k r t n m|r t|r t|r t|k r t u|r l]; cbn [HostileSetSpec.xloose xpanics].
      - intros (o' & HS & ->). destruct (@loose_calm T unit Q W nalloc kc vc kcmp qcmp eqb pcmp A1 kc_ret (fun _ _ => I) _ _ _ _ _ HS) as [X1 X2].
        split; [eauto|]. destruct o'; auto.
      - intros [(l & lo & hi & H1 & -> & H2)|(Hs & -> & H)]; [split; [left; eauto 8|exact I]|split; auto].
      - intros [(b & -> & H)|(Hs & -> & H)]; [split; [left; eauto|exact I]|split; auto].
      - intros [(b & -> & H)|(Hs & -> & H)]; [split; [left; eauto|exact I]|split; auto].
      - intros [(b & -> & H)|(Hs & -> & H)]; [split; [left; eauto|exact I]|split; auto].
      - intros [(l & l' & new & H1 & H2 & H3 & -> & H)|[(-> & [Hs|(e & He)] & H)|(v & Hv & Hn & _)]].
        + split; [left; exists l, l', new; auto|exact I].
        + split; [right; left; auto|exact Hs].
        + destruct (NM _ He).
        + apply no_end in Hv. now destruct (Hn tt).
      - intros [(new & H1 & -> & H)|(-> & [Hs|(e & He)] & H)].
        + split; [left; eauto|exact I].
        + split; [right; auto|exact Hs].
        + destruct (NM _ He).
    Qed.
    (** the operations whose panic C43 refutes *)
    Definition bulk (c : xop T Q) : Prop := match c with XMap (Append _ _) | XMap (SplitOff _ _ _) => True | _ => False end.
    Lemma xup_calm c S o s hp : HostileSetSpec.xgave_up (no_memory nalloc) sc c S o s hp -> sc /\ bulk c.
    Proof.
      assert (forall e, ~ no_memory nalloc e) as NM by (intros e; exact (@never_refused W nalloc A1 e)).
      destruct c as [c|k r t n m|r t|r t|r t|k r t u|r l]; cbn [HostileSetSpec.xgave_up]; try contradiction.
      - intros (o' & HG & _). destruct (@up_calm T unit Q W nalloc kcmp qcmp eqb pcmp A1 _ _ _ HG) as [Hs Hc]. split; [exact Hs|]. destruct c; try contradiction; exact I.
      - intros (_ & (e & He) & _). destruct (NM _ He).
      - intros (_ & (e & He) & _). destruct (NM _ He).
    Qed.
    Lemma xruns_calm_of ops S res : xruns S ops res -> (~ sc \/ Forall (fun c => ~ bulk c) ops) -> xruns_calm xpanics S ops res.
    Proof.
      intros HR. induction HR as [S|S c l o s hp S' rest HS HM Ha Hu HA IH|S c l o s hp S' HS Hd|S c l o s hp rest HG]; intros N.
      - constructor.
      - destruct (@xloose_calm _ _ _ _ HS) as [X1 X2]. eapply XM_step; eauto. apply IH. destruct N as [N|N]; [auto|right; now inversion N].
      - destruct (@xloose_calm _ _ _ _ HS) as [X1 X2]. destruct Hd; subst o; contradiction.
      - destruct (@xup_calm _ _ _ _ _ HG) as (Hs & Hc). destruct N as [N|N]; [destruct (N Hs)|]. inversion N as [|? ? N1 N2]; subst. now destruct N1.
    Qed.
  End Memory.

  (** comparisons that do not panic: no step is undefined, aborts or fails, and only index and range calls may panic *)
  Theorem C50_never_unsafe : (forall hp w, hget hp (place hp w) = None) -> ~ sc ->
    (forall internal w, fst (nalloc internal w) = None) -> (forall x w, is_ret (fst (tclone x w))) ->
    forall ops w, Forall (@xlegal T Q) ops ->
    xruns_calm (fun c => match c with XMap (Index _ _) | XMap (RangeOver _ _ _ _) | XMap (RangeMut _ _ _ _ _) => True | _ => False end) (nothing T unit) ops (xrun ops hstart [] w).
  Proof.
    intros PF N A1 A2 ops w HL. pose proof (xruns_calm_of A1 A2 (C50_history PF w HL) (or_introl N)) as HR.
    induction HR as [S|S c l o s hp S' rest HS HM Ho HA IH]; [constructor|]. inversion HL as [|? ? Hc HL']; subst.
    eapply XM_step; [exact HS|exact HM| |now apply IH]. destruct o; auto. unfold xpanics in Ho. destruct c as [c|k r t n m|r t|r t|r t|k r t u|r l']; auto. destruct c; auto.
  Qed.
  (** comparisons that panic, in programs without append and split_off: the sets are as before the call *)
  Theorem C50_panic : (forall hp w, hget hp (place hp w) = None) ->
    (forall internal w, fst (nalloc internal w) = None) -> (forall x w, is_ret (fst (tclone x w))) ->
    forall ops w, Forall (@xlegal T Q) ops -> Forall (fun c => ~ bulk c) ops ->
    xruns_calm xpanics (nothing T unit) ops (xrun ops hstart [] w).
  Proof. intros PF A1 A2 ops w HL HN. exact (xruns_calm_of A1 A2 (C50_history PF w HL) (or_intror HN)). Qed.
End HostileSet.

(** ** Concrete programs *)
(** the answers depend on how often was asked, and on nothing else *)
Notation wrun := (xrun (T := nat) (W := nat) (fun _ _ => whim) (fun _ w => (None, w)) (@place_reuse nat unit nat) (fun x w => (Ret x, w))
  (fun _ _ : nat => whim) (fun _ _ : nat => flip) (fun _ _ => flip) (fun b w => (Some b, w)) (fun _ _ => flip) (fun _ _ w => (Some (fst (whim w)), S w))).
Definition xoutcomes {T} (l : list (outcome reserve_error (xobs T) * hregs * heap T unit)) := map (fun x => fst (fst x)) l.
Definition mad_sets : list (xop nat nat) :=
  [XCollect 0 (seq 0 40); XCollect 1 (seq 100 30); XMap (Len 0); XMap (Len 1);
   XLazy Difference 0 1 3 2; XLazy SymmetricDifference 0 1 3 2; XLazy Intersection 0 1 3 2; XLazy Union 0 1 3 2;
   XSubset 1 0; XSuperset 0 1; XDisjoint 0 1; XOperator Union 0 1 2; XOperator Intersection 0 0 3; XOperator Difference 2 0 0; XOperator SymmetricDifference 0 1 1;
   XMap (Len 0); XMap (Len 1); XMap (Len 2); XMap (Len 3); XMap (Clear 2)].
Example mad_sets_legal : Forall (@xlegal nat nat) mad_sets.
Proof. repeat constructor. Qed.
Example mad_sets_run w : xruns_calm (Q := nat) (fun x (w : nat) => (Ret x, w)) (fun _ _ => whim) (fun _ _ => whim) (fun _ _ => flip) (fun _ _ w => (Some (fst (whim w)), S w))
  (fun c => match c with XMap (Index _ _) | XMap (RangeOver _ _ _ _) | XMap (RangeMut _ _ _ _ _) => True | _ => False end) (nothing nat unit) mad_sets (wrun mad_sets hstart [] w).
Proof.
  apply C50_never_unsafe; auto using place_reuse_fresh, mad_sets_legal.
  - intros [(a & b & w1 & w' & E)|[(a & b & w1 & w' & E)|[(a & b & w1 & w' & E)|(a & b & w1 & w' & E)]]]; discriminate E.
  - intros; exact I.
Qed.
Example mad_sets_outcomes : xoutcomes (wrun mad_sets hstart [] 0) =
  [Ret XUnit; Ret XUnit; Ret (XObs (ONat 24)); Ret (XObs (ONat 20));
   Ret (XItems [Some 15; Some 38; Some 36] 4 20 [Some 34; Some 30]);
   Ret (XItems [Some 114; Some 112; Some 15] 0 41 [Some 13; Some 129]);
   Ret (XItems [Some 114; Some 125; Some 117] 0 11 [Some 106; Some 115]);
   Ret (XItems [Some 15; Some 114; Some 112] 23 41 [Some 13; Some 38]);
   Ret (XBool false); Ret (XBool false); Ret (XBool false); Ret XUnit; Ret XUnit; Ret XUnit; Ret XUnit;
   Ret (XObs (ONat 13)); Ret (XObs (ONat 19)); Ret (XObs (ONat 23)); Ret (XObs (ONat 6)); Ret (XObs OUnit)].
Proof. vm_compute. reflexivity. Qed.

(** the usual order, but call number [w] of a comparison panics: the set being built is freed, the others are as before *)
Notation trun := (xrun (T := nat) (W := nat) (fun a b => tick (Nat.compare a b)) (fun _ w => (None, w)) (@place_reuse nat unit nat) (fun x w => (Ret x, w))
  (fun a b => tick (Nat.compare a b)) (fun a b => tick (a =? b)) (fun a b => tick (b <? a)) (fun b => tick b)
  (fun x y => tick (fst x =? fst y)) (fun x y => tick (Some (Nat.compare (fst x) (fst y))))).
Definition shaken_sets : list (xop nat nat) :=
  [XCollect 0 (seq 0 14); XCollect 1 [3; 5; 20]; XOperator Union 0 1 2; XMap (Len 0); XMap (Len 2); XOperator Difference 0 1 2; XMap (Len 2); XLazy Intersection 1 0 1 5; XMap (Clear 0)].
Example shaken_sets_run w : xruns_calm (Q := nat) (fun x (w : nat) => (Ret x, w)) (fun a b => tick (Nat.compare a b)) (fun a b => tick (Nat.compare a b))
  (fun x y => tick (fst x =? fst y)) (fun x y => tick (Some (Nat.compare (fst x) (fst y))))
  (xpanics (fun a b => tick (Nat.compare a b)) (fun a b => tick (Nat.compare a b)) (fun x y => tick (fst x =? fst y)) (fun x y => tick (Some (Nat.compare (fst x) (fst y)))))
  (nothing nat unit) shaken_sets (trun shaken_sets hstart [] w).
Proof. apply C50_panic; auto using place_reuse_fresh; try (intros; exact I); repeat constructor; intros []. Qed.
Example shaken_sets_outcomes : xoutcomes (trun shaken_sets hstart [] 130) =
  [Ret XUnit; Ret XUnit; Panic; Ret (XObs (ONat 14)); Ret (XObs (ONat 0)); Ret XUnit;
   Ret (XObs (ONat 12)); Ret (XItems [Some 3] 0 2 [Some 5; None; None; None; None]);
   Ret (XObs OUnit)].
Proof. vm_compute. reflexivity. Qed.

Print Assumptions C50_history.
Print Assumptions C50_never_unsafe.
Print Assumptions C50_panic.
