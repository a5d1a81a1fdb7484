(** * Properties_LawfulSet: C51

    Programs over BTreeSets on raw memory ([HostileSetModel]) when the order is
    a total order.  [LawfulSetSpec.xspec] says what each call does, about
    ascending lists of elements; [LawfulSetSpec.xagrees] that after every step
    of a program the memory is that of these lists. *)
From Coq Require Import List Arith Lia Bool.
From Verif Require Import Base MapSpec IterSpec SetSpec BTreeModel BTreeIterModel BTreeClone HeapModel HistoryModel HistorySpec HistoryProofs HeapMapModel HeapRes HeapMap HeapSpec HeapHistory HeapMemory.
From Verif Require Import HostileModel HostileSetModel HostileSetSpec HostileSetOps HostileSetHistory LawfulSetSpec LawfulSets.
From Verif Require Import Examples Properties_BTree Properties_BTree2 Properties_History Properties_Heap Properties_HostileSet.
Import ListNotations.
Set Implicit Arguments.

Section LawfulSet.
  Variables (T Q W : Type) (nalloc : bool -> W -> option reserve_error * W) (place : heap T unit -> W -> loc).
  Variable tclone : T -> W -> outcome Empty_set T * W.
  Variables (cmp : T -> T -> comparison) (qcmp : Q -> Q -> comparison) (borrow : T -> Q).
  Variables (eqb : T * unit -> T * unit -> bool) (pcmp : T * unit -> T * unit -> option comparison).
  (** the comparisons are functions and have no effect *)
  Notation xrun := (xrun (T := T) (W := W) (fun a b w => (Some (cmp a b), w)) nalloc place tclone (fun x k w => (Some (qcmp x (borrow k)), w))
    (fun x y w => (Some match qcmp x y with Eq => true | _ => false end, w))
    (fun x y w => (Some match qcmp x y with Gt => true | _ => false end, w)) (fun b w => (Some b, w))
    (fun x y w => (Some (eqb x y), w)) (fun x y w => (Some (pcmp x y), w))).
  Notation xstep := (xstep (T := T) (W := W) (fun a b w => (Some (cmp a b), w)) nalloc place tclone (fun x k w => (Some (qcmp x (borrow k)), w))
    (fun x y w => (Some match qcmp x y with Eq => true | _ => false end, w))
    (fun x y w => (Some match qcmp x y with Gt => true | _ => false end, w)) (fun b w => (Some b, w))
    (fun x y w => (Some (eqb x y), w)) (fun x y w => (Some (pcmp x y), w))).
  Notation kc := (xkclone tclone).
  Notation vc := (@xvclone W).
  Notation xspec := (xspec (T := T) (Q := Q) cmp qcmp borrow eqb pcmp (no_memory nalloc) (clones tclone) (clone_ends tclone) (clone_fails nalloc kc vc)).
  Notation xagrees := (xagrees (T := T) (Q := Q) cmp qcmp borrow eqb pcmp (no_memory nalloc) (clones tclone) (clone_ends tclone) (clone_fails nalloc kc vc)).

  Section Run.
    Hypothesis L1 : ord_laws cmp.
    Hypothesis L2 : borrow_laws cmp qcmp borrow.
    Hypothesis L3 : forall x w y w', tclone x w = (Ret y, w') -> cmp x y = Eq.
    Hypothesis place_fresh : forall hp w, hget hp (place hp w) = None.
    Lemma xrun_lawful ops : forall s2 s1 ss rs hp S w, reps s2 s1 ss -> held ss rs -> own hp rs -> exact_heap hp rs -> rep cmp s1 S ->
      Forall (@xlegal T Q) ops -> xagrees S ops (xrun ops s2 hp w).
    Proof.
      induction ops as [|c ops IH]; intros s2 s1 ss rs hp S w R H O E RS HL; [constructor|]. inversion HL as [|? ? Hc HL']; subst.
      assert (xfine nalloc tclone cmp qcmp borrow eqb pcmp c S hp rs (xstep c s2 hp w)) as Ok by (eapply step_l; eassumption).
      cbn [HostileSetModel.xrun]. destruct (xstep c s2 hp w) as [[[o s2'] hp'] w'].
      destruct Ok as [(S' & HS & Ok)|HG].
      - destruct Ok as [-> |[-> |(s1' & ss' & rs' & R' & H' & G & RS')]]; [eapply XA_dead; eauto|eapply XA_dead; eauto|].
        pose proof (goes_exact G E) as E'. pose proof (go_own G) as O'.
        destruct o as [a|e| | |]; try (eapply XA_dead; [exact HS|auto]; fail);
          (eapply XA_step; [exact HS|exact (memory_ok R' H' O' E' RS')|discriminate|discriminate|]; eapply IH; eauto).
      - now apply XA_gave_up.
    Qed.
    (** ** C51: every program, whatever the allocator grants and wherever it places nodes *)
    Theorem C51_history : forall ops w, Forall (@xlegal T Q) ops -> xagrees (nothing T unit) ops (xrun ops hstart [] w).
    Proof.
      intros ops w HL. apply xrun_lawful with (s1 := start T unit) (ss := fun _ => None) (rs := []); auto.
      - intros r. apply mrep_new.
      - exists 0. split; [reflexivity|constructor].
      - constructor; [constructor|constructor].
      - intros l Hl Hg. apply Hg. unfold hget. destruct (l =? sroot) eqn:El; [apply Nat.eqb_eq in El; congruence|reflexivity].
      - apply start_rep.
    Qed.
  End Run.

  (** with memory and clones that return, a program runs to its end: every step
      is as specified, leaves the memory of the lists, and only index and range calls may panic *)
  Inductive xruns_good : (nat -> list (T * unit)) -> list (xop T Q) -> list (outcome reserve_error (xobs T) * hregs * heap T unit) -> Prop :=
  | XG_end S : xruns_good S [] []
  | XG_step S c l o s hp S' rest :
      LawfulSetSpec.xspec cmp qcmp borrow eqb pcmp (fun _ => False) (clones tclone) (fun _ => False) (fun _ => False) c S o S' ->
      memory cmp s hp S' ->
      match o with
      | Ret _ => True
      | Panic => match c with XMap (Index _ _) | XMap (RangeOver _ _ _ _) | XMap (RangeMut _ _ _ _ _) => True | _ => False end
      | _ => False
      end -> xruns_good S' l rest -> xruns_good S (c :: l) ((o, s, hp) :: rest).

  Section Memory.
    Hypothesis (A1 : forall internal w, fst (nalloc internal w) = None) (A2 : forall x w, is_ret (fst (tclone x w))).
    Lemma never_refused_ e : ~ no_memory nalloc e.
    Proof. intros (i & w0 & w' & E). specialize (A1 i w0). rewrite E in A1. discriminate. Qed.
    Lemma clone_returns_ u : clone_fails nalloc kc vc u -> u = Ret tt.
    Proof.
      intros [(e & _ & He)|[(k & w0 & E)|(v & w0 & E)]]; [destruct (never_refused_ He)| |].
      - unfold xkclone in E. specialize (A2 k w0). destruct (tclone k w0) as [[y|[]| | |] w']; cbn in *; try contradiction; auto.
      - cbn in E. auto.
    Qed.
    Lemma ends_returns_ u : clone_ends tclone u -> u = Ret tt.
    Proof. intros (x & w0 & <-). specialize (A2 x w0). destruct (fst (tclone x w0)); cbn in *; try contradiction; auto. Qed.
    Lemma spec_calm copy c S o S' : spec cmp qcmp borrow eqb pcmp (no_memory nalloc) copy (clone_fails nalloc kc vc) c S o S' ->
      spec cmp qcmp borrow eqb pcmp (fun _ => False) copy (fun _ => False) c S o S' /\
      match o with
      | Ret _ => True
      | Panic => match c with Index _ _ | RangeOver _ _ _ _ | RangeMut _ _ _ _ _ => True | _ => False end
      | _ => False
      end.
    Proof.
      pose proof never_refused_ as NM. intros HS. destruct c; cbn [spec] in *; try (destruct HS as [-> HS]; split; [split; auto|exact I]).
      - destruct HS as [[-> HS]|(e & _ & He & _)]; [auto|destruct (NM _ He)].
      - destruct HS as [[-> HS]|(e & _ & He & _)]; [auto|destruct (NM _ He)].
      - destruct HS as [-> HS]. split; [split; auto|]. destruct (s_get _ _); exact I.
      - destruct HS as [[-> HS]|(e & _ & He & _)]; [auto|destruct (NM _ He)].
      - destruct HS as [[-> HS]|(u & Hu & -> & Hn & _)]; [auto|]. apply clone_returns_ in Hu. subst u. now destruct (Hn OUnit).
      - destruct HS as [[-> HS]|(u & Hu & -> & Hn & _)]; [auto|]. apply clone_returns_ in Hu. subst u. now destruct (Hn OUnit).
      - destruct (dq_run calls (S r)) as [x y]. destruct HS as [-> HS]. auto.
      - destruct HS as [(Hb & -> & HS)|(Hb & -> & HS)]; split; auto.
      - destruct HS as [(Hb & -> & HS)|(Hb & -> & HS)]; split; auto.
      - destruct (dq_run calls (S r)) as [x y]. destruct HS as [-> HS]. auto.
      - destruct (s_get _ _); [destruct HS as [-> HS]; auto|]. destruct HS as [[-> HS]|(e & _ & He & _)]; [auto|destruct (NM _ He)].
      - destruct HS as [[-> HS]|(e & _ & He & _)]; [auto|destruct (NM _ He)].
      - destruct HS as (b & -> & HS). split; [exists b; auto|exact I].
    Qed.
    Lemma xspec_calm c S o S' : xspec c S o S' ->
      LawfulSetSpec.xspec cmp qcmp borrow eqb pcmp (fun _ => False) (clones tclone) (fun _ => False) (fun _ => False) c S o S' /\
      match o with
      | Ret _ => True
      | Panic => match c with XMap (Index _ _) | XMap (RangeOver _ _ _ _) | XMap (RangeMut _ _ _ _ _) => True | _ => False end
      | _ => False
      end.
    Proof.
      destruct c as [c|k r t n m|r t|r t|r t|k r t u|r l]; cbn [LawfulSetSpec.xspec].
      - intros (o' & HS & ->). apply spec_calm in HS as [H1 H2]. split; [eauto|]. destruct o'; auto.
      - intros (l & lo & hi & H1 & -> & H2). split; [eauto 8|exact I].
      - intros (b & -> & H). split; [eauto|exact I].
      - intros (b & -> & H). split; [eauto|exact I].
      - intros (b & -> & H). split; [eauto|exact I].
      - intros [(l & l' & H1 & H2 & -> & H)|[(_ & (e & He) & _)|(v & Hv & Hn & _)]].
        + split; [left; exists l, l'; auto|exact I].
        + destruct (never_refused_ He).
        + apply ends_returns_ in Hv. now destruct (Hn tt).
      - intros [(-> & H)|(_ & (e & He) & _)]; [split; auto|destruct (never_refused_ He)].
    Qed.
    Lemma xquits_calm c S o s hp : ~ xquits (T := T) (Q := Q) cmp (no_memory nalloc) c S o s hp.
    Proof.
      pose proof never_refused_ as NM. destruct c as [c|k r t n m|r t|r t|r t|k r t u|r l]; cbn [xquits]; auto.
      - intros (o' & HG & _). destruct c; cbn [gave_up] in HG; try contradiction;
          [destruct HG as (e & _ & He & _)|destruct HG as (e & _ & He & _)|destruct HG as (_ & e & He)|destruct HG as (_ & e & He)|destruct HG as (e & _ & He & _)]; exact (NM _ He).
      - intros (_ & (e & He) & _). exact (NM _ He).
      - intros (_ & (e & He) & _). exact (NM _ He).
    Qed.
  End Memory.

  Theorem C51_with_memory : ord_laws cmp -> borrow_laws cmp qcmp borrow ->
    (forall x w y w', tclone x w = (Ret y, w') -> cmp x y = Eq) ->
    (forall hp w, hget hp (place hp w) = None) ->
    (forall internal w, fst (nalloc internal w) = None) -> (forall x w, is_ret (fst (tclone x w))) ->
    forall ops w, Forall (@xlegal T Q) ops -> xruns_good (nothing T unit) ops (xrun ops hstart [] w).
  Proof.
    intros L1 L2 L3 PF A1 A2 ops w HL. pose proof (C51_history L1 L2 L3 PF w HL) as HA. clear HL.
    induction HA as [S|S c l o s hp S' rest HS HM Ha Hu HA IH|S c l o s hp S' HS Hd|S c l o s hp rest HG].
    - constructor.
    - destruct (xspec_calm A1 A2 _ _ _ _ HS) as [X1 X2]. eapply XG_step; eauto.
    - destruct (xspec_calm A1 A2 _ _ _ _ HS) as [X1 X2]. destruct Hd; subst o; contradiction.
    - now apply xquits_calm in HG.
  Qed.
End LawfulSet.

(** ** A concrete program *)
(** elements are pairs compared by their first number, so equal elements can be told apart; clones count up the second *)
Definition fcmp (x y : nat * nat) : comparison := Nat.compare (fst x) (fst y).
Definition fclone (x : nat * nat) (w : nat) : outcome Empty_set (nat * nat) * nat := (Ret (fst x, S (snd x)), w).
Lemma fcmp_laws : ord_laws fcmp.
Proof. destruct nat_laws. constructor; unfold fcmp; intros; eauto. Qed.
Lemma fcmp_borrow : borrow_laws fcmp Nat.compare fst.
Proof. unfold fcmp. split; [exact nat_laws|reflexivity]. Qed.

Notation frun := (xrun (T := nat * nat) (W := nat) (fun a b w => (Some (fcmp a b), w)) (fun _ w => (None, w)) (@place_reuse (nat * nat) unit nat) fclone
  (fun x k w => (Some (Nat.compare x (fst k)), w))
  (fun x y w => (Some match Nat.compare x y with Eq => true | _ => false end, w))
  (fun x y w => (Some match Nat.compare x y with Gt => true | _ => false end, w)) (fun b w => (Some b, w))
  (fun x y w => (Some (fst (fst x) =? fst (fst y)), w)) (fun x y w => (Some (Some (fcmp (fst x) (fst y))), w))).
Definition tagged (tag : nat) (l : list nat) : list (nat * nat) := map (fun x => (x, tag)) l.
Definition good_sets : list (xop (nat * nat) nat) :=
  [XCollect 0 (tagged 10 (seq 0 14)); XCollect 1 (tagged 20 (rev (seq 5 13))); XMap (Len 0); XMap (Len 1);
   XLazy Difference 0 1 4 2; XLazy SymmetricDifference 0 1 4 2; XLazy Intersection 0 1 3 2; XLazy Union 0 1 4 2;
   XSubset 1 0; XSuperset 0 0; XDisjoint 0 1;
   XOperator Intersection 0 1 2; XMap (Iterate 2 [Front; Back]); XSubset 2 1; XOperator Difference 1 0 1; XDisjoint 0 1; XMap (Iterate 1 [Front; Back]); XMap (Len 1); XMap (Clear 2)].
Example good_sets_legal : Forall (@xlegal (nat * nat) nat) good_sets.
Proof. repeat constructor. Qed.
Example good_sets_run w : xruns_good fclone fcmp Nat.compare fst (fun x y => fst (fst x) =? fst (fst y)) (fun x y => Some (fcmp (fst x) (fst y)))
  (nothing (nat * nat) unit) good_sets (frun good_sets hstart [] w).
Proof.
  apply C51_with_memory; auto using place_reuse_fresh, good_sets_legal, fcmp_laws, fcmp_borrow.
  - intros x w0 y w1 E. inversion E. subst. unfold fcmp. apply Nat.compare_refl.
  - intros; exact I.
Qed.
Example good_sets_outcomes : xoutcomes (frun good_sets hstart [] 0) =
  [Ret XUnit; Ret XUnit; Ret (XObs (ONat 14)); Ret (XObs (ONat 13));
   Ret (XItems [Some (0, 10); Some (1, 10); Some (2, 10); Some (3, 10)] 0 10 [Some (4, 10); None]);
   Ret (XItems [Some (0, 10); Some (1, 10); Some (2, 10); Some (3, 10)] 0 23 [Some (4, 10); Some (14, 20)]);
   Ret (XItems [Some (5, 20); Some (6, 20); Some (7, 20)] 0 10 [Some (8, 20); Some (9, 20)]);
   Ret (XItems [Some (0, 10); Some (1, 10); Some (2, 10); Some (3, 10)] 13 23 [Some (4, 10); Some (5, 10)]);
   Ret (XBool false); Ret (XBool true); Ret (XBool false); Ret XUnit;
   Ret (XObs (OSized [Some (5, 21, tt); Some (13, 21, tt)] 7)); Ret (XBool true); Ret XUnit; Ret (XBool true);
   Ret (XObs (OSized [Some (14, 21, tt); Some (17, 21, tt)] 2)); Ret (XObs (ONat 4)); Ret (XObs OUnit)].
Proof. vm_compute. reflexivity. Qed.

Print Assumptions C51_history.
Print Assumptions C51_with_memory.
