(** * Properties_Lazy: C55

    Lazy set iterators that are cloned, printed, asked for their size and advanced in any order, within any program over
    BTreeSets on raw memory.  [LazySpec.zsees] says what a session may observe: every iterator is a list. *)
From Coq Require Import List Arith Lia Bool.
From Verif Require Import Base MapSpec IterSpec SetSpec BTreeModel BTreeIterModel BTreeClone HeapModel HistoryModel HistorySpec HistoryProofs HeapMapModel HeapRes HeapMap HeapSpec HeapHistory HeapMemory SetHistorySpec.
From Verif Require Import HostileModel HostilePure HostileSetModel HostileSetSpec HostileSetOps HostileSetHistory LawfulSetSpec LawfulSets LookModel LazyModel LazySpec LazyProofs.
From Verif Require Import Examples Properties_BTree Properties_BTree2 Properties_History Properties_Heap Properties_HostileSet Properties_LawfulSet.
Import ListNotations.
Set Implicit Arguments.

Section Lazy.
  Variables (T Q W : Type) (nalloc : bool -> W -> option reserve_error * W) (place : heap T unit -> W -> loc).
  Variable tclone : T -> W -> outcome Empty_set T * W.
  Variables (cmp : T -> T -> comparison) (qcmp : Q -> Q -> comparison) (borrow : T -> Q).
  Variables (eqb : T * unit -> T * unit -> bool) (pcmp : T * unit -> T * unit -> option comparison).
  (** the comparisons are functions and have no effect *)
  Notation zrun := (zrun (T := T) (W := W) (fun a b w => (Some (cmp a b), w)) nalloc place tclone (fun x k w => (Some (qcmp x (borrow k)), w))
    (fun x y w => (Some match qcmp x y with Eq => true | _ => false end, w))
    (fun x y w => (Some match qcmp x y with Gt => true | _ => false end, w)) (fun b w => (Some b, w))
    (fun x y w => (Some (eqb x y), w)) (fun x y w => (Some (pcmp x y), w))).
  Notation xstep := (xstep (T := T) (W := W) (fun a b w => (Some (cmp a b), w)) nalloc place tclone (fun x k w => (Some (qcmp x (borrow k)), w))
    (fun x y w => (Some match qcmp x y with Eq => true | _ => false end, w))
    (fun x y w => (Some match qcmp x y with Gt => true | _ => false end, w)) (fun b w => (Some b, w))
    (fun x y w => (Some (eqb x y), w)) (fun x y w => (Some (pcmp x y), w))).
  Notation kc := (xkclone tclone).
  Notation vc := (@xvclone W).
  Notation zagrees := (zagrees (T := T) (Q := Q) cmp qcmp borrow eqb pcmp (no_memory nalloc) (clones tclone) (clone_ends tclone) (clone_fails nalloc kc vc)).
  Definition zlegal (c : zop T Q) : Prop := match c with ZSet c => xlegal c | _ => True end.

  Section Run.
    Hypothesis L1 : ord_laws cmp.
    Hypothesis L2 : borrow_laws cmp qcmp borrow.
    Hypothesis L3 : forall x w y w', tclone x w = (Ret y, w') -> cmp x y = Eq.
    Hypothesis place_fresh : forall hp w, hget hp (place hp w) = None.
    Lemma zrun_lawful ops : forall s2 s1 ss rs hp S w, reps s2 s1 ss -> held ss rs -> own hp rs -> exact_heap hp rs -> rep cmp s1 S ->
      Forall zlegal ops -> zagrees S s2 hp ops (zrun ops s2 hp w).
    Proof.
      induction ops as [|c ops IH]; intros s2 s1 ss rs hp S w R H O E RS HL; [constructor|]. inversion HL as [|? ? Hc HL']; subst.
      cbn [LazyModel.zrun]. destruct c as [c|k r t cs]; cbn [zstep].
      - assert (xfine nalloc tclone cmp qcmp borrow eqb pcmp c S hp rs (xstep c s2 hp w)) as Ok by (eapply step_l; eassumption).
        destruct (xstep c s2 hp w) as [[[o s2'] hp'] w'].
        destruct Ok as [(S' & HS & Ok)|HG].
        + assert (zspec cmp qcmp borrow eqb pcmp (no_memory nalloc) (clones tclone) (clone_ends tclone) (clone_fails nalloc kc vc) (ZSet c) S (omap ZPlain o) S') as HZ by (exists o; auto).
          destruct Ok as [-> |[-> |(s1' & ss' & rs' & R' & H' & G & RS')]]; [eapply ZA_dead; eauto|eapply ZA_dead; eauto|].
          pose proof (goes_exact G E) as E'. pose proof (go_own G) as O'.
          destruct o as [a|e| | |]; try (eapply ZA_dead; [exact HZ|auto]; fail);
            (eapply ZA_step; [exact HZ|exact (memory_ok R' H' O' E' RS')|discriminate|discriminate|discriminate|]; eapply IH; eauto).
        + apply ZA_gave_up. exists o. auto.
      - destruct (@look_l T W cmp L1 s1 s2 ss rs hp S R H O RS k r t cs w) as (l & outs & w' & HB & HZ & EZ). unfold tells in EZ. rewrite EZ.
        eapply ZA_step; [|exact (memory_ok R H O E RS)|auto|discriminate|discriminate|eapply IH; eauto].
        exists l, outs. auto.
    Qed.
    (** ** C55: every program with sessions, whatever the allocator grants and wherever it places nodes *)
    Theorem C55_history : forall ops w, Forall zlegal ops -> zagrees (nothing T unit) hstart [] ops (zrun ops hstart [] w).
    Proof.
      intros ops w HL. apply zrun_lawful with (s1 := start T unit) (ss := fun _ => None) (rs := []); auto.
      - intros r. apply mrep_new.
      - exists 0. split; [reflexivity|constructor].
      - constructor; [constructor|constructor].
      - intros l Hl Hg. apply Hg. unfold hget. destruct (l =? sroot) eqn:El; [apply Nat.eqb_eq in El; congruence|reflexivity].
      - apply start_rep.
    Qed.
  End Run.

  (** with memory and clones that return, a program runs to its end and only index and range calls may panic: sessions never do *)
  Inductive zruns_good : (nat -> list (T * unit)) -> hregs -> heap T unit -> list (zop T Q) -> list (outcome reserve_error (zres T) * hregs * heap T unit) -> Prop :=
  | ZG_end S s hp : zruns_good S s hp [] []
  | ZG_step S s hp c l o s' hp' S' rest :
      zspec cmp qcmp borrow eqb pcmp (fun _ => False) (clones tclone) (fun _ => False) (fun _ => False) c S o S' ->
      memory cmp s' hp' S' -> (forall k r t cs, c = ZLook k r t cs -> s' = s /\ hp' = hp) ->
      match o with
      | Ret _ => True
      | Panic => match c with ZSet (XMap (Index _ _)) | ZSet (XMap (RangeOver _ _ _ _)) | ZSet (XMap (RangeMut _ _ _ _ _)) => True | _ => False end
      | _ => False
      end -> zruns_good S' s' hp' l rest -> zruns_good S s hp (c :: l) ((o, s', hp') :: rest).
  Theorem C55_with_memory : ord_laws cmp -> borrow_laws cmp qcmp borrow ->
    (forall x w y w', tclone x w = (Ret y, w') -> cmp x y = Eq) ->
    (forall hp w, hget hp (place hp w) = None) ->
    (forall internal w, fst (nalloc internal w) = None) -> (forall x w, is_ret (fst (tclone x w))) ->
    forall ops w, Forall zlegal ops -> zruns_good (nothing T unit) hstart [] ops (zrun ops hstart [] w).
  Proof.
    intros L1 L2 L3 PF A1 A2 ops w HL. pose proof (C55_history L1 L2 L3 PF w HL) as HA. clear HL.
    assert (forall c S o S', zspec cmp qcmp borrow eqb pcmp (no_memory nalloc) (clones tclone) (clone_ends tclone) (clone_fails nalloc kc vc) c S o S' ->
      zspec (Q := Q) cmp qcmp borrow eqb pcmp (fun _ => False) (clones tclone) (fun _ => False) (fun _ => False) c S o S' /\
      match o with
      | Ret _ => True
      | Panic => match c with ZSet (XMap (Index _ _)) | ZSet (XMap (RangeOver _ _ _ _)) | ZSet (XMap (RangeMut _ _ _ _ _)) => True | _ => False end
      | _ => False
      end) as K.
    { intros [c|k r t cs] S o S' HZ; cbn [zspec] in *.
      - destruct HZ as (o' & HS & ->). destruct (xspec_calm nalloc tclone cmp qcmp borrow eqb pcmp A1 A2 _ _ _ _ HS) as [X1 X2]. split; [eauto|]. destruct o'; auto.
      - split; [exact HZ|]. destruct HZ as (l & outs & _ & _ & -> & _). exact I. }
    induction HA as [S s hp|S s hp c l o s' hp' S' rest HS HM HK Ha Hu HA IH|S s hp c l o s' hp' S' HS Hd|S s hp c l o s' hp' rest HG].
    - constructor.
    - destruct (K _ _ _ _ HS) as [X1 X2]. eapply ZG_step; eauto.
    - destruct (K _ _ _ _ HS) as [X1 X2]. destruct Hd; subst o; contradiction.
    - destruct c as [c|k r t cs]; [|contradiction]. destruct HG as (o' & HG & _). now apply xquits_calm in HG.
  Qed.
End Lazy.

(** ** A concrete program (elements as in Properties_LawfulSet) *)
Notation gzrun := (zrun (T := nat * nat) (W := nat) (fun a b w => (Some (fcmp a b), w)) (fun _ w => (None, w)) (@place_reuse (nat * nat) unit nat) fclone
  (fun x k w => (Some (Nat.compare x (fst k)), w))
  (fun x y w => (Some match Nat.compare x y with Eq => true | _ => false end, w))
  (fun x y w => (Some match Nat.compare x y with Gt => true | _ => false end, w)) (fun b w => (Some b, w))
  (fun x y w => (Some (fst (fst x) =? fst (fst y)), w)) (fun x y w => (Some (Some (fcmp (fst x) (fst y))), w))).
Definition lazy_sets : list (zop (nat * nat) nat) :=
  [ZSet (XCollect 0 (tagged 10 (seq 0 14))); ZSet (XCollect 1 (tagged 20 (rev (seq 11 13))));
   ZLook Union 0 1 (repeat (ZNext 0) 10 ++ [ZClone 0; ZHint 0; ZNext 0; ZNext 0; ZHint 0; ZNext 1; ZDebug 1; ZClone 1; ZNext 2; ZNext 3]);
   ZLook Difference 0 1 (repeat (ZNext 0) 9 ++ [ZClone 0; ZDebug 0; ZNext 0; ZNext 0; ZNext 0; ZNext 0; ZHint 0; ZDebug 0; ZNext 1; ZHint 1]);
   ZLook Intersection 1 0 [ZNext 0; ZClone 0; ZNext 0; ZNext 1; ZNext 1; ZNext 1; ZNext 1; ZDebug 0; ZNext 0; ZNext 0]; ZSet (XMap (Len 0))].
Example lazy_sets_legal : Forall (@zlegal (nat * nat) nat) lazy_sets.
Proof. repeat constructor. Qed.
Example lazy_sets_run w : zruns_good fclone fcmp Nat.compare fst (fun x y => fst (fst x) =? fst (fst y)) (fun x y => Some (fcmp (fst x) (fst y)))
  (nothing (nat * nat) unit) hstart [] lazy_sets (gzrun lazy_sets hstart [] w).
Proof.
  apply C55_with_memory; auto using place_reuse_fresh, lazy_sets_legal, fcmp_laws, fcmp_borrow.
  - intros x w0 y w1 E. inversion E. subst. unfold fcmp. apply Nat.compare_refl.
  - intros; exact I.
Qed.
(** the last session: the original and its clone advance independently, the clone stays at None *)
Example lazy_sets_outcomes : skipn 4 (map (fun x => fst (fst x)) (gzrun lazy_sets hstart [] 0)) =
  [Ret (ZSession [ZItem (Some (11, 20)); ZDone; ZItem (Some (12, 20)); ZItem (Some (12, 20)); ZItem (Some (13, 20)); ZItem None; ZItem None;
      ZShown [ZField None (tagged 20 (seq 13 11)); ZField None [(13, 10)]]; ZItem (Some (13, 20)); ZItem None]);
   Ret (ZPlain (XObs (ONat 14)))].
Proof. vm_compute. reflexivity. Qed.

Print Assumptions C55_history.
Print Assumptions C55_with_memory.
