(** * Properties_HostileLazy: C56

    The sessions of C55 when comparisons are arbitrary user code.  [HostileLazySpec.zwalks] says what a session may observe. *)
From Coq Require Import List Arith Lia Bool.
From Verif Require Import Base MapSpec IterSpec SetSpec BTreeModel BTreeIterModel BTreeClone HeapModel HistoryModel HistoryProofs HeapMapModel HeapRes HeapMap HeapSpec HeapHistory HeapMemory.
From Verif Require Import HostileModel HostileSpec HostileOps HostileHistory HostileSetModel HostileSetSpec HostileSets HostileSetOps HostileSetHistory LookModel LazyModel LazySpec HostileLazySpec HostileLazy.
From Verif Require Import Examples Properties_BTree Properties_BTree2 Properties_History Properties_Heap Properties_Hostile Properties_HostileSet.
Import ListNotations.
Set Implicit Arguments.

Section HostileLazy.
  Variables (T Q W : Type) (nalloc : bool -> W -> option reserve_error * W) (place : heap T unit -> W -> loc).
  Variable tclone : T -> W -> outcome Empty_set T * W.
  Variables (kcmp : T -> T -> asks W comparison) (qcmp : Q -> T -> asks W comparison) (qeq qgt : Q -> Q -> asks W bool) (view : bound_ Q -> asks W (bound_ Q)).
  Variables (eqb : T * unit -> T * unit -> asks W bool) (pcmp : T * unit -> T * unit -> asks W (option comparison)).
  Notation xstep := (xstep kcmp nalloc place tclone qcmp qeq qgt view eqb pcmp).
  Notation zrun := (zrun kcmp nalloc place tclone qcmp qeq qgt view eqb pcmp).
  Notation lt := (fun _ _ : T => Lt).
  Notation sc := (some_panic (K := T) (V := unit) (Q := Q) (W := W) kcmp qcmp eqb pcmp).
  Notation kc := (xkclone tclone).
  Notation vc := (@xvclone W).
  Notation zruns := (zruns (T := T) (Q := Q) (no_memory nalloc) (clones tclone) (clone_ends tclone) (clone_fails nalloc kc vc) sc).
  Notation zloose := (zloose (T := T) (Q := Q) (no_memory nalloc) (clones tclone) (clone_ends tclone) (clone_fails nalloc kc vc) sc).
  Definition hzlegal (c : zop T Q) : Prop := match c with ZSet c => xlegal c | _ => True end.

  Section Run.
    Hypothesis place_fresh : forall hp w, hget hp (place hp w) = None.
    Lemma zrun_ok ops : forall s2 s1 ss rs hp S w, reps s2 s1 ss -> held ss rs -> own hp rs -> exact_heap hp rs -> rep lt s1 S ->
      Forall hzlegal ops -> zruns S s2 hp ops (zrun ops s2 hp w).
    Proof.
      induction ops as [|c ops IH]; intros s2 s1 ss rs hp S w R H O E RS HL; [constructor|]. inversion HL as [|? ? Hc HL']; subst.
      cbn [LazyModel.zrun]. destruct c as [c|k r t cs]; cbn [zstep].
      - assert (xokay nalloc tclone sc c S hp rs (xstep c s2 hp w)) as Ok.
        { eapply step_x; try eassumption; unfold calm, some_panic; eauto 10. }
        destruct (xstep c s2 hp w) as [[[o s2'] hp'] w']. destruct Ok as [(S' & HS & Ok)|HG].
        + assert (zloose (ZSet c) S (omap ZPlain o) S') as HZ by (exists o; auto).
          destruct Ok as [-> |[-> |(s1' & ss' & rs' & R' & H' & G & RS')]]; [eapply ZR_dead; eauto|eapply ZR_dead; eauto|].
          pose proof (goes_exact G E) as E'. pose proof (go_own G) as O'.
          destruct o as [a|e| | |]; try (eapply ZR_dead; [exact HZ|auto]; fail);
            (eapply ZR_step; [exact HZ|exact (memory_ok R' H' O' E' RS')|discriminate|discriminate|discriminate|]; eapply IH; eauto).
        + apply ZR_gave_up. exists o. auto.
      - assert (forall a b, calm sc (kcmp a b)) as Ck by (unfold calm, some_panic; eauto 10).
        destruct (@look_h T W kcmp sc Ck s1 s2 ss rs hp S R H O RS k r t cs w) as (o & w' & EZ & outs & HZ & ->). rewrite EZ.
        eapply ZR_step; [|exact (memory_ok R H O E RS)|auto|discriminate|discriminate|eapply IH; eauto]; split; eauto.
    Qed.
    (** ** C56: whatever the comparisons answer, from call to call *)
    Theorem C56_history : forall ops w, Forall hzlegal ops -> zruns (nothing T unit) hstart [] ops (zrun ops hstart [] w).
    Proof.
      intros ops w HL. apply zrun_ok with (s1 := start T unit) (ss := fun _ => None) (rs := []); auto.
      - intros r. apply mrep_new.
      - exists 0. split; [reflexivity|constructor].
      - constructor; [constructor|constructor].
      - intros l Hl Hg. apply Hg. unfold hget. destruct (l =? sroot) eqn:El; [apply Nat.eqb_eq in El; congruence|reflexivity].
      - apply start_rep.
    Qed.
  End Run.

  (** every step returns (or panics where [may_panic] says so), sessions leave the very same memory; the program runs to its end *)
  Inductive zruns_calm (may_panic : zop T Q -> Prop) : (nat -> list (T * unit)) -> hregs -> heap T unit -> list (zop T Q) -> list (outcome reserve_error (zres T) * hregs * heap T unit) -> Prop :=
  | ZM_end S s hp : zruns_calm may_panic S s hp [] []
  | ZM_step S s hp c l o s' hp' S' rest :
      HostileLazySpec.zloose (fun _ => False) (clones tclone) (fun _ => False) (fun _ => False) sc c S o S' ->
      memory lt s' hp' S' -> (forall k r t cs, c = ZLook k r t cs -> s' = s /\ hp' = hp) ->
      match o with Ret _ => True | Panic => may_panic c | _ => False end ->
      zruns_calm may_panic S' s' hp' l rest -> zruns_calm may_panic S s hp (c :: l) ((o, s', hp') :: rest).
  Definition zpanics (c : zop T Q) : Prop := match c with ZSet c => xpanics kcmp qcmp eqb pcmp c | _ => False end.
  Definition zbulk (c : zop T Q) : Prop := match c with ZSet c => bulk c | _ => False end.

  (** memory suffices and clones return.  Comparisons may panic, in programs without append and split_off (C43): the sets are as before the call; within a session they are caught *)
  Theorem C56_with_memory : (forall hp w, hget hp (place hp w) = None) ->
    (forall internal w, fst (nalloc internal w) = None) -> (forall x w, is_ret (fst (tclone x w))) ->
    forall ops w, Forall hzlegal ops -> ~ sc \/ Forall (fun c => ~ zbulk c) ops ->
    zruns_calm zpanics (nothing T unit) hstart [] ops (zrun ops hstart [] w).
  Proof.
    intros PF A1 A2 ops w HL HN. pose proof (C56_history PF w HL) as HA. clear HL.
    assert (forall c S o S', zloose c S o S' ->
      HostileLazySpec.zloose (fun _ => False) (clones tclone) (fun _ => False) (fun _ => False) sc c S o S' /\ match o with Ret _ => True | Panic => zpanics c | _ => False end) as K.
    { intros [c|k r t cs] S o S' HZ; cbn [HostileLazySpec.zloose zpanics] in *.
      - destruct HZ as (o' & HS & ->). destruct (@xloose_calm T Q W nalloc tclone kcmp qcmp eqb pcmp A1 A2 _ _ _ _ HS) as [X1 X2]. split; [eauto|]. destruct o'; auto.
      - split; [exact HZ|]. destruct HZ as [(outs & _ & ->) _]; auto. }
    induction HA as [S s hp|S s hp c l o s' hp' S' rest HS HM HK Ha Hu HA IH|S s hp c l o s' hp' S' HS Hd|S s hp c l o s' hp' rest HG].
    - constructor.
    - destruct (K _ _ _ _ HS) as [X1 X2]. eapply ZM_step; eauto. apply IH. destruct HN as [N|N]; [auto|right; now inversion N].
    - destruct (K _ _ _ _ HS) as [X1 X2]. destruct Hd; subst o; contradiction.
    - destruct c as [c|k r t cs]; [|contradiction]. destruct HG as (o' & HG & _). destruct (@xup_calm T Q W nalloc kcmp qcmp eqb pcmp A1 _ _ _ _ _ HG) as [Hs Hb].
      destruct HN as [N|N]; [destruct (N Hs)|]. inversion N as [|? ? N1 N2]; subst. now destruct N1.
  Qed.
End HostileLazy.

(** ** Concrete programs: the answers depend on how often was asked, and on nothing else *)
Notation zwrun := (zrun (T := nat) (W := nat) (fun _ _ => whim) (fun _ w => (None, w)) (@place_reuse nat unit nat) (fun x w => (Ret x, w))
  (fun _ _ : nat => whim) (fun _ _ : nat => flip) (fun _ _ => flip) (fun b w => (Some b, w)) (fun _ _ => flip) (fun _ _ w => (Some (fst (whim w)), S w))).
Definition zoutcomes {T} (l : list (outcome reserve_error (zres T) * hregs * heap T unit)) := map (fun x => fst (fst x)) l.
Definition mad_sessions : list (zop nat nat) :=
  [ZSet (XCollect 0 (seq 0 9)); ZSet (XCollect 1 (seq 100 7));
   ZLook Difference 0 1 [ZHint 0; ZNext 0; ZClone 0; ZNext 0; ZNext 1; ZDebug 0; ZDebug 1; ZHint 1];
   ZLook Union 0 1 [ZNext 0; ZClone 0; ZNext 0; ZNext 1; ZNext 1; ZDebug 0; ZDebug 1];
   ZLook Intersection 0 1 [ZNext 0; ZClone 0; ZNext 0; ZNext 0; ZNext 0; ZNext 0; ZNext 1; ZDebug 1; ZNext 7]; ZSet (XMap (Len 0))].
Example mad_sessions_legal : Forall (@hzlegal nat nat) mad_sessions.
Proof. repeat constructor. Qed.
Example mad_sessions_run w : zruns_calm (Q := nat) (fun x (w : nat) => (Ret x, w)) (fun _ _ => whim) (fun _ _ => whim) (fun _ _ => flip) (fun _ _ w => (Some (fst (whim w)), S w))
  (zpanics (fun _ _ => whim) (fun _ _ => whim) (fun _ _ => flip) (fun _ _ w => (Some (fst (whim w)), S w))) (nothing nat unit) hstart [] mad_sessions (zwrun mad_sessions hstart [] w).
Proof.
  apply C56_with_memory; auto using place_reuse_fresh, mad_sessions_legal.
  - intros; exact I.
  - left. intros [(a & b & w1 & w' & E)|[(a & b & w1 & w' & E)|[(a & b & w1 & w' & E)|(a & b & w1 & w' & E)]]]; discriminate E.
Qed.
(** the last session: the original has come to its end although its clone delivers one more *)
Example mad_sessions_outcomes : skipn 4 (zoutcomes (zwrun mad_sessions hstart [] 0)) =
  [Ret (ZSession [ZItem (Some 101); ZDone; ZItem None; ZItem None; ZItem None; ZItem None; ZItem (Some 100); ZShown [ZField None []; ZField None [4; 1]]; ZDone]);
   Ret (ZPlain (XObs (ONat 7)))].
Proof. vm_compute. reflexivity. Qed.

(** a lawful order whose every third question panics, once ten were answered: the sessions go on after the panics *)
Definition faint (a b w : nat) : option comparison * nat := (if (10 <? w) && (w mod 3 =? 0) then None else Some (Nat.compare a b), S w).
Notation zfrun := (zrun (T := nat) (W := nat) faint (fun _ w => (None, w)) (@place_reuse nat unit nat) (fun x w => (Ret x, w))
  faint (fun _ _ : nat => flip) (fun _ _ => flip) (fun b w => (Some b, w)) (fun _ _ => flip) (fun _ _ w => (Some (fst (whim w)), S w))).
Definition faint_sessions : list (zop nat nat) :=
  [ZSet (XMap (Insert 0 1 tt)); ZSet (XMap (Insert 0 3 tt)); ZSet (XMap (Insert 0 5 tt)); ZSet (XMap (Insert 1 2 tt)); ZSet (XMap (Insert 1 3 tt)); ZSet (XMap (Insert 1 7 tt));
   ZLook Union 0 1 [ZNext 0; ZNext 0; ZNext 0; ZNext 0; ZNext 0; ZNext 0; ZNext 0];
   ZLook Difference 0 1 [ZNext 0; ZNext 0; ZClone 0; ZDebug 1; ZNext 0; ZNext 1; ZNext 0; ZHint 0]; ZSet (XMap (Len 0))].
Example faint_sessions_run w : zruns_calm (Q := nat) (fun x (w : nat) => (Ret x, w)) faint faint (fun _ _ => flip) (fun _ _ w => (Some (fst (whim w)), S w))
  (zpanics faint faint (fun _ _ => flip) (fun _ _ w => (Some (fst (whim w)), S w))) (nothing nat unit) hstart [] faint_sessions (zfrun faint_sessions hstart [] w).
Proof.
  apply C56_with_memory; auto using place_reuse_fresh.
  - intros; exact I.
  - repeat constructor.
  - right. repeat constructor; cbn; tauto.
Qed.
Example faint_sessions_outcomes : skipn 6 (zoutcomes (zfrun faint_sessions hstart [] 0)) =
  [Ret (ZSession [ZItem (Some 1); ZItem (Some 2); ZItem (Some 3); ZItem (Some 5); ZItem (Some 7); ZItem None; ZItem None]);
   Ret (ZSession [ZItem (Some 1); ZPanicked; ZDone; ZShown [ZField None [5]; ZField (Some (Some 3)) [7]]; ZItem (Some 5); ZPanicked; ZItem None; ZSize 0 0]);
   Ret (ZPlain (XObs (ONat 3)))].
Proof. vm_compute. reflexivity. Qed.

Print Assumptions C56_history.
Print Assumptions C56_with_memory.
