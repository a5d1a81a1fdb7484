(** * Properties_Cost: C54

    How often an operation calls the user's comparisons.  The world carries a counter [cnt] that every call of
    a comparison raises (Ord, PartialEq, PartialOrd, RangeBounds) and nothing else; otherwise the calls may do and answer
    anything, and may panic.  [CostSpec.price] and [CostSpec.xprice] bound each operation by the sizes of the
    collections alone. *)
From Coq Require Import List Arith Lia Bool.
From Verif Require Import Base MapSpec IterSpec SetSpec BTreeModel BTreeIterModel BTreeClone HeapModel HistoryModel HistoryProofs HeapMapModel HeapRes HeapMap HeapSpec HeapHistory HeapMemory.
From Verif Require Import HostileModel HostileSpec HostileOps HostileHistory HostileSetModel HostileSetSpec HostileSets HostileSetOps HostileSetHistory.
From Verif Require Import CostHeap CostSpec CostLogic CostSteps CostSets CostSetSteps.
From Verif Require Import Examples Properties_BTree Properties_BTree2 Properties_History Properties_Heap Properties_Hostile Properties_HostileSet.
Import ListNotations.
Set Implicit Arguments.

(** every call of [q] raises the counter by one *)
Definition counted (W : Type) (cnt : W -> nat) (A : Type) (q : asks W A) : Prop := forall w, cnt (snd (q w)) = S (cnt w).

Section Maps.
  Variables (K V Q W : Type) (cnt : W -> nat) (nalloc : bool -> W -> option reserve_error * W) (place : heap K V -> W -> loc).
  Variables (kclone : K -> W -> outcome reserve_error K * W) (vclone : V -> W -> outcome reserve_error V * W).
  Notation kv := (K * V)%type.
  Variables (kcmp : K -> K -> asks W comparison) (qcmp : Q -> K -> asks W comparison) (qeq qgt : Q -> Q -> asks W bool) (view : bound_ Q -> asks W (bound_ Q)).
  Variables (eqb : kv -> kv -> asks W bool) (pcmp : kv -> kv -> asks W (option comparison)).
  Notation hxstep := (hxstep nalloc place kcmp qcmp qeq qgt view kclone vclone eqb pcmp).
  Notation hxrun := (hxrun nalloc place kcmp qcmp qeq qgt view kclone vclone eqb pcmp).
  Notation lt := (fun _ _ : K => Lt).
  Notation sc := (some_panic kcmp qcmp eqb pcmp).

  (** the counter after every step *)
  Fixpoint hxcounts (l : list (op K V Q)) (s : hregs) (hp : heap K V) (w : W) : list nat :=
    match l with
    | [] => []
    | c :: l' => let '(o, s', hp', w') := hxstep c s hp w in cnt w' :: match o with Abort | UB => [] | _ => hxcounts l' s' hp' w' end
    end.

  Notation priced := (priced (K := K) (V := V) (Q := Q) (no_memory nalloc) (cloned kclone vclone) (clone_fails nalloc kclone vclone) sc).
  Section Run.
    Hypothesis place_fresh : forall hp w, hget hp (place hp w) = None.
    Hypotheses (Ha : forall b w, cnt (snd (nalloc b w)) = cnt w) (Hkc : forall k w, cnt (snd (kclone k w)) = cnt w) (Hvc : forall v w, cnt (snd (vclone v w)) = cnt w).
    Hypotheses (Hk : forall a b, single cnt (kcmp a b)) (Hq : forall a b, single cnt (qcmp a b)) (H2 : forall x y, single cnt (qeq x y)) (H3 : forall x y, single cnt (qgt x y))
      (H4 : forall b, single cnt (view b)) (He : forall x y, single cnt (eqb x y)) (Hp : forall x y, single cnt (pcmp x y)).
    Lemma hxrun_priced ops : forall s2 s1 ss rs hp S w, reps s2 s1 ss -> held ss rs -> own hp rs -> rep lt s1 S -> slim hp ->
      Forall (@legal K V Q) ops -> priced S (cnt w) ops (hxrun ops s2 hp w) (hxcounts ops s2 hp w).
    Proof.
      induction ops as [|c ops IH]; intros s2 s1 ss rs hp S w R H O RS SL HL; [constructor|]. inversion HL as [|? ? Hc HL']; subst.
      assert (okay nalloc kclone vclone sc c S hp rs (hxstep c s2 hp w)) as Ok.
      { eapply step_o; try eassumption; unfold calm, some_panic; eauto 10. }
      assert (forall a b, calm sc (kcmp a b)) as Ck by (unfold calm, some_panic; eauto 10).
      pose proof (@step_price K V Q W cnt nalloc place place_fresh kclone vclone kcmp qcmp qeq qgt view eqb pcmp sc Ck Ha Hkc Hvc Hk Hq H2 H3 H4 He Hp s1 s2 ss rs hp S R H O RS c w SL) as P.
      cbn [HostileModel.hxrun hxcounts]. destruct (hxstep c s2 hp w) as [[[o s2'] hp'] w']. destruct P as [SL' P].
      destruct Ok as [(S' & HS & Ok)|(HG & s1' & ss' & rs' & lost & R' & H' & G)].
      - destruct Ok as [-> |[-> |(s1' & ss' & rs' & R' & H' & G & RS')]]; [eapply P_dead; eauto|eapply P_dead; eauto|].
        pose proof (go_own G) as O'.
        destruct o as [a|e| | |]; try (eapply P_dead; [exact HS|auto|exact P]; fail); (eapply P_step; [exact HS|discriminate|discriminate|exact P|]; eapply IH; eauto).
      - apply P_gave_up; [exact HG|exact P].
    Qed.
  End Run.

  (** every step of every program costs at most its price, whatever the comparisons answer *)
  Theorem C54_map_history : (forall hp w, hget hp (place hp w) = None) ->
    (forall b w, cnt (snd (nalloc b w)) = cnt w) -> (forall k w, cnt (snd (kclone k w)) = cnt w) -> (forall v w, cnt (snd (vclone v w)) = cnt w) ->
    (forall a b, counted cnt (kcmp a b)) -> (forall x k, counted cnt (qcmp x k)) -> (forall x y, counted cnt (qeq x y)) -> (forall x y, counted cnt (qgt x y)) ->
    (forall b, counted cnt (view b)) -> (forall x y, counted cnt (eqb x y)) -> (forall x y, counted cnt (pcmp x y)) ->
    forall ops w, Forall (@legal K V Q) ops -> priced (nothing K V) (cnt w) ops (hxrun ops hstart [] w) (hxcounts ops hstart [] w).
  Proof.
    intros PF Ha Hkc Hvc Hk Hq H2 H3 H4 He Hp ops w HL.
    assert (forall A (q : asks W A), counted cnt q -> single cnt q) as CS by (intros A q X v; rewrite X; lia).
    apply hxrun_priced with (s1 := start K V) (ss := fun _ => None) (rs := []); auto.
    - intros r. apply mrep_new.
    - exists 0. split; [reflexivity|constructor].
    - constructor; [constructor|constructor].
    - apply start_rep.
    - apply slim_nil.
  Qed.
End Maps.

Section Sets.
  Variables (T Q W : Type) (cnt : W -> nat) (nalloc : bool -> W -> option reserve_error * W) (place : heap T unit -> W -> loc).
  Variable tclone : T -> W -> outcome Empty_set T * W.
  Variables (kcmp : T -> T -> asks W comparison) (qcmp : Q -> T -> asks W comparison) (qeq qgt : Q -> Q -> asks W bool) (view : bound_ Q -> asks W (bound_ Q)).
  Variables (eqb : T * unit -> T * unit -> asks W bool) (pcmp : T * unit -> T * unit -> asks W (option comparison)).
  Notation xstep := (xstep kcmp nalloc place tclone qcmp qeq qgt view eqb pcmp).
  Notation xrun := (xrun kcmp nalloc place tclone qcmp qeq qgt view eqb pcmp).
  Notation lt := (fun _ _ : T => Lt).
  Notation sc := (some_panic (K := T) (V := unit) (Q := Q) (W := W) kcmp qcmp eqb pcmp).
  Notation kc := (xkclone tclone).
  Notation vc := (@xvclone W).
  Fixpoint xcounts (l : list (xop T Q)) (s : hregs) (hp : heap T unit) (w : W) : list nat :=
    match l with
    | [] => []
    | c :: l' => let '(o, s', hp', w') := xstep c s hp w in cnt w' :: match o with Abort | UB => [] | _ => xcounts l' s' hp' w' end
    end.
  Notation xpriced := (xpriced (T := T) (Q := Q) (no_memory nalloc) (clones tclone) (clone_ends tclone) (clone_fails nalloc kc vc) sc).
  Section Run.
    Hypothesis place_fresh : forall hp w, hget hp (place hp w) = None.
    Hypotheses (Ha : forall b w, cnt (snd (nalloc b w)) = cnt w) (Hc : forall x w, cnt (snd (tclone x w)) = cnt w).
    Hypotheses (Hk : forall a b, single cnt (kcmp a b)) (Hq : forall a b, single cnt (qcmp a b)) (H2 : forall x y, single cnt (qeq x y)) (H3 : forall x y, single cnt (qgt x y))
      (H4 : forall b, single cnt (view b)) (He : forall x y, single cnt (eqb x y)) (Hp : forall x y, single cnt (pcmp x y)).
    Lemma xrun_priced ops : forall s2 s1 ss rs hp S w, reps s2 s1 ss -> held ss rs -> own hp rs -> exact_heap hp rs -> rep lt s1 S -> slim hp ->
      Forall (@xlegal T Q) ops -> xpriced S (cnt w) ops (xrun ops s2 hp w) (xcounts ops s2 hp w).
    Proof.
      induction ops as [|c ops IH]; intros s2 s1 ss rs hp S w R H O E RS SL HL; [constructor|]. inversion HL as [|? ? Hc' HL']; subst.
      assert (xokay nalloc tclone sc c S hp rs (xstep c s2 hp w)) as Ok.
      { eapply step_x; try eassumption; unfold calm, some_panic; eauto 10. }
      assert (forall a b, calm sc (kcmp a b)) as Ck by (unfold calm, some_panic; eauto 10).
      pose proof (@xstep_price T Q W cnt nalloc place place_fresh tclone kcmp qcmp qeq qgt view eqb pcmp sc Ck Ha Hc Hk Hq H2 H3 H4 He Hp s1 s2 ss rs hp S R H O RS c w SL) as P.
      cbn [HostileSetModel.xrun xcounts]. destruct (xstep c s2 hp w) as [[[o s2'] hp'] w']. destruct P as [SL' P].
      destruct Ok as [(S' & HS & Ok)|HG].
      - destruct Ok as [-> |[-> |(s1' & ss' & rs' & R' & H' & G & RS')]]; [eapply XP_dead; eauto|eapply XP_dead; eauto|].
        pose proof (go_own G) as O'. pose proof (goes_exact G E) as E'.
        destruct o as [a|e| | |]; try (eapply XP_dead; [exact HS|auto|exact P]; fail); (eapply XP_step; [exact HS|discriminate|discriminate|exact P|]; eapply IH; eauto).
      - apply XP_gave_up; [exact HG|exact P].
    Qed.
  End Run.
  Theorem C54_set_history : (forall hp w, hget hp (place hp w) = None) ->
    (forall b w, cnt (snd (nalloc b w)) = cnt w) -> (forall x w, cnt (snd (tclone x w)) = cnt w) ->
    (forall a b, counted cnt (kcmp a b)) -> (forall x k, counted cnt (qcmp x k)) -> (forall x y, counted cnt (qeq x y)) -> (forall x y, counted cnt (qgt x y)) ->
    (forall b, counted cnt (view b)) -> (forall x y, counted cnt (eqb x y)) -> (forall x y, counted cnt (pcmp x y)) ->
    forall ops w, Forall (@xlegal T Q) ops -> xpriced (nothing T unit) (cnt w) ops (xrun ops hstart [] w) (xcounts ops hstart [] w).
  Proof.
    intros PF Ha Hc Hk Hq H2 H3 H4 He Hp ops w HL.
    assert (forall A (q : asks W A), counted cnt q -> single cnt q) as CS by (intros A q X v; rewrite X; lia).
    apply xrun_priced with (s1 := start T unit) (ss := fun _ => None) (rs := []); auto.
    - intros r. apply mrep_new.
    - exists 0. split; [reflexivity|constructor].
    - constructor; [constructor|constructor].
    - intros l Hl Hg. apply Hg. unfold hget. destruct (l =? sroot) eqn:El; [apply Nat.eqb_eq in El; congruence|reflexivity].
    - apply start_rep.
    - apply slim_nil.
  Qed.
End Sets.

(** ** Examples: comparisons that answer by the number of calls so far *)
Notation eyes := (fun (b : bound_ nat) (w : nat) => (Some b, S w)).
Notation crun := (hxrun (fun _ w => (None, w)) (@place_reuse nat nat nat)
  (fun _ _ : nat => whim) (fun _ _ : nat => whim) (fun _ _ : nat => flip) (fun _ _ => flip) eyes
  copy_ copy_ (fun _ _ : nat * nat => flip) (fun _ _ w => (Some (fst (whim w)), S w))).
Notation ccounts := (hxcounts (fun w : nat => w) (fun _ w => (None, w)) (@place_reuse nat nat nat) copy_ copy_
  (fun _ _ : nat => whim) (fun _ _ : nat => whim) (fun _ _ : nat => flip) (fun _ _ => flip) eyes
  (fun _ _ : nat * nat => flip) (fun _ _ w => (Some (fst (whim w)), S w))).
Example mad_priced : CostSpec.priced (Q := nat) (no_memory (fun _ (w : nat) => (None, w))) (cloned (W := nat) copy_ copy_) (clone_fails (W := nat) (fun _ w => (None, w)) copy_ copy_)
  (some_panic (K := nat) (V := nat) (Q := nat) (W := nat) (fun _ _ => whim) (fun _ _ => whim) (fun _ _ => flip) (fun _ _ w => (Some (fst (whim w)), S w)))
  (nothing nat nat) 0 mad (crun mad hstart [] 0) (ccounts mad hstart [] 0).
Proof.
  apply (@C54_map_history nat nat nat nat (fun w => w)); try (intros; reflexivity); try (intros ? ? ?; reflexivity); [intros; apply place_reuse_fresh|intros ? ?; reflexivity|exact mad_legal].
Qed.
Fixpoint spent (n : nat) (l : list nat) : list nat := match l with [] => [] | m :: l' => m - n :: spent m l' end.
(** what the steps after the insertions spend: Len, Len, Append, ... *)
Example mad_spends : skipn 60 (spent 0 (ccounts mad hstart [] 0)) = [0; 0; 26; 0; 0; 3; 0; 0; 2; 4; 3; 4; 3; 4; 6; 0; 0; 0; 1; 3; 0; 0; 0].
Proof. vm_compute. reflexivity. Qed.
Notation yrun := (xrun (T := nat) (W := nat) (fun _ _ => whim) (fun _ w => (None, w)) (@place_reuse nat unit nat) (fun x w => (Ret x, w))
  (fun _ _ : nat => whim) (fun _ _ : nat => flip) (fun _ _ => flip) eyes (fun _ _ => flip) (fun _ _ w => (Some (fst (whim w)), S w))).
Notation ycounts := (xcounts (T := nat) (W := nat) (fun w => w) (fun _ w => (None, w)) (@place_reuse nat unit nat) (fun x w => (Ret x, w)) (fun _ _ => whim)
  (fun _ _ : nat => whim) (fun _ _ : nat => flip) (fun _ _ => flip) eyes (fun _ _ => flip) (fun _ _ w => (Some (fst (whim w)), S w))).
Example mad_sets_priced : exists nm cp ce cf sc, ~ sc /\ CostSpec.xpriced (Q := nat) nm cp ce cf sc (nothing nat unit) 0 mad_sets (yrun mad_sets hstart [] 0) (ycounts mad_sets hstart [] 0).
Proof.
  do 5 eexists. split; cycle 1. { 
  apply (@C54_set_history nat nat nat (fun w => w)); try (intros; reflexivity); try (intros ? ? ?; reflexivity); [intros; apply place_reuse_fresh|intros ? ?; reflexivity|exact mad_sets_legal]. }
  intros [(a & b & w1 & w' & E)|[(a & b & w1 & w' & E)|[(a & b & w1 & w' & E)|(a & b & w1 & w' & E)]]]; discriminate E.
Qed.
Example mad_sets_spend : spent 0 (ycounts mad_sets hstart [] 0) = [107; 74; 0; 0; 11; 5; 29; 5; 1; 3; 5; 147; 43; 73; 98; 0; 0; 0; 0; 0].
Proof. vm_compute. reflexivity. Qed.
(** prices grow with the logarithm *)
Lemma lookup_log n : lookup n <= 11 + 6 * Nat.log2 (n + 1).
Proof. unfold lookup, levels. pose proof (Nat.div_mod (Nat.log2 (n + 1)) 2 ltac:(lia)). pose proof (Nat.mod_upper_bound (Nat.log2 (n + 1)) 2 ltac:(lia)). lia. Qed.
Example lookup_prices : map lookup [0; 10; 100; 1000; 4096] = [11; 22; 44; 55; 77].
Proof. vm_compute. reflexivity. Qed.
Print Assumptions C54_map_history.
Print Assumptions C54_set_history.
