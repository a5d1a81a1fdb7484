(** * Properties_Hostile: C42, C43

    Comparisons are safe user code ([HostileModel]): they may answer anything,
    differently each time, and panic.  [HostileSpec.loose] says what an
    operation may then do to the lists of entries; [HostileSpec.runs_loose]
    that after every step of a program the memory is that of these lists. *)
From Coq Require Import List Arith Lia Bool.
From Verif Require Import Base MapSpec IterSpec BTreeModel BTreeIterModel BTreeClone HeapModel HistoryModel HistoryProofs HeapMapModel HeapRes HeapMap HeapSpec HeapHistory HeapMemory.
From Verif Require Import HostileModel HostileSpec HostileOps HostileHistory HostilePure.
From Verif Require Import Examples Properties_BTree Properties_BTree2 Properties_History Properties_Heap.
Import ListNotations.
Set Implicit Arguments.

Section Hostile.
  Variables (K V Q W : Type) (nalloc : bool -> W -> option reserve_error * W) (place : heap K V -> W -> loc).
  Variables (kclone : K -> W -> outcome reserve_error K * W) (vclone : V -> W -> outcome reserve_error V * W).
  Notation kv := (K * V)%type.
  Notation heap := (heap K V).
  (** Ord of the keys, of a key with a looked-up value, == and > of two looked-up values, RangeBounds, PartialEq and PartialOrd of entries *)
  Variables (kcmp : K -> K -> asks W comparison) (qcmp : Q -> K -> asks W comparison) (qeq qgt : Q -> Q -> asks W bool) (view : bound_ Q -> asks W (bound_ Q)).
  Variables (eqb : kv -> kv -> asks W bool) (pcmp : kv -> kv -> asks W (option comparison)).
  Notation hxstep := (hxstep nalloc place kcmp qcmp qeq qgt view kclone vclone eqb pcmp).
  Notation hxrun := (hxrun nalloc place kcmp qcmp qeq qgt view kclone vclone eqb pcmp).
  Notation lt := (fun _ _ : K => Lt).

  (** some comparison panics in some state of the world *)
  Definition some_panic : Prop :=
    (exists a b w w', kcmp a b w = (None, w')) \/ (exists x k w w', qcmp x k w = (None, w')) \/
    (exists x y w w', eqb x y w = (None, w')) \/ (exists x y w w', pcmp x y w = (None, w')).
  Notation loose := (loose (no_memory nalloc) (cloned kclone vclone) (clone_fails nalloc kclone vclone)).
  Notation gave_up := (HostileSpec.gave_up (K := K) (V := V) (Q := Q) (no_memory nalloc)).
  Notation runs_loose := (runs_loose (K := K) (V := V) (Q := Q) (no_memory nalloc) (cloned kclone vclone) (clone_fails nalloc kclone vclone)).

  Lemma gave_up_alive sc (c : op K V Q) S o : gave_up sc c S o -> (exists e, o = Err e) \/ o = Panic.
  Proof. destruct c; cbn [HostileSpec.gave_up]; try contradiction; try (intros (e & H & _); eauto); intros [H _]; auto. Qed.

  Section Run.
    Hypothesis place_fresh : forall hp w, hget hp (place hp w) = None.

    Lemma hxrun_ok ops : forall s2 s1 ss rs hp S w, reps s2 s1 ss -> held ss rs -> own hp rs -> exact_heap hp rs -> rep lt s1 S ->
      Forall (@legal K V Q) ops -> runs_loose some_panic S ops (hxrun ops s2 hp w).
    Proof.
      induction ops as [|c ops IH]; intros s2 s1 ss rs hp S w R H O E RS HL; [constructor|]. inversion HL as [|? ? Hc HL']; subst.
      assert (okay nalloc kclone vclone some_panic c S hp rs (hxstep c s2 hp w)) as Ok.
      { eapply step_o; try eassumption; unfold calm, some_panic; eauto 10. }
      cbn [HostileModel.hxrun]. destruct (hxstep c s2 hp w) as [[[o s2'] hp'] w']. destruct Ok as [(S' & HS & Ok)|(HG & s1' & ss' & rs' & lost & R' & H' & G & _)].
      - destruct Ok as [-> |[-> |(s1' & ss' & rs' & R' & H' & G & RS')]]; [eapply X_dead; eauto|eapply X_dead; eauto|].
        pose proof (goes_exact G E) as E'. pose proof (go_own G) as O'.
        destruct o as [a|e| | |]; try (eapply X_dead; [exact HS|auto]; fail);
          (eapply X_step; [exact HS|exact (memory_ok R' H' O' E' RS')|discriminate|discriminate|]; eapply IH; eauto).
      - apply X_gave_up; [exact HG|]. exact (torn_ok R' H' (go_own G) (goes_exact G E)).
    Qed.

    (** after every step the memory is that of lists, and the operations act on these lists somewhere;
        unless memory was refused, or a comparison panicked in append or split_off *)
    Theorem C42_history : forall ops w, Forall (@legal K V Q) ops -> runs_loose some_panic (nothing K V) ops (hxrun ops hstart [] w).
    Proof.
      intros ops w HL. apply hxrun_ok with (s1 := start K V) (ss := fun _ => None) (rs := []); auto.
      - intros r. apply mrep_new.
      - exists 0. split; [reflexivity|constructor].
      - constructor; [constructor|constructor].
      - intros l Hl Hg. apply Hg. unfold hget. destruct (l =? sroot) eqn:El; [apply Nat.eqb_eq in El; congruence|reflexivity].
      - apply start_rep.
    Qed.
  End Run.

  (** every step leaves the memory of lists; a program runs to its end *)
  Inductive runs_calm (may_panic : op K V Q -> Prop) : (nat -> list kv) -> list (op K V Q) -> list (outcome reserve_error (obs K V) * hregs * heap) -> Prop :=
  | M_end S : runs_calm may_panic S [] []
  | M_step S c l o s hp S' rest :
      HostileSpec.loose (fun _ => False) (cloned kclone vclone) (fun _ => False) some_panic c S o S' ->
      memory lt s hp S' ->
      match o with Ret _ => True | Panic => may_panic c | _ => False end ->
      runs_calm may_panic S' l rest -> runs_calm may_panic S (c :: l) ((o, s, hp) :: rest).

  Section Memory.
    Hypothesis A1 : forall internal w, fst (nalloc internal w) = None.
    Hypothesis (A2 : forall k w, is_ret (fst (kclone k w))) (A3 : forall v w, is_ret (fst (vclone v w))).

    Lemma never_refused e : ~ no_memory nalloc e.
    Proof. intros (b & w & w' & E). specialize (A1 b w). rewrite E in A1. discriminate A1. Qed.
    Lemma clone_returns u : clone_fails nalloc kclone vclone u -> u = Ret tt.
    Proof.
      intros [(e & -> & He)|[(k & w & <-)|(v & w & <-)]]; [destruct (never_refused He)| |].
      - specialize (A2 k w). destruct (fst (kclone k w)); cbn in A2; try contradiction. reflexivity.
      - specialize (A3 v w). destruct (fst (vclone v w)); cbn in A3; try contradiction. reflexivity.
    Qed.
    (** the steps that may panic, when nothing is refused *)
    Definition panics (c : op K V Q) : Prop :=
      match c with
      | Index _ _ | RangeOver _ _ _ _ | RangeMut _ _ _ _ _ => True
      | New _ | Clear _ | Len _ | IsEmpty _ | TryClone _ _ | Clone _ _ | Iterate _ _ | IterMut _ _ _ | IntoIter_ _ _ => False
      | _ => some_panic
      end.
    Lemma loose_calm copy c S o S' : HostileSpec.loose (no_memory nalloc) copy (clone_fails nalloc kclone vclone) some_panic c S o S' ->
      HostileSpec.loose (fun _ => False) copy (fun _ => False) some_panic c S o S' /\ match o with Ret _ => True | Panic => panics c | _ => False end.
    Proof.
      destruct c; cbn [HostileSpec.loose panics].
      - intros (-> & H); auto.
      - intros [(old & l & H1 & -> & H2)|[(e & -> & He & _)|(Hs & -> & H)]]; [split; auto; left; eauto|destruct (never_refused He)|split; auto].
      - intros [(old & l & H1 & -> & H2)|[(e & -> & He & _)|(Hs & -> & H)]]; [split; auto; left; eauto|destruct (never_refused He)|split; auto].
      - intros [(y & l & H1 & -> & H2)|(Hs & -> & H)]; [split; auto; left; eauto|split; auto].
      - intros [(y & l & H1 & -> & H2)|(Hs & -> & H)]; [split; auto; left; eauto|split; auto].
      - intros [(y & H1 & -> & H2)|(Hs & -> & H)]; [split; auto; left; eauto|split; auto].
      - intros [(y & H1 & -> & H2)|(Hs & -> & H)]; [split; auto; left; eauto|split; auto].
      - intros [(b & H1 & -> & H2)|(Hs & -> & H)]; [split; auto; left; eauto|split; auto].
      - intros [(y & H1 & -> & H2)|(-> & H)]; [split; auto; left; eauto|split; auto].
      - intros [(b & l & H1 & -> & H2)|(Hs & -> & H)]; [split; auto; left; eauto|split; auto].
      - intros (-> & H); auto.
      - intros (-> & H); auto.
      - intros (-> & H); auto.
      - intros (l & H1 & -> & H2). split; auto. eauto.
      - intros [(a & b & H1 & -> & H2)|(e & -> & He & _)]; [split; auto; left; eauto|destruct (never_refused He)].
      - intros [(-> & H)|(u & Hu & -> & Hn & _)]; [auto|]. apply clone_returns in Hu. subst u. destruct (Hn OUnit eq_refl).
      - intros [(-> & H)|(u & Hu & -> & Hn & _)]; [auto|]. apply clone_returns in Hu. subst u. destruct (Hn OUnit eq_refl).
      - intros [(l0 & H1 & -> & H2)|(a & b & l0 & H1 & H2 & H3 & Hs & -> & H)]; [split; auto; left; eauto|split; auto; right; eauto 10].
      - match goal with |- context [dq_run ?cs (S ?r)] => destruct (dq_run cs (S r)) end. intros (-> & H). auto.
      - intros [(a & m & b & H1 & -> & H2)|(-> & H)]; [split; auto; left; eauto 8|split; auto].
      - intros (-> & H); auto.
      - intros [(a & m & b & H1 & -> & H2)|(-> & H)]; [split; auto; left; eauto 8|split; auto].
      - match goal with |- context [dq_run ?cs (S ?r)] => destruct (dq_run cs (S r)) end. intros (-> & H). auto.
      - intros [(a & x & b & H1 & -> & H2)|[(a & b & H1 & -> & H2)|[(e & -> & He & _)|(Hs & -> & H)]]];
          [split; auto; left; eauto 8|split; auto; right; left; eauto 8|destruct (never_refused He)|split; auto 8].
      - intros [(y & l & H1 & -> & H2)|[(e & -> & He & _)|(Hs & -> & H)]]; [split; auto; left; eauto|destruct (never_refused He)|split; auto].
      - intros [(b & -> & H1 & H2)|(Hs & -> & H)]; [split; auto; left; eauto|split; auto].
      - intros [(b & -> & H2)|(Hs & -> & H)]; [split; auto; left; eauto|split; auto].
    Qed.
    Lemma up_calm c S o : gave_up some_panic c S o -> some_panic /\ match c with Append _ _ | SplitOff _ _ _ => True | _ => False end.
    Proof.
      destruct c; cbn [HostileSpec.gave_up]; try contradiction.
      - intros (e & _ & He & _). destruct (never_refused He).
      - intros (e & _ & He & _). destruct (never_refused He).
      - intros (_ & [Hs|(e & He)]); [auto|destruct (never_refused He)].
      - intros (_ & Hs). auto.
      - intros (_ & e & He). destruct (never_refused He).
      - intros (e & _ & He & _). destruct (never_refused He).
    Qed.
    Lemma runs_calm_of ops S res : runs_loose some_panic S ops res ->
      (~ some_panic \/ Forall (fun c => match c with Append _ _ | SplitOff _ _ _ => False | _ => True end) ops) -> runs_calm panics S ops res.
    Proof.
      intros HR. induction HR as [S|S c l o s hp S' rest HS HM Ha Hu HA IH|S c l o s hp S' HS Hd|S c l o s hp rest HG HT]; intros N.
      - constructor.
      - destruct (@loose_calm _ _ _ _ _ HS) as [X1 X2]. eapply M_step; eauto. apply IH. destruct N as [N|N]; [auto|right; now inversion N].
      - destruct (@loose_calm _ _ _ _ _ HS) as [X1 X2]. destruct Hd; subst o; contradiction.
      - destruct (@up_calm _ _ _ HG) as (Hs & Hc). destruct N as [N|N]; [destruct (N Hs)|]. inversion N as [|? ? N1 N2]; subst. destruct c; contradiction.
    Qed.
  End Memory.

  (** ** C42: comparisons that do not panic *)
  (** whatever they answer, every step leaves the memory of lists, and none is undefined, aborts or fails *)
  Theorem C42_never_unsafe : (forall hp w, hget hp (place hp w) = None) -> ~ some_panic ->
    (forall internal w, fst (nalloc internal w) = None) -> (forall k w, is_ret (fst (kclone k w))) -> (forall v w, is_ret (fst (vclone v w))) ->
    forall ops w, Forall (@legal K V Q) ops ->
    runs_calm (fun c => match c with Index _ _ | RangeOver _ _ _ _ | RangeMut _ _ _ _ _ => True | _ => False end) (nothing K V) ops (hxrun ops hstart [] w).
  Proof.
    intros PF N A1 A2 A3 ops w HL. pose proof (runs_calm_of A1 A2 A3 (C42_history PF w HL) (or_introl N)) as HR.
    induction HR as [S|S c l o s hp S' rest HS HM Ho HA IH]; [constructor|]. inversion HL as [|? ? Hc HL']; subst.
    eapply M_step; [exact HS|exact HM| |now apply IH]. destruct o; auto. unfold panics in Ho. destruct c; auto.
  Qed.

  (** ** C43: comparisons that panic, in programs without append and split_off *)
  (** after the panic the memory is that of the lists before the operation (of the entries already added, for extend) *)
  Theorem C43_panic_partial : (forall hp w, hget hp (place hp w) = None) ->
    (forall internal w, fst (nalloc internal w) = None) -> (forall k w, is_ret (fst (kclone k w))) -> (forall v w, is_ret (fst (vclone v w))) ->
    forall ops w, Forall (@legal K V Q) ops -> Forall (fun c => match c with Append _ _ | SplitOff _ _ _ => False | _ => True end) ops ->
    runs_calm panics (nothing K V) ops (hxrun ops hstart [] w).
  Proof. intros PF A1 A2 A3 ops w HL HN. exact (runs_calm_of A1 A2 A3 (C42_history PF w HL) (or_intror HN)). Qed.

  (** ** Nothing is leaked *)
  (** a step that neither killed the program, nor was refused memory while adding entries, nor panicked in extend, append or split_off *)
  Definition kept (c : op K V Q) (x : outcome reserve_error (obs K V) * hregs * heap) : Prop :=
    match fst (fst x) with
    | Ret _ => True
    | Err _ => match c with Insert _ _ _ | Replace _ _ _ | EntryOr _ _ _ _ => False | _ => True end
    | Panic => match c with Extend _ _ | Append _ _ | SplitOff _ _ _ => False | _ => True end
    | Abort | UB => False
    end.
  Notation last_regs := (@last_regs K V).
  Notation last_heap := (@last_heap K V).

  Lemma hxstep_touches c s hp w r : ~ In r (touches c) -> snd (fst (fst (hxstep c s hp w))) r = s r.
  Proof.
    intros H. unfold HostileModel.hxstep, done, abind, aret, pure, hbind, hret, lift.
    destruct c; cbn [touches In] in H;
      repeat match goal with
             | |- context [match ?x with _ => _ end] => lazymatch x with context [match _ with _ => _ end] => fail | _ => destruct x end
             end; cbn [fst snd]; repeat rewrite hup_other by (intro; subst; tauto); reflexivity.
  Qed.
  Lemma hxrun_untouched ops r : forall s hp w, ~ In r (flat_map (@touches K V Q) ops) -> last_regs s (hxrun ops s hp w) r = s r.
  Proof.
    induction ops as [|c ops IH]; intros s hp w H; [reflexivity|]. cbn [flat_map] in H. rewrite in_app_iff in H. cbn [HostileModel.hxrun].
    pose proof (@hxstep_touches c s hp w r) as X. destruct (hxstep c s hp w) as [[[o s'] hp'] w']. cbn [fst snd] in X.
    unfold Properties_Heap.last_regs. cbn [map fst snd]. rewrite last_cons_. rewrite <- X by tauto.
    destruct o; try (apply IH; tauto); reflexivity.
  Qed.
  Lemma hxstep_clear s hp w r : fst (fst (fst (hxstep (Clear r) s hp w))) = UB \/ snd (fst (fst (hxstep (Clear r) s hp w))) r = h_new.
  Proof.
    unfold HostileModel.hxstep, pure, hbind, hret. destruct (h_drop (s r) hp) as [[u hp']|]; cbn [fst snd]; [right|now left].
    unfold hup_. now rewrite Nat.eqb_refl.
  Qed.
  Lemma hxrun_cleared a b r : ~ In r (flat_map (@touches K V Q) b) ->
    forall s hp w, Forall2 kept (a ++ Clear r :: b) (hxrun (a ++ Clear r :: b) s hp w) ->
    last_regs s (hxrun (a ++ Clear r :: b) s hp w) r = h_new.
  Proof.
    intros Hb. induction a as [|c a IH]; intros s hp w; cbn [app].
    - cbn [HostileModel.hxrun]. pose proof (hxstep_clear s hp w r) as X.
      destruct (hxstep (Clear r) s hp w) as [[[o s'] hp'] w']. cbn [fst snd] in X. intros F. inversion F as [|? ? ? ? U F']; subst.
      destruct X as [-> |X]; [destruct U|]. unfold Properties_Heap.last_regs. cbn [map fst snd]. rewrite last_cons_. rewrite <- X.
      destruct o; try (now apply hxrun_untouched); reflexivity.
    - cbn [HostileModel.hxrun]. destruct (hxstep c s hp w) as [[[o s'] hp'] w']. intros F. inversion F as [|? ? ? ? U F']; subst.
      unfold Properties_Heap.last_regs. cbn [map fst snd]. rewrite last_cons_. destruct o; try (exact (IH _ _ _ F')); destruct U.
  Qed.
  Lemma runs_loose_last sc S l res s0 : runs_loose sc S l res -> Forall2 kept l res -> l <> [] -> exists S', memory lt (last_regs s0 res) (last_heap res) S'.
  Proof.
    intros H. unfold Properties_Heap.last_regs, Properties_Heap.last_heap. generalize (@nil (loc * option (cell K V))) as hp0. revert s0.
    induction H as [S|S c l o s hp S' rest HS HM Ha Hu HA IH|S c l o s hp S' HS Hd|S c l o s hp rest HG HT]; intros s0 hp0 F Ne.
    - congruence.
    - inversion F as [|? ? ? ? U F']; subst. cbn [map fst snd]. rewrite !last_cons_. destruct l as [|c' l].
      + inversion F'; subst. cbn [map last]. eauto.
      + apply IH; [exact F'|discriminate].
    - inversion F as [|? ? ? ? U F']; subst. destruct Hd; subst o; destruct U.
    - inversion F as [|? ? ? ? U F']; subst. exfalso. unfold kept in U. cbn [fst] in U.
      destruct c; cbn [HostileSpec.gave_up] in HG; try contradiction.
      + destruct HG as (e & -> & _). contradiction.
      + destruct HG as (e & -> & _). contradiction.
      + destruct HG as (-> & _). contradiction.
      + destruct HG as (-> & _). contradiction.
      + destruct HG as (-> & _). contradiction.
      + destruct HG as (e & -> & _). contradiction.
  Qed.

  (** a program that works on the variables below [N] and drops them in the
      end has freed every node *)
  Theorem C42_no_leak : (forall hp w, hget hp (place hp w) = None) ->
    forall ops N w, Forall (@legal K V Q) ops -> (forall c r, In c ops -> In r (touches c) -> r < N) ->
    let prog := ops ++ map Clear (seq 0 N) in
    let res := hxrun prog hstart [] w in
    Forall2 kept prog res -> forall l, l <> sroot -> hget (last_heap res) l = None.
  Proof.
    intros PF ops N w HL HT prog res F l Hl.
    assert (Forall (@legal K V Q) prog) as HLp.
    { apply Forall_app. split; [exact HL|]. apply Forall_forall. intros c Hc. apply in_map_iff in Hc as (r & <- & _). exact I. }
    assert (forall r, last_regs hstart res r = h_new) as Hnew.
    { intros r. destruct (le_lt_dec N r) as [Hr|Hr].
      - unfold res. rewrite hxrun_untouched; [reflexivity|]. intros H. apply in_flat_map in H as (c & Hc & H). apply in_app_or in Hc as [Hc|Hc].
        + specialize (HT c r Hc H). lia.
        + apply in_map_iff in Hc as (i & <- & Hi). apply in_seq in Hi. destruct H as [<- |[]]. lia.
      - assert (prog = (ops ++ map Clear (seq 0 r)) ++ Clear r :: map Clear (seq (S r) (N - S r))) as E.
        { unfold prog. rewrite <- app_assoc. f_equal. replace N with (r + S (N - S r)) at 1 by lia. rewrite seq_app, map_app. reflexivity. }
        unfold res. rewrite E. apply hxrun_cleared; [|rewrite <- E; exact F]. intros H. apply in_flat_map in H as (c & Hc & H).
        apply in_map_iff in Hc as (i & <- & Hi). apply in_seq in Hi. destruct H as [<- |[]]. lia. }
    destruct prog as [|c prog'] eqn:Ep.
    - unfold res. cbn. unfold hget. destruct (l =? sroot) eqn:El; [apply Nat.eqb_eq in El; congruence|reflexivity].
    - assert (exists S', memory lt (last_regs hstart res) (last_heap res) S') as (S' & nodes & M1 & M2 & M3).
      { eapply runs_loose_last; [|exact F|discriminate]. unfold res. now apply C42_history. }
      destruct (hget (last_heap res) l) eqn:E; [|reflexivity]. exfalso. destruct (M3 l Hl ltac:(congruence)) as (r & Hr).
      destruct (M1 r) as (_ & _ & [(_ & _ & X)|X]); [rewrite X in Hr; destruct Hr|]. rewrite Hnew in X. cbn in X. destruct X as [X _]. now apply X.
  Qed.
End Hostile.

(** ** The other side of C42: comparisons that are functions and obey the laws of Ord and Borrow.
    Then every program does what HistorySpec says of sorted lists, as in C40. *)
Section Lawful.
  Variables (K V Q W : Type) (nalloc : bool -> W -> option reserve_error * W) (place : heap K V -> W -> loc).
  Variables (kclone : K -> W -> outcome reserve_error K * W) (vclone : V -> W -> outcome reserve_error V * W).
  Notation kv := (K * V)%type.
  Variables (cmp : K -> K -> comparison) (qcmp : Q -> Q -> comparison) (borrow : K -> Q).
  Variables (eqb : kv -> kv -> bool) (pcmp : kv -> kv -> option comparison).

  Theorem C42_lawful :
    ord_laws cmp -> borrow_laws cmp qcmp borrow ->
    (forall k w k' w', kclone k w = (Ret k', w') -> cmp k k' = Eq) ->
    (forall hp w, hget hp (place hp w) = None) ->
    forall ops w, Forall (@legal K V Q) ops ->
    runs_ok cmp qcmp borrow eqb pcmp (no_memory nalloc) (cloned kclone vclone) (clone_fails nalloc kclone vclone) (nothing K V) ops
      (hxrun nalloc place (fun a b w => (Some (cmp a b), w)) (fun x k w => (Some (qcmp x (borrow k)), w))
         (fun x y w => (Some match qcmp x y with Eq => true | _ => false end, w))
         (fun x y w => (Some match qcmp x y with Gt => true | _ => false end, w)) (fun b w => (Some b, w))
         kclone vclone (fun x y w => (Some (eqb x y), w)) (fun x y w => (Some (pcmp x y), w)) ops hstart [] w).
  Proof. intros L1 L2 L3 PF ops w HL. apply (@pure_run_ok K V W nalloc place cmp Q qcmp borrow kclone vclone eqb pcmp). now apply C40_history. Qed.

  (** and the two models of the map are the same program *)
  Theorem C42_same_program : forall ops w,
    Forall (fun r => fst (fst r) <> UB) (hrun nalloc place cmp qcmp borrow kclone vclone eqb pcmp ops hstart [] w) ->
    hxrun nalloc place (fun a b w => (Some (cmp a b), w)) (fun x k w => (Some (qcmp x (borrow k)), w))
         (fun x y w => (Some match qcmp x y with Eq => true | _ => false end, w))
         (fun x y w => (Some match qcmp x y with Gt => true | _ => false end, w)) (fun b w => (Some b, w))
         kclone vclone (fun x y w => (Some (eqb x y), w)) (fun x y w => (Some (pcmp x y), w)) ops hstart [] w =
    hrun nalloc place cmp qcmp borrow kclone vclone eqb pcmp ops hstart [] w.
  Proof. intros ops w F. exact (@pure_run_same K V W nalloc place cmp Q qcmp borrow kclone vclone eqb pcmp ops hstart [] w F). Qed.
End Lawful.
Example lawful_runs : forall w, runs_ok Nat.compare Nat.compare (fun k => k) (fun x y : nat * nat => (fst x =? fst y) && (snd x =? snd y))
  (fun x y => Some (Nat.compare (fst x) (fst y))) (no_memory budget) (cloned (@copy_ nat) (@copy_ nat)) (clone_fails budget (@copy_ nat) (@copy_ nat))
  (nothing nat nat) demo
  (hxrun budget (@place_reuse nat nat nat) (fun a b w => (Some (Nat.compare a b), w)) (fun x k w => (Some (Nat.compare x k), w))
     (fun x y w => (Some match Nat.compare x y with Eq => true | _ => false end, w))
     (fun x y w => (Some match Nat.compare x y with Gt => true | _ => false end, w)) (fun b w => (Some b, w))
     copy_ copy_ (fun x y w => (Some ((fst x =? fst y) && (snd x =? snd y)), w)) (fun x y w => (Some (Some (Nat.compare (fst x) (fst y))), w)) demo hstart [] w).
Proof.
  intros w. apply C42_lawful with (borrow := fun k => k); auto using nat_laws, nat_borrow, place_reuse_fresh, demo_legal.
  intros k w' k' w'' E. injection E. intros. subst. apply Nat.compare_refl.
Qed.

(** ** C43: a comparison that panics in the middle of append or split_off *)
(** the usual order of numbers, but the call number [w] panics (the world counts down) *)
Definition tick {A} (a : A) (w : nat) : option A * nat := match w with 0 => (None, 1000) | S w' => (Some a, w') end.
Notation trun := (hxrun (fun _ w => (None, w)) (@place_reuse nat nat nat)
  (fun a b => tick (Nat.compare a b)) (fun a b => tick (Nat.compare a b)) (fun a b => tick (a =? b)) (fun a b => tick (b <? a)) (fun b => tick b)
  copy_ copy_ (fun x y : nat * nat => tick (fst x =? fst y)) (fun x y => tick (Some (Nat.compare (fst x) (fst y))))).
Definition outcomes {K V} (l : list (outcome reserve_error (obs K V) * hregs * heap K V)) : list (outcome reserve_error (obs K V)) :=
  map (fun x => fst (fst x)) l.

(** the even numbers below 16 appended with the odd ones; the comparison
    panics after 12 of the 16 entries.  The map is left with a half-built tree (its last leaf
    is empty): removing the key above that leaf is undefined *)
Definition half_append : list (op nat nat nat) :=
  map (fun k => Insert 0 (2 * k) k) (seq 0 8) ++ map (fun k => Insert 1 (2 * k + 1) k) (seq 0 8) ++ [Append 0 1; Len 0; Remove 0 11].
Theorem C43_append_panic_refuted : exists ops w, Forall (@legal nat nat nat) ops /\
  skipn 16 (outcomes (trun ops hstart [] w)) = [Panic; Ret (ONat 12); UB].
Proof. exists half_append, 68. split; [repeat constructor; discriminate|vm_compute; reflexivity]. Qed.

(** 30 numbers, split_off at 4, the comparison panics in the second node: the
    entries moved so far are lost, but len() still says 30; dropping the map is undefined *)
Definition half_split : list (op nat nat nat) := map (fun k => Insert 0 k k) (seq 0 30) ++ [SplitOff 0 4 1; Len 0; Clear 0].
Theorem C43_split_off_panic_refuted : exists ops w, Forall (@legal nat nat nat) ops /\
  skipn 30 (outcomes (trun ops hstart [] w)) = [Panic; Ret (ONat 30); UB].
Proof. exists half_split, 240. split; [repeat constructor; discriminate|vm_compute; reflexivity]. Qed.

(** ** Concrete programs *)
(** an order that depends on how often it was asked, and on nothing else *)
Definition whim (w : nat) : option comparison * nat := (Some (match w mod 7 with 1 => Eq | 2 | 5 | 6 => Lt | _ => Gt end), S w).
Definition flip (w : nat) : option bool * nat := (Some (w mod 5 =? 0), S w).
Notation wrun := (hxrun (fun _ w => (None, w)) (@place_reuse nat nat nat)
  (fun _ _ : nat => whim) (fun _ _ : nat => whim) (fun _ _ : nat => flip) (fun _ _ => flip) (fun b w => (Some b, w))
  copy_ copy_ (fun _ _ : nat * nat => flip) (fun _ _ w => (Some (fst (whim w)), S w))).
Definition mad : list (op nat nat nat) :=
  map (fun k => Insert 0 k (100 + k)) (seq 0 40) ++ map (fun k => Insert 1 k (200 + k)) (seq 0 20) ++
  [Len 0; Len 1; Append 0 1; Len 0; Len 1; SplitOff 0 7 2; Len 0; Len 2; Remove 0 3; Remove 0 3; Replace 2 9 9; GetMut 2 1 S;
   EntryOr 0 5 S 77; EntryRemove 0 5; RangeMut 0 Unbounded Unbounded [Front; Back; Front] [(0, S); (2, S)]; Iterate 0 [Front; Front; Back];
   IterMut 2 [Front; Back] [(1, S)]; Equal 0 2; Compare 0 2; Extend 1 [(1, 1); (1, 1); (1, 1)]; Len 1; TryClone 0 3; IntoIter_ 2 [Front; Back]].
Example mad_legal : Forall (@legal nat nat nat) mad.
Proof. repeat constructor; discriminate. Qed.
Example mad_calm : ~ some_panic (K := nat) (V := nat) (Q := nat) (W := nat) (fun _ _ => whim) (fun _ _ => whim) (fun _ _ => flip) (fun _ _ w => (Some (fst (whim w)), S w)).
Proof. intros [(a & b & w & w' & E)|[(a & b & w & w' & E)|[(a & b & w & w' & E)|(a & b & w & w' & E)]]]; discriminate E. Qed.
(** the maps are in no order, and have lost none of their lengths *)
Example mad_runs : runs_calm copy_ copy_ (fun _ _ => whim) (fun _ _ => whim) (fun _ _ => flip) (fun _ _ w => (Some (fst (whim w)), S w))
  (fun c => match c with Index _ _ | RangeOver _ _ _ _ | RangeMut _ _ _ _ _ => True | _ => False end) (nothing nat nat) mad (wrun mad hstart [] 0).
Proof. apply C42_never_unsafe; auto using place_reuse_fresh, mad_calm, mad_legal; intros; exact I. Qed.
Example mad_outcomes : skipn 60 (outcomes (wrun mad hstart [] 0)) =
  [Ret (ONat 24); Ret (ONat 15); Ret OUnit; Ret (ONat 35); Ret (ONat 0); Ret OUnit; Ret (ONat 12); Ret (ONat 23);
   Ret (OVal nat (Some 136)); Ret (OVal nat None); Ret (OKey nat (Some 28)); Ret (OBool false); Ret (OVal nat (Some 215)); Ret (OEntry None);
   Ret (OItems [Some (15, 115); Some (11, 211); Some (14, 215)]);
   Ret (OSized [Some (15, 116); Some (14, 216); Some (11, 211)] 8);
   Ret (OItems [Some (6, 209); Some (1, 101)]); Ret (OBool false); Ret (OCmp (Some Lt)); Ret OUnit; Ret (ONat 2); Ret OUnit;
   Ret (ODropped [Some (6, 209); Some (1, 102)]
          [(9, 128); (26, 126); (4, 204); (7, 207); (22, 122); (3, 205); (15, 215); (20, 120); (18, 118); (1, 201); (0, 200); (9, 109);
           (2, 202); (12, 112); (7, 110); (5, 105); (8, 108); (3, 106); (16, 116); (0, 102); (4, 104)])].
Proof. vm_compute. reflexivity. Qed.
Lemma kept_outcomes K V Q (l : list (op K V Q)) : forall res, Forall2 (fun c o => kept c (o, hstart, [])) l (outcomes res) -> Forall2 (@kept K V Q) l res.
Proof. induction l as [|c l IH]; intros [|x res] F; inversion F; subst; constructor; auto. Qed.
Example mad_clean : forall l, l <> sroot -> hget (last_heap (wrun (mad ++ map Clear (seq 0 4)) hstart [] 0)) l = None.
Proof.
  apply C42_no_leak; auto using place_reuse_fresh, mad_legal.
  - intros c r Hc Hr. unfold mad in Hc. cbn in Hc.
    repeat (destruct Hc as [<- |Hc]; [cbn in Hr; repeat (destruct Hr as [<- |Hr]; [lia|]); destruct Hr|]). destruct Hc.
  - apply kept_outcomes. vm_compute. repeat constructor.
Qed.

(** comparisons that panic in the middle of insertions, lookups and extend: the
    maps stay as they were and can be used on *)
Definition shaken : list (op nat nat nat) := map (fun k => Insert 0 k k) (seq 0 13) ++
  [Len 0; Extend 0 (map (fun k => (20 + k, k)) (seq 0 12)); Len 0; Clear 0; Len 0].
Example shaken_runs w : runs_calm copy_ copy_ (fun a b => tick (Nat.compare a b)) (fun a b => tick (Nat.compare a b))
  (fun x y => tick (fst x =? fst y)) (fun x y => tick (Some (Nat.compare (fst x) (fst y))))
  (panics (K := nat) (V := nat) (Q := nat) (fun a b => tick (Nat.compare a b)) (fun a b => tick (Nat.compare a b))
    (fun x y => tick (fst x =? fst y)) (fun x y => tick (Some (Nat.compare (fst x) (fst y))))) (nothing nat nat) shaken (trun shaken hstart [] w).
Proof. apply C43_panic_partial; auto using place_reuse_fresh; try (intros; exact I); repeat constructor; discriminate. Qed.
Example shaken_insert : skipn 11 (outcomes (trun shaken hstart [] 68)) = [Ret (OVal nat None); Panic; Ret (ONat 12); Ret OUnit; Ret (ONat 24); Ret OUnit; Ret (ONat 0)].
Proof. vm_compute. reflexivity. Qed.
Example shaken_extend : skipn 11 (outcomes (trun shaken hstart [] 100)) = [Ret (OVal nat None); Ret (OVal nat None); Ret (ONat 13); Panic; Ret (ONat 16); Ret OUnit; Ret (ONat 0)].
Proof. vm_compute. reflexivity. Qed.

Print Assumptions C42_history.
Print Assumptions C42_never_unsafe.
Print Assumptions C42_no_leak.
Print Assumptions C42_lawful.
Print Assumptions C42_same_program.
Print Assumptions C43_panic_partial.
Print Assumptions C43_append_panic_refuted.
Print Assumptions C43_split_off_panic_refuted.
