(** * Properties_Drop: C44

    Programs over maps in raw memory, with destructors of keys and values that
    are arbitrary user code: they change the world and they may panic.
    [DropSpec.runs_dropping] says after every step what was observed, which
    entries were destroyed, and what memory looks like. *)
From Coq Require Import List Arith Lia Bool Sorted Permutation.
From Verif Require Import Base MapSpec IterSpec BTreeModel BTreeInv BTreeLemmas BTreeInsert BTreeIterModel BTreeBulkModel BTreeClone BTreeSplit
  BTreeWrites BTreeCollect BTreeSetModel Properties_BTree Properties_BTree2 HistoryModel HistorySpec HistoryProofs Properties_History Examples.
From Verif Require Import HeapModel HeapMapModel HeapArr HeapRep HeapWp HeapRes HeapMap HeapSplit HeapHistory HeapSpec HeapMemory Properties_Heap.
From Verif Require Import DropModel DropSpec DropHistory.
Import ListNotations.
Set Implicit Arguments.

Section Drops.
  Variables (K V Q : Type) (cmp : K -> K -> comparison) (qcmp : Q -> Q -> comparison) (borrow : K -> Q).
  Notation kv := (K * V)%type.
  Notation heap := (heap K V).
  Variables (W : Type) (nalloc : bool -> W -> option reserve_error * W) (place : heap -> W -> loc).
  Variables (kclone : K -> W -> outcome reserve_error K * W) (vclone : V -> W -> outcome reserve_error V * W).
  Variables (eqb : kv -> kv -> bool) (pcmp : kv -> kv -> option comparison).
  Variables (kdrop : K -> W -> bool * W) (vdrop : V -> W -> bool * W).
  Notation hdrun := (hdrun kdrop vdrop nalloc place cmp qcmp borrow kclone vclone eqb pcmp).
  Notation hdstep := (hdstep kdrop vdrop nalloc place cmp qcmp borrow kclone vclone eqb pcmp).
  Notation spec_ := (spec cmp qcmp borrow eqb pcmp (no_memory nalloc) (cloned kclone vclone) (clone_fails nalloc kclone vclone)).
  Notation runs_dropping := (runs_dropping cmp qcmp borrow eqb pcmp (no_memory nalloc) (cloned kclone vclone) (clone_fails nalloc kclone vclone) kdrop vdrop).
  Notation panics := (panics kdrop vdrop).
  Notation blasts := (blasts kdrop vdrop).

  Lemma leaky_ok (s2 : hregs) s1 ss rs lost (hp : heap) (S : nat -> list kv) : reps s2 s1 ss -> held ss rs -> own hp (rs ++ lost) -> exact_heap hp (rs ++ lost) -> rep cmp s1 S ->
    leaky_memory cmp s2 hp S.
  Proof.
    intros R H O E RS. exists (snodes ss), (rflocs lost). pose proof O as Oa. apply own_app in Oa as (O1 & O2 & D).
    split; [|split; [exact (held_apart H O1)|split; [apply O2|split; [|split]]]].
    - intros r. destruct (RS r) as [[((Hb1 & Hb2) & Hsh & Hlen) Hsort] He]. destruct (R r) as [Rl Rm]. rewrite He in Hsort, Hlen.
      split; [exact Hsort|]. split; [congruence|]. unfold snodes. destruct (ss r) as [T|] eqn:Es.
      + right. destruct Rm as (R1 & _ & R3). rewrite R1. cbn [rh rl sres].
        replace (rflocs [Root T]) with (locs T) by (cbn; now rewrite app_nil_r).
        destruct (held_focus r H) as (rest & P & _). apply (own_perm P), own_sub in O1. rewrite Es in O1. cbn [sres] in O1.
        destruct O1 as [O1 _]. apply Forall_inv in O1. destruct O1 as [B Hh]. unfold entries in He. rewrite R3 in He, Hb2. rewrite <- He.
        apply body_stored; auto. intros X. now destruct X.
      + left. destruct Rm as (R1 & _ & R3 & _). split; [exact R1|]. split; [|reflexivity]. unfold entries in He. rewrite R3 in He. now rewrite <- He.
    - intros r l Hl. apply D. apply (held_in l H). eauto.
    - intros l Hl Hg. destruct (own_alive O2 Hl) as (_ & c & Hc). congruence.
    - intros l Hl Hg. specialize (E l Hl Hg). rewrite rflocs_app in E. apply in_app_or in E as [E|E]; [right|now left]. now apply (held_in l H).
  Qed.

  Section Run.
    Hypothesis (L1 : ord_laws cmp) (L2 : borrow_laws cmp qcmp borrow).
    Hypothesis L3 : forall k w k' w', kclone k w = (Ret k', w') -> cmp k k' = Eq.
    Hypothesis place_fresh : forall hp w, hget hp (place hp w) = None.

    Lemma hdrun_ok ops : forall (b : bool) s2 s1 ss rs lost (hp : heap) (S : nat -> list kv) w, reps s2 s1 ss -> held ss rs -> own hp (rs ++ lost) -> exact_heap hp (rs ++ lost) -> rep cmp s1 S ->
      (b = false -> lost = []) -> Forall (@legal K V Q) ops -> runs_dropping b S ops (hdrun ops s2 hp w).
    Proof.
      induction ops as [|c ops IH]; intros b s2 s1 ss rs lost hp S w R H O E RS Hb HL; [constructor|]. inversion HL as [|? ? Hc HL']; subst.
      pose proof (@step_fine_d K V Q cmp qcmp borrow L1 L2 W nalloc place place_fresh kclone vclone L3 eqb pcmp kdrop vdrop s1 s2 ss rs hp S R H (own_sub O) RS c w Hc) as HF.
      cbn [DropModel.hdrun]. unfold fine_d in HF. destruct (hdstep c s2 hp w) as [[[[o l] s2'] hp'] w'].
      assert (torn_ok_ s2' hp rs hp' -> torn_memory s2' hp') as TO.
      { intros (s1' & ss' & rs' & lo & R' & H' & G). pose proof (goes_fst G O) as G1. rewrite <- app_assoc in G1.
        exact (torn_ok R' H' (go_own G1) (goes_exact G1 E)). }
      destruct HF as [o l s hp' S' HS El Na Nu (s1' & ss' & rs' & RS' & R' & H' & G)|l x kept s hp' S' lo a Hr HS Hd Hp (s1' & ss' & rs' & RS' & R' & H' & G)|o l s hp' S' HS Ho|l s hp' HB|o l s hp' HG HT|r t l kept s hp' -> HB Pm HT].
      - rewrite app_nil_r in G. pose proof (goes_fst G O) as G1. pose proof (goes_exact G1 E) as E1.
        replace (match o with Abort | UB => [] | _ => hdrun ops s hp' w' end) with (hdrun ops s hp' w') by (destruct o; congruence).
        eapply D_step; [exact HS|exact El| |exact Na|exact Nu|].
        + destruct b; [eapply leaky_ok; [exact R'|exact H'|exact (go_own G1)|exact E1|exact RS']|]. rewrite (Hb eq_refl), !app_nil_r in G1. rewrite (Hb eq_refl), app_nil_r in E1. exact (memory_ok R' H' (go_own G1) E1 RS').
        + eapply IH; eauto. exact (go_own G1).
      - pose proof (goes_fst G O) as G1. rewrite <- app_assoc in G1. pose proof (goes_exact G1 E) as E1.
        eapply D_panic; [exact Hr|exists a; exact HS|exact Hd|exact Hp|eapply leaky_ok; [exact R'|exact H'|exact (go_own G1)|exact E1|exact RS']|].
        eapply IH; [exact R'|exact H'|exact (go_own G1)|exact E1|exact RS'|discriminate|exact HL'].
      - replace (match o with Abort | UB => [] | _ => hdrun ops s hp' w' end) with (@nil (outcome reserve_error (obs K V) * list kv * hregs * heap)) by (destruct Ho; now subst o).
        eapply D_dead; eauto.
      - eapply D_abort; eauto.
      - eapply D_gave_up; auto.
      - eapply D_append; eauto.
    Qed.

    (** ** C44: every history, whatever the destructors do *)
    Theorem C44_history_partial : forall ops w, Forall (@legal K V Q) ops -> runs_dropping false (nothing K V) ops (hdrun ops hstart [] w).
    Proof.
      intros ops w HL. apply hdrun_ok with (s1 := start K V) (ss := fun _ => None) (rs := []) (lost := []); auto.
      - intros r. apply mrep_new.
      - exists 0. split; [reflexivity|constructor].
      - constructor; [constructor|constructor].
      - intros l Hl Hg. apply Hg. unfold hget. destruct (l =? sroot) eqn:El; [apply Nat.eqb_eq in El; congruence|reflexivity].
      - apply start_rep.
    Qed.

    (** ** The destructors do not panic: nothing is leaked, and what is destroyed is what the lists say *)
    Definition stripped (l : list (outcome reserve_error (obs K V) * list kv * hregs * heap)) : list (outcome reserve_error (obs K V) * hregs * heap) :=
      map (fun x => (fst (fst (fst x)), snd (fst x), snd x)) l.
    Theorem C44_quiet : (forall k w, fst (kdrop k w) = true) -> (forall v w, fst (vdrop v w) = true) ->
      forall ops w, Forall (@legal K V Q) ops ->
      runs_ok cmp qcmp borrow eqb pcmp (no_memory nalloc) (cloned kclone vclone) (clone_fails nalloc kclone vclone) (nothing K V) ops (stripped (hdrun ops hstart [] w)).
    Proof.
      intros Q1 Q2 ops w HL. pose proof (C44_history_partial w HL) as HA. clear HL.
      assert (forall x, ~ panics x) as NP. { intros x (w0 & [P|P]); [rewrite Q1 in P|rewrite Q2 in P]; discriminate P. }
      assert (forall l n, blasts l n -> n <> 0 -> False) as NB.
      { intros l n B. induction B as [|x l n B IH|x l n P B IH|x l n P P' B IH]; auto; intros _; [exact (NP _ P)|]. destruct P as (w0 & P). apply (NP x). exists w0. now left. }
      remember false as b eqn:Eb. revert Eb.
      induction HA as [b S|b S c l o log s hp S' rest HS El HM Na Nu HA IH|b S c l log x kept s hp S' rest Hr HS Hd Hp HM HA IH|b S c l o log s hp S' HS Ho|b S c l log s hp HB|b S c l o log s hp rest HG HT|b S r t l log s hp kept rest HB Pm HT];
        intros ->; cbn [stripped map fst snd].
      - constructor.
      - eapply H_step; eauto.
      - exfalso. exact (NP _ Hp).
      - eapply H_dead; eauto.
      - exfalso. destruct HB as [HB|[HB _]]; exact (NB _ _ HB ltac:(discriminate)).
      - eapply H_gave_up; eauto.
      - exfalso. exact (NB _ _ HB ltac:(discriminate)).
    Qed.
  End Run.

  (** ** Without append, and with memory and clone functions that return, panicking destructors do no harm:
      every operation has its effect, the maps stay in order, and no step is undefined *)
  Inductive runs_through : (nat -> list kv) -> list (op K V Q) -> list (outcome reserve_error (obs K V) * list kv * hregs * heap) -> Prop :=
  | T_end S : runs_through S [] []
  | T_step S c l o log s hp S' rest :
      spec cmp qcmp borrow eqb pcmp (fun _ => False) (cloned kclone vclone) (fun _ => False) c S o S' ->
      log = (match o with Ret _ => dropped cmp c S | _ => [] end) -> leaky_memory cmp s hp S' ->
      match o with
      | Ret _ => True
      | Panic => match c with Index _ _ | RangeOver _ _ _ _ | RangeMut _ _ _ _ _ => True | _ => False end
      | _ => False
      end -> runs_through S' l rest -> runs_through S (c :: l) ((o, log, s, hp) :: rest)
  | T_panic S c l log x kept s hp S' rest :
      (exists a, spec cmp qcmp borrow eqb pcmp (fun _ => False) (cloned kclone vclone) (fun _ => False) c S (Ret a) S') ->
      dropped cmp c S = log ++ x :: kept -> panics x -> leaky_memory cmp s hp S' ->
      runs_through S' l rest -> runs_through S (c :: l) ((Panic, log ++ [x], s, hp) :: rest)
  | T_abort S c l log s hp : blasts log 2 -> runs_through S (c :: l) [(Abort, log, s, hp)].

  Lemma memory_leaky s hp (S : nat -> list kv) : memory cmp s hp S -> leaky_memory cmp s hp S.
  Proof.
    intros (nodes & H1 & H2 & H3). exists nodes, []. split; [exact H1|]. split; [exact H2|]. split; [constructor|]. split; [intros r l _ []|]. split; [intros l []|].
    intros l A B. right. exact (H3 l A B).
  Qed.
  Theorem C44_without_append : ord_laws cmp -> borrow_laws cmp qcmp borrow ->
    (forall k w k' w', kclone k w = (Ret k', w') -> cmp k k' = Eq) ->
    (forall hp w, hget hp (place hp w) = None) ->
    (forall internal w, fst (nalloc internal w) = None) ->
    (forall k w, is_ret (fst (kclone k w))) -> (forall v w, is_ret (fst (vclone v w))) ->
    forall ops w, Forall (@legal K V Q) ops -> (forall r t, ~ In (Append r t) ops) -> runs_through (nothing K V) ops (hdrun ops hstart [] w).
  Proof.
    intros L1 L2 L3 PF A1 A2 A3 ops w HL NA. pose proof (C44_history_partial L1 L2 L3 PF w HL) as HA. clear HL.
    destruct (spec_with_memory cmp qcmp borrow nalloc kclone vclone eqb pcmp A1 A2 A3) as [NM HX]. revert NA.
    induction HA as [b S|b S c l o log s hp S' rest HS El HM Na Nu HA IH|b S c l log x kept s hp S' rest Hr HS Hd Hp HM HA IH|b S c l o log s hp S' HS Ho|b S c l log s hp HB|b S c l o log s hp rest HG HT|b S r t l log s hp kept rest HB Pm HT]; intros NA.
    - constructor.
    - destruct (HX _ _ _ _ HS) as [X1 X2]. eapply T_step; [exact X1|exact El| |exact X2|apply IH; intros r t I; apply (NA r t); now right].
      destruct b; [exact HM|now apply memory_leaky].
    - destruct HS as (a & HS). destruct (HX _ _ _ _ HS) as [X1 X2]. eapply T_panic; [eauto|exact Hd|exact Hp|exact HM|apply IH; intros r t I; apply (NA r t); now right].
    - destruct (HX _ _ _ _ HS) as [X1 X2]. destruct Ho; subst o; contradiction.
    - apply T_abort. destruct HB as [HB|[_ HG]]; [exact HB|]. exfalso. destruct c; cbn [gave_up] in HG; try contradiction;
        [destruct HG as (e & HG & _); discriminate HG|destruct HG as (e & HG & _); discriminate HG|destruct HG as (_ & e & He); exact (NM _ He)|destruct HG as (_ & e & He); exact (NM _ He)|destruct HG as (e & HG & _); discriminate HG].
    - exfalso. destruct c; cbn [gave_up] in HG; try contradiction;
        [destruct HG as (e & _ & He & _)|destruct HG as (e & _ & He & _)|destruct HG as (_ & e & He)|destruct HG as (_ & e & He)|destruct HG as (e & _ & He & _)];
        exact (NM _ He).
    - exfalso. apply (NA r t). now left.
  Qed.
End Drops.

(** ** A panicking destructor in append *)
(** [append] drops the entries of [self] that it replaces while the new tree is half built.  Destructors that
    panic when the world says so: the value [13] *)
Definition bomb (v : nat) (w : unit) : bool * unit := (negb (v =? 13), w).
Definition calm_ (k : nat) (w : unit) : bool * unit := (true, w).
Notation brun := (hdrun calm_ bomb grant (@place_reuse nat nat unit) Nat.compare Nat.compare (fun k => k) copy_ copy_
  (fun a b => (fst a =? fst b) && (snd a =? snd b)) (fun a b => Some (Nat.compare (snd a) (snd b)))).
Definition outs_ (l : list (outcome reserve_error (obs nat nat) * list (nat * nat) * hregs * heap nat nat)) := map (fun x => fst (fst (fst x))) l.
Definition logs_ (l : list (outcome reserve_error (obs nat nat) * list (nat * nat) * hregs * heap nat nat)) := map (fun x => snd (fst (fst x))) l.
(** twelve entries have been moved when the value 13 of key 12 is destroyed: removing the key above the
    empty last leaf is undefined *)
Definition bombed : list (op nat nat nat) :=
  map (fun k => Insert 0 k (k + 1)) (seq 0 16) ++ [Insert 1 12 100; Append 0 1; Len 0; Remove 0 11].
Theorem C44_append_panic_refuted : exists ops, Forall (@legal nat nat nat) ops /\ skipn 17 (outs_ (brun ops hstart [] tt)) = [Panic; Ret (ONat 12); UB].
Proof. exists bombed. split; [repeat constructor; discriminate|vm_compute; reflexivity]. Qed.

(** ** The hypotheses hold of these programs, and the cases arise *)
Example bombed_runs : runs_dropping Nat.compare Nat.compare (fun k => k) (fun a b => (fst a =? fst b) && (snd a =? snd b)) (fun a b => Some (Nat.compare (snd a) (snd b)))
  (no_memory grant) (cloned (W := unit) copy_ copy_) (clone_fails grant copy_ copy_) calm_ bomb false (nothing nat nat) bombed (brun bombed hstart [] tt).
Proof.
  apply C44_history_partial; [apply nat_laws|apply nat_borrow| |apply place_reuse_fresh|repeat constructor; discriminate].
  intros k w k' w' E. injection E as <- _. apply Nat.compare_refl.
Qed.

(** clearing, overwriting and iterating while the value 13 panics: the operation has its effect, the entries
    after the panic are not destroyed, and later steps are as if nothing had happened *)
Definition survives : list (op nat nat nat) :=
  map (fun k => Insert 0 k (k + 10)) (seq 0 7) ++
  [Insert 1 5 50; TryClone 0 1; Clear 0; Len 0; Insert 0 3 4; Get 0 3; Get 1 6;
   IntoIter_ 1 [Front; Front; Back]; Len 1; SplitOff 0 1 1; Len 1].
Theorem survives_legal : Forall (@legal nat nat nat) survives /\ forall r t, ~ In (Append r t) survives.
Proof.
  split; [repeat constructor; discriminate|]. intros r t I. unfold survives in I. apply in_app_or in I as [I|I].
  - apply in_map_iff in I as (k & E & _). discriminate E.
  - cbn [In] in I. repeat (destruct I as [I|I]; [discriminate I|]). exact I.
Qed.
Example survives_runs : @runs_through nat nat nat Nat.compare Nat.compare (fun k => k) unit copy_ copy_ (fun a b => (fst a =? fst b) && (snd a =? snd b)) (fun a b => Some (Nat.compare (snd a) (snd b)))
  calm_ bomb (nothing nat nat) survives (brun survives hstart [] tt).
Proof.
  apply C44_without_append; [apply nat_laws|apply nat_borrow| |apply place_reuse_fresh| | | |apply survives_legal|apply survives_legal].
  - intros k w k' w' E. injection E as <- _. apply Nat.compare_refl.
  - reflexivity.
  - intros k w. exact I.
  - intros k w. exact I.
Qed.
Example survives_seen : skipn 7 (outs_ (brun survives hstart [] tt)) =
    [Ret (OVal nat None); Ret OUnit; Panic; Ret (ONat 0); Ret (OVal nat None); Ret (OVal nat (Some 4)); Ret (OVal nat (Some 16)); Panic; Ret (ONat 0); Ret OUnit; Ret (ONat 1)] /\
  skipn 7 (logs_ (brun survives hstart [] tt)) =
    [[]; [(5, 50)]; [(0, 10); (1, 11); (2, 12); (3, 13)]; []; []; []; []; [(2, 12); (3, 13)]; []; []; []].
Proof. vm_compute. split; reflexivity. Qed.
(** destructors that do not panic *)
Example calm_quiet : (forall k w, fst (calm_ k w) = true) /\ runs_ok Nat.compare Nat.compare (fun k => k) (fun a b => (fst a =? fst b) && (snd a =? snd b)) (fun a b => Some (Nat.compare (snd a) (snd b)))
    (no_memory grant) (cloned (W := unit) copy_ copy_) (clone_fails grant copy_ copy_) (nothing nat nat) bombed
    (stripped (hdrun calm_ calm_ grant (@place_reuse nat nat unit) Nat.compare Nat.compare (fun k => k) copy_ copy_
       (fun a b => (fst a =? fst b) && (snd a =? snd b)) (fun a b => Some (Nat.compare (snd a) (snd b))) bombed hstart [] tt)).
Proof.
  split; [reflexivity|]. apply C44_quiet; [apply nat_laws|apply nat_borrow| |apply place_reuse_fresh|reflexivity|reflexivity|repeat constructor; discriminate].
  intros k w k' w' E. injection E as <- _. apply Nat.compare_refl.
Qed.
(** both destructors of one entry panic: the process aborts *)
Example two_bombs : map (fun x => fst (fst (fst x))) (hdrun bomb bomb grant (@place_reuse nat nat unit) Nat.compare Nat.compare (fun k => k) copy_ copy_
       (fun a b => (fst a =? fst b) && (snd a =? snd b)) (fun a b => Some (Nat.compare (snd a) (snd b))) [Insert 0 13 13; Clear 0] hstart [] tt) = [Ret (OVal nat None); Abort].
Proof. vm_compute. reflexivity. Qed.

Print Assumptions C44_history_partial.
Print Assumptions C44_quiet.
Print Assumptions C44_without_append.
Print Assumptions C44_append_panic_refuted.
