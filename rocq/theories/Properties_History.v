(** * Properties_History: C20, C21

    A program ([HistoryModel]) is any list of operations on any number of maps,
    starting with empty ones.  [HistorySpec.spec] says, about plain sorted
    lists only, what each operation may return and leave behind;
    [HistorySpec.agrees] that a whole run does so. *)
From Coq Require Import List Arith Lia Bool Sorted Permutation.
From Verif Require Import Base MapSpec IterSpec BTreeModel BTreeInv BTreeLemmas BTreeInsert BTreeIterModel BTreeBulkModel BTreeClone BTreeSplit
  BTreeWrites BTreeCollect BTreeSetModel Properties_BTree Properties_BTree2 HistoryModel HistorySpec HistoryProofs Examples.
Import ListNotations.
Set Implicit Arguments.

(** every node of a well-formed tree *)
Lemma node_at_kids K V (P : nat -> Prop) : forall p h (n e : node K V), kids P h n -> node_at n p = Some e ->
  length p <= h /\ kids P (h - length p) e /\ (p <> [] -> P (nlen e)).
Proof.
  induction p as [|j p IH]; intros h n e Hk E; cbn [node_at] in E.
  - inversion E; subst. cbn [length]. rewrite Nat.sub_0_r. split; [lia|]. split; [auto|congruence].
  - destruct (nth_error (edges n) j) as [c|] eqn:Ec; [|discriminate]. destruct h as [|h].
    { cbn [kids] in Hk. rewrite Hk in Ec. destruct j; discriminate. }
    rewrite kids_S in Hk. destruct Hk as [_ HF]. rewrite Forall_forall in HF. apply nth_error_In in Ec. destruct (HF _ Ec) as [H1 H2].
    destruct (IH h c e H2 E) as (H3 & H4 & H5). cbn [length]. split; [lia|]. split; [exact H4|]. intros _.
    destruct p as [|j' p]; [cbn [node_at] in E; inversion E; now subst|]. apply H5. discriminate.
Qed.
Lemma valid_well_built K V cmp (m : bmap K V) : valid cmp m -> well_built cmp m (entries m).
Proof.
  intros [(((Hr1 & Hr2) & Hk) & Hs & Hl) Hsort]. split; [|split; [|split; [reflexivity|split; [exact Hsort|exact Hl]]]].
  - intros p n E. destruct (@node_at_kids K V fair _ _ _ _ Hk E) as (H1 & H2 & H3). split; [exact H1|]. split; [|split; [|split]].
    + destruct p; [cbn in E; inversion E; subst; exact Hr1|]. destruct H3 as [_ H3]; [discriminate|exact H3].
    + intros Hp. apply H3 in Hp. destruct Hp as [Hp _]. exact Hp.
    + intros Ep. rewrite Ep, Nat.sub_diag in H2. exact H2.
    + intros Hp. destruct (bheight m - length p) as [|h] eqn:Eh; [lia|]. rewrite kids_S in H2. rewrite (proj1 H2). lia.
  - intros H. apply Hr2. lia.
Qed.

Section History.
  Variables (K V Q : Type) (cmp : K -> K -> comparison) (qcmp : Q -> Q -> comparison) (borrow : K -> Q).
  Notation kv := (K * V)%type.
  Variables (W : Type) (nalloc : bool -> W -> option reserve_error * W).
  Variables (kclone : K -> W -> outcome reserve_error K * W) (vclone : V -> W -> outcome reserve_error V * W).
  Variables (eqb : kv -> kv -> bool) (pcmp : kv -> kv -> option comparison).
  Notation run := (run nalloc cmp qcmp borrow kclone vclone eqb pcmp).
  Notation agrees := (agrees cmp qcmp borrow eqb pcmp (no_memory nalloc) (cloned kclone vclone) (clone_fails nalloc kclone vclone)).

  Definition start : regs K V := fun _ => new.
  Definition nothing : nat -> list kv := fun _ => [].
  Lemma start_rep : rep cmp start nothing.
  Proof. intros r. split; [split; [apply new_sound|constructor]|reflexivity]. Qed.

  (** ** C20: every history agrees with sorted lists (up to a refused insertion of a
      new key into a map of 11 or more entries, or an append or extend that
      panicked for lack of memory) *)
  Theorem C20_history : ord_laws cmp -> borrow_laws cmp qcmp borrow ->
    (forall k w k' w', kclone k w = (Ret k', w') -> cmp k k' = Eq) ->
    forall ops w, Forall (@legal K V Q) ops -> agrees (fun _ _ => True) nothing ops (run ops start w).
  Proof. intros L1 L2 L3 ops w HL. eapply run_agrees; eauto. apply start_rep. Qed.

  (** ** C21: and after every step every map is well built and holds the list *)
  Theorem C21_history : ord_laws cmp -> borrow_laws cmp qcmp borrow ->
    (forall k w k' w', kclone k w = (Ret k', w') -> cmp k k' = Eq) ->
    forall ops w, Forall (@legal K V Q) ops -> agrees (fun s S => forall r, well_built cmp (s r) (S r)) nothing ops (run ops start w).
  Proof.
    intros L1 L2 L3 ops w HL. eapply run_agrees; eauto; [|apply start_rep].
    intros s S H r. destruct (H r) as [Hv <-]. now apply valid_well_built.
  Qed.

  (** with memory and with clone functions that return, a program runs to its
      end, every outcome is as specified, and nothing but looking up an absent key
      by [[]] and bad range bounds panics *)
  Inductive agrees_ : (nat -> list kv) -> list (op K V Q) -> list (outcome reserve_error (obs K V) * regs K V) -> Prop :=
  | B_end S : agrees_ S [] []
  | B_step S c l o s S' rest :
      spec cmp qcmp borrow eqb pcmp (fun _ => False) (cloned kclone vclone) (fun _ => False) c S o S' ->
      (forall r, well_built cmp (s r) (S' r)) ->
      match o with
      | Ret _ => True
      | Panic => match c with Index _ _ | RangeOver _ _ _ _ | RangeMut _ _ _ _ _ => True | _ => False end
      | _ => False
      end -> agrees_ S' l rest -> agrees_ S (c :: l) ((o, s) :: rest).

  (** without refusals and failing clones, there is less that may happen *)
  Lemma spec_with_memory :
    (forall internal w, fst (nalloc internal w) = None) ->
    (forall k w, is_ret (fst (kclone k w))) -> (forall v w, is_ret (fst (vclone v w))) ->
    (forall e, ~ no_memory nalloc e) /\
    forall c S o S', spec cmp qcmp borrow eqb pcmp (no_memory nalloc) (cloned kclone vclone) (clone_fails nalloc kclone vclone) c S o S' ->
      spec cmp qcmp borrow eqb pcmp (fun _ => False) (cloned kclone vclone) (fun _ => False) c S o S' /\
      match o with
      | Ret _ => True
      | Panic => match c with Index _ _ | RangeOver _ _ _ _ | RangeMut _ _ _ _ _ => True | _ => False end
      | _ => False
      end.
  Proof.
    intros A1 A2 A3.
    assert (NM : forall e, ~ no_memory nalloc e) by (intros e (i & w0 & w' & E); specialize (A1 i w0); rewrite E in A1; discriminate).
    assert (NC : forall u, clone_fails nalloc kclone vclone u -> u = Ret tt).
    { intros u [(e & _ & He)|[(k & w0 & E)|(v & w0 & E)]]; [destruct (NM _ He)| |].
      - specialize (A2 k w0). destruct (fst (kclone k w0)); cbn in *; try contradiction; auto.
      - specialize (A3 v w0). destruct (fst (vclone v w0)); cbn in *; try contradiction; auto. }
    split; [exact NM|].
    intros c S o S' HS. destruct c; cbn [spec] in *; try (destruct HS as [-> HS]; split; [split; auto|exact I]).
    - destruct HS as [[-> HS]|(e & _ & He & _)]; [auto|destruct (NM _ He)].
    - destruct HS as [[-> HS]|(e & _ & He & _)]; [auto|destruct (NM _ He)].
    - destruct HS as [-> HS]. split; [split; auto|]. destruct (s_get _ _); exact I.
    - destruct HS as [[-> HS]|(e & _ & He & _)]; [auto|destruct (NM _ He)].
    - destruct HS as [[-> HS]|(u & Hu & -> & Hn & _)]; [auto|]. apply NC in Hu. subst u. now destruct (Hn OUnit).
    - destruct HS as [[-> HS]|(u & Hu & -> & Hn & _)]; [auto|]. apply NC in Hu. subst u. now destruct (Hn OUnit).
    - destruct (dq_run calls (S r)) as [x y]. destruct HS as [-> HS]. auto.
    - destruct HS as [(Hb & -> & HS)|(Hb & -> & HS)]; split; auto.
    - destruct HS as [(Hb & -> & HS)|(Hb & -> & HS)]; split; auto.
    - destruct (dq_run calls (S r)) as [x y]. destruct HS as [-> HS]. auto.
    - destruct (s_get _ _); [destruct HS as [-> HS]; auto|]. destruct HS as [[-> HS]|(e & _ & He & _)]; [auto|destruct (NM _ He)].
    - destruct HS as [[-> HS]|(e & _ & He & _)]; [auto|destruct (NM _ He)].
    - destruct HS as (b & -> & HS). split; [exists b; auto|exact I].
  Qed.

  Theorem C20_with_memory : ord_laws cmp -> borrow_laws cmp qcmp borrow ->
    (forall k w k' w', kclone k w = (Ret k', w') -> cmp k k' = Eq) ->
    (forall internal w, fst (nalloc internal w) = None) ->
    (forall k w, is_ret (fst (kclone k w))) -> (forall v w, is_ret (fst (vclone v w))) ->
    forall ops w, Forall (@legal K V Q) ops -> agrees_ nothing ops (run ops start w).
  Proof.
    intros L1 L2 L3 A1 A2 A3 ops w HL. pose proof (C21_history L1 L2 L3 w HL) as HA. clear HL.
    destruct (spec_with_memory A1 A2 A3) as [NM HX].
    induction HA as [S|S c l o s S' rest HS HP Ha Hu HA IH|S c l o s S' HS Hd|S c l o s rest HG].
    - constructor.
    - destruct (HX _ _ _ _ HS) as [H1 H2]. eapply B_step; eauto.
    - destruct (HX _ _ _ _ HS) as [H1 H2]. destruct Hd; subst o; contradiction.
    - exfalso. destruct c; cbn [gave_up] in HG; try contradiction;
        [destruct HG as (e & _ & He & _)|destruct HG as (e & _ & He & _)|destruct HG as (_ & e & He)|destruct HG as (_ & e & He)|destruct HG as (e & _ & He & _)];
        exact (NM _ He).
  Qed.
End History.

(** the documented lower bound of a node (MIN_LEN = 5, node.rs 38) does not hold:
    splitting a full leaf leaves 6 and 4 entries, so a node of 4 entries is
    reached by twelve insertions *)
Definition twelve : list (op nat nat nat) := map (fun k => Insert 0 k k) (seq 1 11) ++ [Insert 0 0 0].
Notation nrun := (run grant Nat.compare Nat.compare (fun k => k) copy_ copy_ (fun x y : nat * nat => (fst x =? fst y) && (snd x =? snd y))
  (fun x y => Some (Nat.compare (fst x) (fst y)))).
Theorem C21_min_len_refuted : exists ops, Forall (@legal nat nat nat) ops /\
  exists o s, last (nrun ops (start nat nat) tt) (UB, start nat nat) = (o, s) /\ is_ret o /\
  exists n, node_at (bnode (s 0)) [1] = Some n /\ nlen n < MIN_LEN.
Proof.
  exists twelve. split; [repeat constructor|]. unfold twelve. eexists _, _. split; [vm_compute; reflexivity|]. split; [exact I|].
  eexists. split; [vm_compute; reflexivity|]. vm_compute. lia.
Qed.

(** ** A concrete program meeting the hypotheses *)
Definition demo : list (op nat nat nat) :=
  map (fun k => Insert 0 ((k * 7) mod 30) k) (seq 0 30) ++
  [ SplitOff 0 12 1; Len 0; Len 1; Insert 1 5 100; Append 0 1; Get 0 5; TryClone 0 2; EntryOr 2 5 S 9; EntryRemove 2 11;
    RangeMut 2 (Included 4) (Excluded 8) [Front; Back; Front] [(0, S); (2, fun _ => 0)]; Iterate 2 [Back; Front; Front];
    Equal 0 2; Compare 0 2; IntoIter_ 2 [Front; Back]; Index 2 3; RangeOver 0 (Excluded 3) (Excluded 3) [] ].
Example demo_legal : Forall (@legal nat nat nat) demo.
Proof. repeat constructor; cbn; lia. Qed.
Example demo_result : map fst (skipn 30 (nrun demo (start nat nat) tt)) =
  [ Ret OUnit; Ret (ONat 12); Ret (ONat 18); Ret (OVal nat None); Ret OUnit; Ret (OVal nat (Some 100)); Ret OUnit;
    Ret (OVal nat (Some 101)); Ret (OEntry (Some (11, 23)));
    Ret (OItems [Some (4, 22); Some (7, 1); Some (5, 101)]); Ret (OSized [Some (29, 17); Some (0, 0); Some (1, 13)] 26);
    Ret (OBool false); Ret (OCmp (Some Lt));
    Ret (ODropped [Some (0, 0); Some (29, 17)]
      (map (fun k => (k, if k =? 4 then 23 else if k =? 5 then 0 else (k * 13) mod 30)) (seq 1 10 ++ seq 12 17)));
    Panic; Panic ].
Proof. vm_compute. reflexivity. Qed.
Example demo_agrees : agrees_ Nat.compare Nat.compare (fun k => k) (@copy_ unit) (@copy_ unit)
  (fun x y : nat * nat => (fst x =? fst y) && (snd x =? snd y)) (fun x y => Some (Nat.compare (fst x) (fst y)))
  (nothing nat nat) demo (nrun demo (start nat nat) tt).
Proof.
  apply C20_with_memory; auto using nat_laws, nat_borrow, demo_legal; try (intros; exact I).
  intros k w k' w' E. injection E. intros. subst. apply Nat.compare_refl.
Qed.
(** with a budget of nodes the history stops being specified at the refused insertion *)
Example demo_refused : map fst (run budget Nat.compare Nat.compare (fun k => k) copy_ copy_ (fun x y : nat * nat => true) (fun _ _ => None)
  (Insert 1 3 3 :: map (fun k => Insert 0 k k) (seq 0 12)) (start nat nat) 2) =
  Ret (OVal nat None) :: repeat (Ret (OVal nat None)) 11 ++ [Err AllocError].
Proof. vm_compute. reflexivity. Qed.

Print Assumptions C20_history.
Print Assumptions C20_with_memory.
Print Assumptions C21_history.
Print Assumptions C21_min_len_refuted.
