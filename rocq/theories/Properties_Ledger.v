(** * Properties_Ledger: C49

    Where every key and value of a program over maps ends up.  [LedgerModel]
    is the program of C20 with a record of the keys and values made by cloning,
    dropped and leaked; [LedgerSpec] says what it is to balance. *)
From Coq Require Import List Arith Lia Bool Sorted Permutation.
From Verif Require Import Base MapSpec IterSpec BTreeModel BTreeInv BTreeLemmas BTreeInsert BTreeSearch BTreeIterModel BTreeBulkModel BTreeClone BTreeSplit
  BTreeWrites BTreeCollect Properties_BTree Properties_BTree2 HistoryModel HistorySpec HistoryProofs Properties_History
  LedgerModel LedgerSpec LedgerProofs LedgerBooks LedgerSteps LedgerRun Examples.
Import ListNotations.
Set Implicit Arguments.

Section Ledger.
  Variables (K V Q : Type) (cmp : K -> K -> comparison) (qcmp : Q -> Q -> comparison) (borrow : K -> Q).
  Notation kv := (K * V)%type.
  Variables (W : Type) (nalloc : bool -> W -> option reserve_error * W).
  Variables (kclone : K -> W -> outcome reserve_error K * W) (vclone : V -> W -> outcome reserve_error V * W).
  Variables (eqb : kv -> kv -> bool) (pcmp : kv -> kv -> option comparison).
  Notation lrun := (lrun nalloc cmp kclone vclone qcmp borrow eqb pcmp).
  Notation start := (start K V).

  (** the record changes nothing: without it the run is that of C20 *)
  Theorem C49_same_run : forall ops s (w : W), map fst (lrun ops s w) = run nalloc cmp qcmp borrow kclone vclone eqb pcmp ops s w.
  Proof.
    induction ops as [|c l IH]; intros s w; cbn [LedgerModel.lrun run map]; auto. rewrite <- lstep_erase.
    destruct (lstep nalloc cmp kclone vclone qcmp borrow eqb pcmp c s w) as [[[o s'] t] w']. cbn [no_t map fst]. f_equal. destruct o; cbn [map]; auto.
  Qed.

  (** whatever the keys and values weigh, at every step what was there, came in
      or was cloned is still there, was handed out, dropped or leaked; and
      nothing leaks before an insertion is refused memory *)
  Theorem C49_books : ord_laws cmp -> borrow_laws cmp qcmp borrow ->
    (forall k w k' w', kclone k w = (Ret k', w') -> cmp k k' = Eq) ->
    forall (kw : K -> nat) (vw : V -> nat) N ops w, Forall (@legal K V Q) ops -> Forall (within N) ops ->
    kept kw vw (no_memory nalloc) N start ops (lrun ops start w).
  Proof. intros L1 L2 L3 kw vw N ops w H1 H2. eapply run_books; eauto. apply start_rep. Qed.

  (** a program whose variables go out of scope in the end, and that was not cut
      short: every key handed in or cloned was handed back or dropped, exactly once *)
  Theorem C49_keys : ord_laws cmp -> borrow_laws cmp qcmp borrow ->
    (forall k w k' w', kclone k w = (Ret k', w') -> cmp k k' = Eq) -> (forall a b : K, {a = b} + {a <> b}) ->
    forall N ops w, Forall (@legal K V Q) ops -> Forall (within N) ops ->
    let all := to_the_end N ops in let tr := lrun all start w in
    Forall (@undisturbed K V Q) (combine all tr) ->
    length tr = length all /\ Forall (fun r => no_leak (snd r)) tr /\
    Permutation (flat_map (fun c => fst (in_ c)) all ++ flat_map (fun r => k_made (snd r)) tr)
                (flat_map (fun p => fst (out (fst p) (fst (fst (snd p))))) (combine all tr) ++ flat_map (fun r => k_dropped (snd r)) tr).
  Proof.
    intros L1 L2 L3 dec N ops w H1 H2 all tr HU.
    pose proof (fun kw vw => @exactly_once K V Q W kw vw nalloc kclone vclone cmp qcmp borrow L1 L2 L3 eqb pcmp N ops w H1 H2 HU) as HX.
    destruct (HX (fun _ => 0) (fun _ => 0)) as (X1 & X2 & _). split; auto. split; auto.
    apply (Permutation_count_occ dec). intros k. destruct (HX (kind dec k) zero) as (_ & _ & X3). rewrite !count_occ_app, !count_flat.
    unfold sum_made, sum_dropped, sum_given in X3.
    rewrite (map_ext _ _ (fun c => taken_k (Q := Q) dec k c)), (map_ext _ _ (fun r => made_k (V := V) dec k (snd r))),
      (map_ext _ _ (fun r => dropped_k (V := V) dec k (snd r))), (map_ext _ _ (fun p => given_k (Q := Q) dec k (fst p) (fst (fst (snd p))))) in X3.
    exact X3.
  Qed.
  (** and every value *)
  Theorem C49_values : ord_laws cmp -> borrow_laws cmp qcmp borrow ->
    (forall k w k' w', kclone k w = (Ret k', w') -> cmp k k' = Eq) -> (forall a b : V, {a = b} + {a <> b}) ->
    forall N ops w, Forall (@legal K V Q) ops -> Forall (within N) ops ->
    let all := to_the_end N ops in let tr := lrun all start w in
    Forall (@undisturbed K V Q) (combine all tr) ->
    Permutation (flat_map (fun c => snd (in_ c)) all ++ flat_map (fun r => v_made (snd r)) tr)
                (flat_map (fun p => snd (out (fst p) (fst (fst (snd p))))) (combine all tr) ++ flat_map (fun r => v_dropped (snd r)) tr).
  Proof.
    intros L1 L2 L3 dec N ops w H1 H2 all tr HU.
    pose proof (fun kw vw => @exactly_once K V Q W kw vw nalloc kclone vclone cmp qcmp borrow L1 L2 L3 eqb pcmp N ops w H1 H2 HU) as HX.
    apply (Permutation_count_occ dec). intros v. destruct (HX zero (vind dec v)) as (_ & _ & X3). rewrite !count_occ_app, !count_flat.
    unfold sum_made, sum_dropped, sum_given in X3.
    rewrite (map_ext _ _ (fun c => taken_v (Q := Q) dec v c)), (map_ext _ _ (fun r => made_v (K := K) dec v (snd r))),
      (map_ext _ _ (fun r => dropped_v (K := K) dec v (snd r))), (map_ext _ _ (fun p => given_v (Q := Q) dec v (fst p) (fst (fst (snd p))))) in X3.
    exact X3.
  Qed.

  (** split_off loses nothing: granted, every entry is in one of the two maps and nothing is thrown away; refused, the map is
      as it was, and the nodes made for the new map hold no entry and are all given back *)
  Theorem C30_split_off_keeps : borrow_laws cmp qcmp borrow -> forall x (m : bmap K V) (w : W), valid cmp m ->
    let '(o, m', discarded, w') := split_off nalloc (fun k => qcmp x (borrow k)) m w in
    match o with
    | Ret m2 => discarded = [] /\ entries m = entries m' ++ entries m2 /\ drops_fully m' /\ drops_fully m2
    | Err _ => m' = m /\ Forall (fun d => exists nodes, drop_map d = Ret ([], nodes) /\ released d nodes) discarded
    | _ => False
    end.
  Proof.
    intros blaws x m w [Hm Hs]. pose proof (@split_off_ok K V W nalloc _ m w Hm (cutq_sorted x blaws Hs)) as H.
    pose proof (@split_off_discards K V W nalloc (fun k => qcmp x (borrow k)) m w) as HE.
    destruct (split_off nalloc _ m w) as [[[o m'] ds] w']. destruct H as [HD H]. destruct o as [m2|e| | |]; try contradiction.
    - destruct H as (-> & S1 & S2 & E & _). split; [reflexivity|]. split; [exact E|]. split; apply C30_drop; [destruct S1 as (B & Sh & L)|destruct S2 as (B & Sh & L)]; (split; [exact (kids_shape _ _ _ (proj2 B))|split; [exact L|exact Sh]]).
    - destruct H as (-> & _). split; [reflexivity|]. apply Forall_forall. intros d Hd.
      destruct (C30_drop (proj1 (Forall_forall _ _) HD d Hd)) as (nodes & E & R). rewrite (proj1 (Forall_forall _ _) HE d Hd) in E. eauto.
  Qed.
End Ledger.

(** both cases: 200 entries divided at 70, and the same with memory for two of the three nodes (split_off_keeps_valid: the hypotheses) *)
Example split_off_keeps_granted : match split_off grant (fun k => Nat.compare 70 k) bigmap tt with
  | (Ret m2, m', discarded, _) => (map fst (entries m'), map fst (entries m2), discarded) = (seq 0 70, seq 70 130, [])
  | _ => False end.
Proof. vm_compute. reflexivity. Qed.
Example split_off_keeps_refused : match split_off budget (fun k => Nat.compare 70 k) bigmap 2 with
  | (Err e, m', [d], _) => (m', map (fun d => drop_map d) [d]) = (bigmap, [Ret ([], [[]; [0]])])
  | _ => False end.
Proof. vm_compute. reflexivity. Qed.
Example split_off_keeps_valid : valid Nat.compare bigmap /\ borrow_laws Nat.compare Nat.compare (fun k : nat => k).
Proof. split; [apply nmap_valid|exact nat_borrow]. Qed.

(** a refused insertion does leak: twelve insertions, and no memory for the new root *)
Definition leaky_program : list (op nat nat nat) := map (fun k => Insert 0 k (100 + k)) (seq 0 12).
Definition leaky_run := lrun budget Nat.compare copy_ copy_ Nat.compare (fun k : nat => k) (fun x y : nat * nat => true) (fun _ _ => None) leaky_program (start nat nat) 2.
Theorem C49_refused_insertion_leaks : exists t n, last (map (fun r => (fst (fst r), snd r)) leaky_run) (UB, []) = (Err AllocError, t) /\
  In (Leak n) t /\ contents n = map (fun k => (k, 100 + k)) (seq 7 5).
Proof. eexists _, _. split; [vm_compute; reflexivity|]. split; [right; right; left; reflexivity|]. reflexivity. Qed.

(** ** A concrete program: the one of C20 *)
Notation nlrun := (@lrun nat nat unit grant Nat.compare copy_ copy_ nat Nat.compare (fun k => k)
  (fun x y : nat * nat => (fst x =? fst y) && (snd x =? snd y)) (fun x y => Some (Nat.compare (fst x) (fst y)))).
Example demo_within : Forall (within 3) demo.
Proof. repeat constructor; cbn; lia. Qed.
Definition calm (r : op nat nat nat * outcome reserve_error (obs nat nat)) : bool :=
  match snd r with
  | Abort | UB => false
  | Err _ => match fst r with Insert _ _ _ | Replace _ _ _ | EntryOr _ _ _ _ => false | _ => true end
  | Panic => match fst r with Extend _ _ | Append _ _ => false | _ => true end
  | _ => true
  end.
Lemma calm_undisturbed r : calm (fst r, fst (fst (snd r))) = true -> undisturbed r.
Proof.
  destruct r as [c [[o s] t]]. cbn [fst snd]. unfold calm. cbn [fst snd]. intros H. unfold undisturbed.
  split; [destruct o; congruence|]. split; [destruct o; congruence|]. destruct c, o; auto; congruence.
Qed.
Lemma calm_run (ops : list (op nat nat nat)) (tr : list (outcome reserve_error (obs nat nat) * regs nat nat * list (fate nat nat))) :
  forallb calm (combine ops (map (fun r => fst (fst r)) tr)) = true -> Forall (@undisturbed nat nat nat) (combine ops tr).
Proof.
  revert ops. induction tr as [|r tr IH]; intros [|c ops] H; cbn [combine map] in *; try constructor.
  - cbn [forallb] in H. apply andb_true_iff in H. apply calm_undisturbed. apply H.
  - cbn [forallb] in H. apply andb_true_iff in H. now apply IH.
Qed.
Example demo_calm : Forall (@undisturbed nat nat nat) (combine (to_the_end 3 demo) (nlrun (to_the_end 3 demo) (start nat nat) tt)).
Proof. apply calm_run. vm_compute. reflexivity. Qed.
Example demo_keys : Permutation
  (flat_map (fun c => fst (in_ c)) (to_the_end 3 demo) ++ flat_map (fun r => k_made (snd r)) (nlrun (to_the_end 3 demo) (start nat nat) tt))
  (flat_map (fun p => fst (out (fst p) (fst (fst (snd p))))) (combine (to_the_end 3 demo) (nlrun (to_the_end 3 demo) (start nat nat) tt)) ++
   flat_map (fun r => k_dropped (snd r)) (nlrun (to_the_end 3 demo) (start nat nat) tt)).
Proof.
  refine (proj2 (proj2 (C49_keys _ _ _ _ _ nat_laws nat_borrow _ Nat.eq_dec tt demo_legal demo_within demo_calm))).
  intros k w k' w' E. injection E. intros. subst. apply Nat.compare_refl.
Qed.
(** 33 keys were handed in and 30 cloned; 3 of them were handed back (one by
    remove_entry, two by the iterator) and 60 dropped *)
Example demo_counts : (length (flat_map (fun r => k_made (snd r)) (nlrun (to_the_end 3 demo) (start nat nat) tt)),
                       length (flat_map (fun r => k_dropped (snd r)) (nlrun (to_the_end 3 demo) (start nat nat) tt))) = (30, 60).
Proof. vm_compute. reflexivity. Qed.

Print Assumptions C30_split_off_keeps.
Print Assumptions C49_same_run.
Print Assumptions C49_books.
Print Assumptions C49_keys.
Print Assumptions C49_values.
Print Assumptions C49_refused_insertion_leaks.
