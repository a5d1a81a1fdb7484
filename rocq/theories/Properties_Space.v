(** * Properties_Space: C48, memory requests and space of BTreeMaps

    [SpaceSpec.blocks m] is the number of nodes the map [m] holds in memory.  The
    requests that an operation makes to the allocator are counted by any function
    [asked] of the world that every request raises by one ([counts]), and that
    nothing else the operation calls changes. *)
From Coq Require Import List Arith Lia Bool.
From Verif Require Import Base MapSpec IterSpec BTreeModel BTreeInv BTreeLemmas SpecFacts BTreeInsert BTreeOps BTreeIterModel BTreeBulkModel BTreeClone BTreeSplit
  BTreeWrites BTreeCost BTreeCollect SpaceSpec BTreeSpace HistoryModel HistorySpec HistoryProofs Properties_History Examples.
Import ListNotations.
Set Implicit Arguments.

Section Spec.
  Variables (K V : Type) (cmp : K -> K -> comparison).
  Notation kv := (K * V)%type.
  Notation bmap := (bmap K V).
  (** the height of a map is at most the logarithm of its length to base 5 *)
  Definition logarithmic (m : bmap) (h : nat) : Prop := h = 0 \/ 2 * 5 ^ h <= len m + 1.
  Lemma sound_log (m : bmap) : sound m -> logarithmic m (bheight m).
  Proof. intros (Hb & _ & Hl). unfold logarithmic, len. rewrite Hl. now apply height_bound. Qed.
  Lemma sound_shared (m : bmap) : sound m -> bshared m = true -> bheight m = 0 /\ bnode m = @empty_leaf K V.
  Proof. intros (_ & Hs & _) E. destruct (Hs E) as [H1 H2]. auto. Qed.

  (** ** Space: on average the nodes of a map hold at least four entries each, but for one node *)
  Theorem C48_space : forall m : bmap, valid cmp m -> 4 * blocks m <= len m + 4.
  Proof. intros m [Hm _]. unfold len. destruct Hm as (Hb & Hs & Hl). rewrite Hl. now apply sound_space. Qed.

  (** a removal never needs more space *)
  Theorem C48_remove : forall (q : K -> comparison) (m : bmap), match remove_entry q m with (Ret _, m') => blocks m' <= blocks m | _ => True end.
  Proof. exact (@remove_entry_blocks K V). Qed.

  Section Alloc.
    Variables (W : Type) (nalloc : bool -> W -> option reserve_error * W) (asked : W -> nat).
    Hypothesis counts : forall b w, asked (snd (nalloc b w)) = S (asked w).
    Hypothesis laws : ord_laws cmp.

    (** ** try_insert: a key that is present needs no memory, so that its value can
        be replaced when there is none; another needs at most two blocks more than
        the height, and every block asked for is in the map afterwards *)
    Theorem C48_insert : forall (k : K) (v : V) (m : bmap) w, valid cmp m ->
      let '(r, m', w') := try_insert nalloc cmp k v m w in
      match s_get (cmp k) (entries m) with
      | Some _ => w' = w /\ is_ret r /\ blocks m' = blocks m
      | None => asked w <= asked w' <= asked w + bheight m + 2 /\ logarithmic m (bheight m) /\
                (is_ret r -> asked w' = asked w + (blocks m' - blocks m) /\ blocks m <= blocks m')
      end.
    Proof.
      intros k v m w [Hm Hs]. pose proof (@try_insert_ok K V W nalloc cmp laws k v m w Hm Hs) as H1.
      pose proof (@try_insert_asked K V W nalloc asked counts cmp k v m w (sound_shared Hm)) as H2. pose proof (sound_log Hm) as H3.
      destruct (try_insert nalloc cmp k v m w) as [[r m'] w']. destruct H2 as [H2 H4].
      destruct r as [old|e| | |]; try contradiction.
      - destruct H1 as (-> & _ & _ & Hw). destruct (s_get (cmp k) (entries m)) as [x|]; cbn [option_map] in *.
        + split; [apply Hw; discriminate|]. split; [exact I|]. apply H4.
        + split; auto. split; auto. intros _. lia.
      - destruct H1 as (_ & -> & _). split; auto. split; auto. intros [].
    Qed.

    (** ** Many insertions: every block that they ask for is there afterwards; a map
        of n entries built by any insertions took at most n/4 + 1 requests *)
    Theorem C48_extend : forall (l : list kv) (m : bmap) w, valid cmp m ->
      let '(r, m', w') := extend nalloc cmp l m w in
      is_ret r -> asked w' + blocks m = asked w + blocks m' /\ 4 * blocks m' <= len m' + 4.
    Proof.
      induction l as [|x l IH]; intros m w Hv; cbn [extend].
      - intros _. split; [lia|]. now apply C48_space.
      - pose proof (@try_insert_ok K V W nalloc cmp laws (fst x) (snd x) m w (proj1 Hv) (proj2 Hv)) as H1.
        pose proof (@C48_insert (fst x) (snd x) m w Hv) as H2. destruct (try_insert nalloc cmp (fst x) (snd x) m w) as [[r m1] w1].
        destruct r as [old|e| | |]; try (intros []; fail). destruct H1 as (_ & Hm1 & E1 & _).
        assert (Hv1 : valid cmp m1) by (split; auto; rewrite E1; apply s_insert_sorted; auto; apply Hv).
        specialize (IH m1 w1 Hv1). destruct (extend nalloc cmp l m1 w1) as [[o2 m2] w2]. intros Hr. destruct (IH Hr) as [I1 I2]. split; auto.
        destruct (s_get (cmp (fst x)) (entries m)); [destruct H2 as (-> & _ & E2); lia|]. destruct H2 as (_ & _ & H2). destruct (H2 I). lia.
    Qed.
    Corollary C48_from_iter : forall (l : list kv) w,
      let '(r, m', w') := from_iter nalloc cmp l w in
      is_ret r -> asked w' = asked w + blocks m' /\ 4 * blocks m' <= len m' + 4.
    Proof.
      intros l w. unfold from_iter. pose proof (@C48_extend l new w (new_valid V cmp)) as H. destruct (extend nalloc cmp l new w) as [[r m'] w'].
      intros Hr. destruct (H Hr) as [H1 H2]. split; auto. change (blocks new) with 0 in H1. lia.
    Qed.

    (** ** split_off: one request for each level of the tree; what the two maps
        hold afterwards is at most what there was and what was asked for *)
    Theorem C48_split_off : forall (q : K -> comparison) (m : bmap) w, valid cmp m ->
      let '(r, m', _, w') := split_off nalloc q m w in
      asked w <= asked w' <= asked w + bheight m + 1 /\ logarithmic m (bheight m) /\
      match r with Ret m2 => blocks m' + blocks m2 <= blocks m + (asked w' - asked w) | _ => True end.
    Proof.
      intros q m w [Hm _]. pose proof (@split_off_asked K V W nalloc asked counts q m w) as H. pose proof (sound_log Hm) as HL.
      destruct (bshared m) eqn:Es.
      - assert (E : is_empty m = true).
        { destruct Hm as (_ & Hs & Hl). destruct (Hs Es) as [Hn _]. unfold is_empty, len. rewrite Hl. unfold entries. rewrite Hn. reflexivity. }
        revert H. unfold split_off. rewrite E. intros [H _]. split; auto. split; auto. change (blocks new) with 0. lia.
      - destruct (split_off nalloc q m w) as [[[r m'] ds] w']. destruct H as [H1 H2]. split; auto. split; auto.
        destruct r; auto. destruct H2 as [H2|H2]; [lia|discriminate].
    Qed.

    (** ** append: nothing is asked for when one of the maps is empty; otherwise a
        new tree is built, and every block asked for is in it *)
    Theorem C48_append : forall (m o : bmap) w,
      let '(r, m', o', _, w') := append nalloc cmp m o w in
      match r with
      | Ret _ => if (len m =? 0) || (len o =? 0) then w' = w /\ blocks m' + blocks o' = blocks m + blocks o
                 else asked w' = asked w + blocks m' /\ blocks o' = 0
      | _ => True
      end.
    Proof.
      intros m o w. pose proof (@append_asked K V W nalloc asked counts cmp m o w) as H. destruct (append nalloc cmp m o w) as [[[[r m'] o'] mi] w'].
      destruct r; auto. destruct H as [[H1 H2]|(H1 & H2 & H3 & H4)].
      - replace ((len m =? 0) || (len o =? 0)) with true; auto. destruct H1 as [-> | ->]; [reflexivity|now rewrite orb_true_r].
      - replace ((len m =? 0) || (len o =? 0)) with false; [split; auto; lia|]. symmetry. apply orb_false_iff. split; apply Nat.eqb_neq; lia.
    Qed.

    (** ** try_clone: as many requests as the source has blocks, and as many blocks in the clone *)
    Section Clone.
      Variables (kclone : K -> W -> outcome reserve_error K * W) (vclone : V -> W -> outcome reserve_error V * W).
      Hypothesis kquiet : forall k w, asked (snd (kclone k w)) = asked w.
      Hypothesis vquiet : forall v w, asked (snd (vclone v w)) = asked w.
      Theorem C48_clone : forall (m : bmap) w, valid cmp m ->
        let '(r, _, w') := try_clone nalloc kclone vclone m w in
        match r with
        | Ret m' => asked w' = asked w + blocks m' /\ blocks m' = if len m =? 0 then 0 else blocks m
        | _ => True
        end.
      Proof.
        intros m w [Hm _]. pose proof (@try_clone_asked K V W nalloc asked counts kclone vclone kquiet vquiet m w Hm) as H.
        destruct (try_clone nalloc kclone vclone m w) as [[r ds] w'] eqn:E. destruct r as [m'| | | |]; auto. destruct H as [H1 H2]. split; [lia|].
        unfold try_clone in E. destruct (len m =? 0) eqn:E0; [inversion E; subst; reflexivity|]. apply Nat.eqb_neq in E0. apply H2. lia.
      Qed.
    End Clone.
  End Alloc.
End Spec.

Section Programs.
  Variables (K V Q : Type).
  Variables (W : Type) (nalloc : bool -> W -> option reserve_error * W).
  Variables (cmp : K -> K -> comparison) (qcmp : Q -> Q -> comparison) (borrow : K -> Q).
  Variables (kclone : K -> W -> outcome reserve_error K * W) (vclone : V -> W -> outcome reserve_error V * W).
  Variables (eqb : K * V -> K * V -> bool) (pcmp : K * V -> K * V -> option comparison).
  Notation step := (@HistoryModel.step K V Q W nalloc cmp qcmp borrow kclone vclone eqb pcmp).
  Notation run := (@HistoryModel.run K V Q W nalloc cmp qcmp borrow kclone vclone eqb pcmp).
  Notation agrees := (@HistorySpec.agrees K V Q cmp qcmp borrow eqb pcmp (no_memory nalloc) (cloned kclone vclone) (clone_fails nalloc kclone vclone)).

  (** in every program, at every moment, every map takes space in proportion to its length *)
  Theorem C48_history : ord_laws cmp -> borrow_laws cmp qcmp borrow ->
    (forall k w k' w', kclone k w = (Ret k', w') -> cmp k k' = Eq) ->
    forall ops w, Forall (@legal K V Q) ops -> agrees (fun s S => forall r, 4 * blocks (s r) <= length (S r) + 4) (@nothing K V) ops (run ops (@start K V) w).
  Proof.
    intros L1 L2 L3 ops w HL. eapply run_agrees; eauto; [|apply start_rep].
    intros s S H r. destruct (H r) as [Hv <-]. destruct Hv as [Hm _]. now apply sound_space.
  Qed.

  (** the operations that may ask for memory *)
  Definition may_ask (c : op K V Q) : bool :=
    match c with
    | Insert _ _ _ | Replace _ _ _ | EntryOr _ _ _ _ | EntryRemove _ _ | Append _ _ | SplitOff _ _ _ | TryClone _ _ | Clone _ _ | Extend _ _ => true
    | _ => false
    end.
  Theorem C48_only_these_ask : forall c s w, may_ask c = false -> snd (step c s w) = w.
  Proof.
    intros c s w H. destruct c; try discriminate; cbn [HistoryModel.step]; try reflexivity;
      repeat match goal with |- context [match ?x with _ => _ end] => destruct x end; try reflexivity.
  Qed.
End Programs.

(** ** A concrete case: an allocator that counts *)
Definition counting (internal : bool) (w : nat) : option reserve_error * nat := (None, S w).
Example space_demo :
  (forall b w, snd (counting b w) = S w) /\
  blocks bigmap = 30 /\ len bigmap = 200 /\
  (let '(r, m, w) := from_iter counting Nat.compare (map (fun k => (k, k)) scattered) 0 in (is_ret r, blocks m, w)) = (True, 30, 30) /\
  (let '(r, m, w) := try_insert counting Nat.compare 5 0 bigmap 0 in (is_ret r, blocks m, w)) = (True, 30, 0) /\
  (let '(r, m, _, w) := split_off counting (Nat.compare 77) bigmap 0 in (is_ret r, blocks m, w)) = (True, 11, 3).
Proof. split; [reflexivity|]. vm_compute. repeat split. Qed.

Print Assumptions C48_space.
Print Assumptions C48_remove.
Print Assumptions C48_insert.
Print Assumptions C48_extend.
Print Assumptions C48_from_iter.
Print Assumptions C48_split_off.
Print Assumptions C48_append.
Print Assumptions C48_clone.
Print Assumptions C48_history.
Print Assumptions C48_only_these_ask.
