(** * BTreeCost: the work of a lookup.  [search_tree] again, instrumented: the
    nodes visited and the keys compared are recorded. *)
From Coq Require Import List Arith Lia Bool.
From Verif Require Import Base MapSpec BTreeModel BTreeBulkModel BTreeInv BTreeLemmas BTreeSearch BTreeBorder.
Import ListNotations.
Set Implicit Arguments.

Section Cost.
  Variables (K V : Type).
  Notation kv := (K * V)%type.
  Notation node := (node K V).
  Notation ctx := (ctx K V).
  Implicit Types (n : node) (q : K -> comparison).

  (** search.rs 48-66, with the keys it compares *)
  Fixpoint search_linear_t q (l : list kv) : (nat * bool) * list K :=
    match l with
    | [] => ((0, false), [])
    | e :: l' =>
        match q (fst e) with
        | Gt => let '((i, b), t) := search_linear_t q l' in ((S i, b), fst e :: t)
        | Eq => ((0, true), [fst e])
        | Lt => ((0, false), [fst e])
        end
    end.
  (** search.rs 14-46, with the list of keys compared in each node visited *)
  Fixpoint search_tree_t q (h : nat) n (c : ctx) : option (search_result K V) * list (list K) :=
    match search_linear_t q (kvs n) with
    | ((i, true), t) => (Some (Found (Handle n h c i)), [t])
    | ((i, false), t) =>
        match h with
        | 0 => (Some (GoDown (Handle n 0 c i)), [t])
        | S h' =>
            match descend n i with
            | Some (e, f) => let '(r, ts) := search_tree_t q h' e (f :: c) in (r, t :: ts)
            | None => (None, [t])
            end
        end
    end.

  Lemma search_linear_t_ok q l : fst (search_linear_t q l) = search_linear q l /\ length (snd (search_linear_t q l)) <= length l.
  Proof.
    induction l as [|e l [IH1 IH2]]; cbn [search_linear_t search_linear]; [auto|].
    destruct (q (fst e)); try (split; simpl; auto; lia).
    destruct (search_linear_t q l) as [[i b] t]. cbn [fst snd] in *. rewrite <- IH1. split; simpl; auto. lia.
  Qed.

  (** the instrumentation does not change the search *)
  Lemma search_tree_t_same q h : forall n c, fst (search_tree_t q h n c) = search_tree q h n c.
  Proof.
    induction h as [|h IH]; intros n c; cbn [search_tree_t search_tree]; destruct (search_linear_t_ok q (kvs n)) as [E _];
      destruct (search_linear_t q (kvs n)) as [[i b] t]; cbn [fst] in E; rewrite <- E; destruct b; auto.
    destruct (descend n i) as [[e f]|]; auto. specialize (IH e (f :: c)). destruct (search_tree_t q h e (f :: c)). exact IH.
  Qed.

  Lemma pick_In A i (l : list A) a x z : pick i l = Some (a, x, z) -> l = a ++ x :: z.
  Proof. intros H. apply pick_some in H. tauto. Qed.

  Lemma search_tree_t_cost (P : nat -> Prop) q h : (forall k, P k -> k <= CAPACITY) -> forall n c, nlen n <= CAPACITY -> kids P h n ->
    length (snd (search_tree_t q h n c)) <= h + 1 /\ Forall (fun t => length t <= CAPACITY) (snd (search_tree_t q h n c)).
  Proof.
    intros HP. induction h as [|h IH]; intros n c Hn Hk; cbn [search_tree_t]; destruct (search_linear_t_ok q (kvs n)) as [_ Hc];
      destruct (search_linear_t q (kvs n)) as [[i b] t]; cbn [snd] in Hc; assert (Ht : length t <= CAPACITY) by (unfold nlen in Hn; lia);
      destruct b; cbn [snd]; try (split; [simpl; lia|constructor; [exact Ht|constructor]]).
    destruct (descend n i) as [[e f]|] eqn:Ed; cbn [snd]; [|split; [simpl; lia|constructor; [exact Ht|constructor]]].
    rewrite kids_S in Hk. destruct Hk as [_ Hf]. unfold descend in Ed. destruct (pick i (edges n)) as [[[a x] z]|] eqn:Ep; [|discriminate].
    inversion Ed; subst. apply pick_In in Ep. rewrite Ep in Hf. rewrite Forall_app in Hf. destruct Hf as [_ Hf]. inversion Hf as [|? ? [H1 H2] _]; subst.
    destruct (IH e (Frame (kvs n) a z :: c)) as [I1 I2]; auto. destruct (search_tree_t q h e _) as [r ts]. cbn [snd] in *. split; [simpl; lia|constructor; auto].
  Qed.

  (** ** How many entries a tree of a given height holds *)
  Lemma list_sum_ge c (l : list nat) : Forall (fun k => c <= k) l -> c * length l <= list_sum l.
  Proof. induction 1; simpl; lia. Qed.

  Lemma dfs_ge h : forall n, REAL_MIN <= nlen n -> kids fair h n -> 5 ^ (h + 1) <= dfs h n + 1.
  Proof.
    change REAL_MIN with 4. induction h as [|h IH]; intros n Hn Hk; [cbn [dfs]; simpl; lia|]. rewrite kids_S in Hk. destruct Hk as [Hl Hf]. cbn [dfs].
    assert (HF : Forall (fun k => 5 ^ (h + 1) - 1 <= k) (map (dfs h) (edges n))).
    { rewrite Forall_map. eapply Forall_impl; [|exact Hf]. intros e [[H1 _] H2]. specialize (IH e H1 H2). cbn beta. lia. }
    apply list_sum_ge in HF. rewrite map_length, Hl in HF. replace (S h + 1) with (S (h + 1)) by lia. rewrite Nat.pow_succ_r'.
    assert (1 <= 5 ^ (h + 1)) by (apply Nat.neq_0_lt_0, Nat.pow_nonzero; lia). nia.
  Qed.
  Lemma height_bound h n : balanced h n -> h = 0 \/ 2 * 5 ^ h <= length (inorder n) + 1.
  Proof.
    intros [[_ H1] Hk]. destruct h as [|h]; [auto|right]. rewrite <- (@dfs_ok K V (S h)).
    2:{ eapply kids_weaken; [|exact Hk]. now unfold any. }
    rewrite kids_S in Hk. destruct Hk as [Hl Hf]. specialize (H1 ltac:(lia)). cbn [dfs].
    assert (HF : Forall (fun k => 5 ^ (h + 1) - 1 <= k) (map (dfs h) (edges n))).
    { rewrite Forall_map. eapply Forall_impl; [|exact Hf]. intros e [[H2 _] H3]. pose proof (@dfs_ge h e H2 H3). lia. }
    apply list_sum_ge in HF. rewrite map_length, Hl in HF. replace (h + 1) with (S h) in HF by lia.
    assert (1 <= 5 ^ (S h)) by (apply Nat.neq_0_lt_0, Nat.pow_nonzero; lia). nia.
  Qed.
End Cost.
