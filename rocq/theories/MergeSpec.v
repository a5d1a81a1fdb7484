(** * MergeSpec: merging two sorted lists is [s_append] (facts about lists only) *)
From Coq Require Import List Arith Lia Bool Sorted.
From Verif Require Import Base MapSpec.
Import ListNotations.
Set Implicit Arguments.

Section Merge.
  Variables (K V : Type) (cmp : K -> K -> comparison).
  Notation kv := (K * V)%type.
  Implicit Types (l r : list kv) (x y e : kv).

  Fixpoint merge2 l : list kv -> list kv :=
    fix go r :=
      match l, r with
      | [], _ => r
      | _, [] => l
      | x :: l', y :: r' =>
          match cmp (fst x) (fst y) with
          | Lt => x :: merge2 l' r
          | Eq => y :: merge2 l' r'
          | Gt => y :: go r'
          end
      end.
  Lemma merge2_nil_l r : merge2 [] r = r.
  Proof. now destruct r. Qed.
  Lemma merge2_nil_r l : merge2 l [] = l.
  Proof. now destruct l. Qed.
  Lemma merge2_cons x l y r : merge2 (x :: l) (y :: r) =
    match cmp (fst x) (fst y) with
    | Lt => x :: merge2 l (y :: r) | Eq => y :: merge2 l r | Gt => y :: merge2 (x :: l) r
    end.
  Proof. reflexivity. Qed.
  Lemma merge2_length l r : length (merge2 l r) <= length l + length r.
  Proof.
    revert r. induction l as [|x l IH]; intros r; [rewrite merge2_nil_l; simpl; lia|].
    induction r as [|y r IHr]; [rewrite merge2_nil_r; simpl; lia|]. rewrite merge2_cons.
    destruct (cmp (fst x) (fst y)); simpl.
    - specialize (IH r). lia.
    - specialize (IH (y :: r)). simpl in IH. lia.
    - simpl in IHr. lia.
  Qed.

  Hypothesis laws : ord_laws cmp.

  Definition above x l : Prop := Forall (fun e => cmp (fst x) (fst e) = Lt) l.

  Lemma above_trans x y l : cmp (fst x) (fst y) = Lt -> above y l -> above x l.
  Proof. intros H Hl. eapply Forall_impl; [|exact Hl]. simpl. intros e He. eapply (cmp_lt_trans laws); eauto. Qed.
  Lemma above_eq x y l : cmp (fst x) (fst y) = Eq -> above x l -> above y l.
  Proof. intros H Hl. eapply Forall_impl; [|exact Hl]. simpl. intros e He. now rewrite <- (cmp_eq_l laws _ _ _ H). Qed.
  Lemma sorted_cons x l : sorted cmp (x :: l) <-> sorted cmp l /\ above x l.
  Proof. split; [intros H; inversion H; auto|]. intros [? ?]. constructor; auto. Qed.
  Lemma has_above x l : above x l -> has cmp l (fst x) = false.
  Proof. induction 1 as [|e l He Hl IH]; simpl; auto. now rewrite He. Qed.
  Lemma cmp_gt a b : cmp a b = Gt -> cmp b a = Lt.
  Proof. intros H. rewrite (cmp_antisym laws). now rewrite H. Qed.
  Lemma cmp_lt_gt a b : cmp a b = Lt -> cmp b a = Gt.
  Proof. intros H. rewrite (cmp_antisym laws). now rewrite H. Qed.
  Lemma cmp_eq_sym a b : cmp a b = Eq -> cmp b a = Eq.
  Proof. intros H. rewrite (cmp_antisym laws). now rewrite H. Qed.

  Lemma place_above x l : above x l -> place cmp x l = x :: l.
  Proof. intros H. destruct l as [|e l]; auto. simpl. inversion H as [|? ? He Hl]; subst. now rewrite He. Qed.
  Lemma fold_place_above y l r : above y l -> fold_right (place cmp) (y :: r) l = y :: fold_right (place cmp) r l.
  Proof.
    induction 1 as [|e l He Hl IH]; simpl; auto. rewrite IH. simpl. now rewrite (cmp_lt_gt He).
  Qed.
  Lemma above_place x e l : above x l -> cmp (fst x) (fst e) = Lt -> above x (place cmp e l).
  Proof.
    induction 1 as [|y l Hy Hl IH]; intros He; simpl.
    - repeat constructor; auto.
    - destruct (cmp (fst e) (fst y)); constructor; auto. all: apply IH; auto.
  Qed.
  Lemma above_fold x l r : above x l -> above x r -> above x (fold_right (place cmp) r l).
  Proof. induction 1; intros Hr; simpl; auto. apply above_place; auto. Qed.
  Lemma above_filter x p l : above x l -> above x (filter p l).
  Proof. induction 1; simpl; [constructor|]. destruct (p x0); auto. constructor; auto. Qed.
  Lemma filter_has_cons y l r : above y l ->
    filter (fun e => negb (has cmp (y :: r) (fst e))) l = filter (fun e => negb (has cmp r (fst e))) l.
  Proof.
    induction 1 as [|e l He Hl IH]; [reflexivity|]. cbn [filter].
    assert (Eh : has cmp (y :: r) (fst e) = has cmp r (fst e)) by (unfold has; cbn [existsb]; now rewrite (cmp_lt_gt He)).
    rewrite Eh, IH. reflexivity.
  Qed.

  Lemma merge2_append l r : sorted cmp l -> sorted cmp r -> merge2 l r = s_append cmp l r.
  Proof.
    revert r. induction l as [|x l IH]; intros r Hl Hr; [now rewrite merge2_nil_l|].
    pose proof Hl as Hl0. rewrite sorted_cons in Hl. destruct Hl as [Hl Hxl].
    induction r as [|y r IHr].
    - rewrite merge2_nil_r. unfold s_append. cbn [has existsb negb].
      specialize (IH [] Hl Hr). rewrite merge2_nil_r in IH. unfold s_append in IH. cbn [filter has existsb negb fold_right] in *.
      rewrite <- IH. rewrite place_above; auto.
    - pose proof Hr as Hr0. rewrite sorted_cons in Hr. destruct Hr as [Hr Hyr]. rewrite merge2_cons. destruct (cmp (fst x) (fst y)) eqn:E.
      + rewrite IH by auto. unfold s_append. cbn [filter]. assert (Hh : has cmp (y :: r) (fst x) = true) by (simpl; now rewrite E).
        rewrite Hh. cbn [negb]. assert (Hyl : above y l) by (eapply above_eq; eauto).
        rewrite filter_has_cons, fold_place_above by (auto; apply above_filter; auto). reflexivity.
      + rewrite IH by auto. unfold s_append. cbn [filter]. assert (Hxr : above x (y :: r)) by (constructor; [auto|eapply above_trans; eauto]).
        rewrite has_above by auto. cbn [negb fold_right]. rewrite place_above; auto. apply above_fold; auto. apply above_filter; auto.
      + rewrite IHr by auto. apply cmp_gt in E. assert (Hyl : above y (x :: l)) by (constructor; [auto|eapply above_trans; eauto]).
        unfold s_append. rewrite filter_has_cons, fold_place_above by (auto; apply above_filter; auto). reflexivity.
  Qed.

  Lemma above_merge2 x l : forall r, above x l -> above x r -> above x (merge2 l r).
  Proof.
    induction l as [|y l IH]; intros r Hl Hr; [now rewrite merge2_nil_l|]. induction r as [|z r IHr]; [now rewrite merge2_nil_r|].
    rewrite merge2_cons. inversion Hl; inversion Hr; subst. destruct (cmp (fst y) (fst z)); constructor; auto; first [apply IH|apply IHr]; auto.
  Qed.
  Lemma merge2_sorted l : forall r, sorted cmp l -> sorted cmp r -> sorted cmp (merge2 l r).
  Proof.
    induction l as [|x l IH]; intros r Hl Hr; [now rewrite merge2_nil_l|]. induction r as [|y r IHr]; [now rewrite merge2_nil_r|].
    pose proof Hl as Hl0. pose proof Hr as Hr0. rewrite sorted_cons in Hl, Hr. destruct Hl as [Hl Hxl], Hr as [Hr Hyr].
    rewrite merge2_cons. destruct (cmp (fst x) (fst y)) eqn:E; rewrite sorted_cons; (split; [auto|]); apply above_merge2; auto.
    - eapply above_eq; eauto.
    - constructor; auto. eapply above_trans; eauto.
    - apply cmp_gt in E. constructor; auto. eapply above_trans; eauto.
  Qed.
End Merge.
