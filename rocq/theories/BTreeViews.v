(** * BTreeViews: projected iterators deliver projected items *)
From Coq Require Import List Arith Lia Bool Permutation.
From Verif Require Import Base IterSpec BTreeModel BTreeIterModel BTreeSetModel BTreeViewModel.
Import ListNotations.
Set Implicit Arguments.

Lemma dq_run_perm A ops : forall (l : list A), let '(outs, rest) := dq_run ops l in Permutation l (somes outs ++ rest).
Proof.
  induction ops as [|e ops IH]; intros l; cbn [dq_run]; [apply Permutation_refl|].
  destruct (dq_step e l) as [x l'] eqn:E. specialize (IH l'). destruct (dq_run ops l') as [outs rest].
  destruct e; cbn [dq_step] in E.
  - destruct l as [|y l0]; inversion E; subst; cbn [somes]; [auto|]. cbn [app]. now constructor.
  - destruct (rev l) as [|y l0] eqn:Er; inversion E; subst; cbn [somes].
    + apply (f_equal (@rev A)) in Er. rewrite rev_involutive in Er. subst l. exact IH.
    + apply (f_equal (@rev A)) in Er. rewrite rev_involutive in Er. subst l. cbn [rev app].
      rewrite Permutation_app_comm. cbn [app]. now constructor.
Qed.

Lemma dq_run_map A B (f : A -> B) ops : forall l,
  dq_run ops (map f l) = (map (option_map f) (fst (dq_run ops l)), map f (snd (dq_run ops l))).
Proof.
  induction ops as [|e ops IH]; intros l; cbn [dq_run]; [reflexivity|].
  assert (E : dq_step e (map f l) = (option_map f (fst (dq_step e l)), map f (snd (dq_step e l)))).
  { destruct e; cbn [dq_step]; [now destruct l|]. rewrite <- map_rev. destruct (rev l) as [|y l0]; cbn; auto. now rewrite <- map_rev. }
  rewrite E. destruct (dq_step e l) as [x l']. cbn [fst snd]. rewrite IH. now destruct (dq_run ops l').
Qed.

Lemma calls_project S A B (f : A -> B) next next_back ops : forall (s : S),
  calls (fun s => project f (next s)) (fun s => project f (next_back s)) ops s =
  omap (fun '(outs, s') => (map (option_map f) outs, s')) (calls next next_back ops s).
Proof.
  induction ops as [|e ops IH]; intros s; cbn [calls]; [reflexivity|]. unfold project, obind.
  destruct e; [destruct (next s) as [[x s']|er| | |]|destruct (next_back s) as [[x s']|er| | |]]; cbn [omap]; auto;
    rewrite IH; destruct (calls next next_back ops s') as [[xs s'']|er| | |]; reflexivity.
Qed.
