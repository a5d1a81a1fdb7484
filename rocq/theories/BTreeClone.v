(** * BTreeClone: try_clone and Clone *)
From Coq Require Import List Arith Lia Bool.
From Verif Require Import Base MapSpec BTreeModel BTreeIterModel BTreeBulkModel BTreeInv BTreeLemmas BTreeSearch BTreeSurgery BTreeIter BTreeBorder BTreeSplit.
Import ListNotations.
Set Implicit Arguments.

Section CloneProofs.
  Variables (K V W : Type) (nalloc : bool -> W -> option reserve_error * W).
  Variables (kclone : K -> W -> outcome reserve_error K * W) (vclone : V -> W -> outcome reserve_error V * W).
  Notation kv := (K * V)%type.
  Notation node := (node K V).
  Notation bmap := (bmap K V).
  Implicit Types (n o s e : node) (m : bmap).

  (** [y] came out of cloning [x] *)
  Definition cloned (x y : kv) : Prop :=
    (exists w w', kclone (fst x) w = (Ret (fst y), w')) /\ (exists w w', vclone (snd x) w = (Ret (snd y), w')).

  (** the outcome [o], not [Ret], is the one of a failed allocation or element clone *)
  Definition fault {A} (o : outcome reserve_error A) (w' : W) : Prop :=
    match o with
    | Ret _ => False
    | Err e => (exists i w, nalloc i w = (Some e, w')) \/ (exists k w, kclone k w = (Err e, w')) \/ (exists v w, vclone v w = (Err e, w'))
    | Panic => (exists k w, kclone k w = (Panic, w')) \/ (exists v w, vclone v w = (Panic, w'))
    | Abort => (exists k w, kclone k w = (Abort, w')) \/ (exists v w, vclone v w = (Abort, w'))
    | UB => (exists k w, kclone k w = (UB, w')) \/ (exists v w, vclone v w = (UB, w'))
    end.

  Lemma kv_clone_ok x w : match kv_clone kclone vclone x w with
    | (Ret y, _) => cloned x y
    | (o, w') => fault o w'
    end.
  Proof.
    unfold kv_clone. destruct (kclone (fst x) w) as [[k|e| | |] w1] eqn:E1; cbn [fault]; eauto 6.
    destruct (vclone (snd x) w1) as [[v|e| | |] w2] eqn:E2; cbn [fault]; eauto 6. split; cbn [fst snd]; eauto.
  Qed.

  Definition res_ok (P : nat -> Prop) (h : nat) (len : nat) (src : list kv) (r : cres K V W) : Prop :=
    let '(o, d, w') := r in
    Forall (@droppable K V) d /\
    match o with
    | Ret (n', l) => d = [] /\ nlen n' = len /\ kids P h n' /\ l = length (inorder n') /\ Forall2 cloned src (inorder n')
    | o => fault o w'
    end.

  Lemma clone_leaf_ok xs : forall o l w src, edges o = [] -> l = nlen o -> Forall2 cloned src (kvs o) ->
    forall P, res_ok P 0 (nlen o + length xs) (src ++ xs) (clone_leaf kclone vclone xs o l w).
  Proof.
    induction xs as [|x xs IH]; intros o l w src He Hl Hf P; cbn [clone_leaf].
    - cbn [length]. rewrite Nat.add_0_r, app_nil_r. split; [constructor|]. split; auto. split; auto. split; [exact He|].
      rewrite leaf_inorder by exact He. auto.
    - pose proof (kv_clone_ok x w) as Hc.
      assert (Hdr : droppable (BMap false o 0 l)).
      { split; [exact He|]. split; [|discriminate]. unfold entries. cbn [bnode blen]. rewrite leaf_inorder by exact He. auto. }
      destruct (kv_clone kclone vclone x w) as [[y|e| | |] w1]; try (split; [constructor; auto|exact Hc]); try (split; [constructor|exact Hc]).
      cbn [push]. specialize (IH (Node (kvs o ++ [y]) (edges o)) (l + 1) w1 (src ++ [x])).
      rewrite <- app_assoc in IH. cbn [app] in IH.
      replace (nlen o + length (x :: xs)) with (nlen (Node (kvs o ++ [y]) (edges o)) + length xs).
      2:{ unfold nlen. cbn [kvs length]. rewrite app_length. simpl. lia. }
      apply IH; auto.
      + subst l. unfold nlen. cbn [kvs]. rewrite app_length. simpl. lia.
      + cbn [kvs]. apply Forall2_app; auto.
  Qed.

  Lemma weave_snoc (es : list (list kv)) (e : list kv) ks x : length es = S (length ks) ->
    weave (es ++ [e]) (ks ++ [x]) = weave es ks ++ x :: e.
  Proof. intros H. rewrite weave_cut by auto. cbn [weave]. now rewrite app_nil_r. Qed.

  Lemma clone_internal_ok (P : nat -> Prop) h (sub : node -> W -> cres K V W) :
    (forall e w, kids P h e -> res_ok P h (nlen e) (inorder e) (sub e w)) ->
    forall xs es o l w (es0 : list node) xs0, length es = length xs -> length es0 = S (length xs0) -> Forall (BTreeLemmas.sub P h) es ->
      nlen o = length xs0 -> length (edges o) = S (nlen o) -> Forall (BTreeLemmas.sub P h) (edges o) -> l = length (inorder o) ->
      Forall2 cloned (weave (map (@inorder K V) es0) xs0) (inorder o) ->
      res_ok P (S h) (length xs0 + length xs) (weave (map (@inorder K V) (es0 ++ es)) (xs0 ++ xs)) (clone_internal kclone vclone sub h xs es o l w).
  Proof.
    intros Hsub. induction xs as [|x xs IH]; intros es o l w es0 xs0 Hes Hes0 Hfes Hno Heo Hfo Hl Hf.
    - destruct es; [|discriminate]. cbn [clone_internal length]. rewrite Nat.add_0_r, !app_nil_r. split; [constructor|].
      split; auto. split; auto. split; [|split; auto]. rewrite kids_S. auto.
    - destruct es as [|e es]; [discriminate|]. cbn [clone_internal]. inversion Hfes as [|? ? [He1 He2] Hfes']; subst.
      pose proof (kv_clone_ok x w) as Hc.
      assert (Hdr : droppable (BMap false o (S h) (length (inorder o)))).
      { split; [|split; [reflexivity|discriminate]]. unfold shape. cbn [bnode bheight]. rewrite kids_S. split; auto.
        eapply Forall_impl; [|exact Hfo]. apply sub_any. }
      destruct (kv_clone kclone vclone x w) as [[y|er| | |] w1]; try (split; [constructor; auto|exact Hc]); try (split; [constructor|exact Hc]).
      pose proof (Hsub e w1 He2) as Hs. destruct (sub e w1) as [[[[s sl]|er| | |] d] w2]; destruct Hs as [Hd Hs].
      2,3: split; [apply Forall_app; split; auto|exact Hs].
      2,3: split; [constructor|exact Hs].
      destruct Hs as (-> & Hsn & Hsk & -> & Hsf). cbn [push].
      set (o' := Node (kvs o ++ [y]) (firstn (nlen o + 1) (edges o) ++ [s])).
      assert (Eo' : o' = Node (kvs o ++ [y]) (edges o ++ [s])) by (unfold o'; now rewrite firstn_all2 by lia).
      assert (Hio : inorder o' = inorder o ++ y :: inorder s).
      { rewrite Eo', inorder_eq. cbn [edges kvs]. rewrite map_app. cbn [map]. rewrite weave_snoc; [now rewrite <- inorder_eq|].
        rewrite map_length. exact Heo. }
      specialize (IH es o' (length (inorder o) + (1 + length (inorder s))) w2 (es0 ++ [e]) (xs0 ++ [x])).
      rewrite <- !app_assoc in IH. cbn [app] in IH.
      replace (length xs0 + length (x :: xs)) with (length (xs0 ++ [x]) + length xs) by (rewrite app_length; simpl; lia).
      apply IH; auto.
      + rewrite !app_length. simpl. lia.
      + rewrite Eo'. unfold nlen. cbn [kvs]. rewrite !app_length. unfold nlen in Hno. simpl. lia.
      + rewrite Eo'. unfold nlen in *. cbn [kvs edges]. rewrite !app_length. simpl. lia.
      + rewrite Eo'. cbn [edges]. apply Forall_app. split; auto. constructor; auto. split; auto. now rewrite Hsn.
      + rewrite Hio, app_length. simpl. lia.
      + rewrite Hio, map_app. cbn [map]. rewrite weave_snoc by (rewrite map_length; auto). apply Forall2_app; auto.
  Qed.

  Lemma clone_subtree_ok (P : nat -> Prop) h : forall n w, kids P h n ->
    res_ok P h (nlen n) (inorder n) (clone_subtree nalloc kclone vclone h n w).
  Proof.
    induction h as [|h IH]; intros n w Hk; cbn [clone_subtree].
    - unfold new_leaf. destruct (nalloc false w) as [[e|] w1] eqn:E.
      + split; [constructor|]. left. eauto.
      + rewrite leaf_inorder by exact Hk.
        apply (@clone_leaf_ok (kvs n) empty_leaf 0 w1 [] eq_refl eq_refl (Forall2_nil _) P).
    - pose proof Hk as Hk0. rewrite kids_S in Hk. destruct Hk as [Hl Hf]. destruct (edges n) as [|e0 es] eqn:Ee; [discriminate|].
      inversion Hf as [|? ? [He1 He2] Hf']; subst. pose proof (IH e0 w He2) as H0.
      destruct (clone_subtree nalloc kclone vclone h e0 w) as [[[[o l]|er| | |] d] w1]; destruct H0 as [Hd H0]; try (split; [exact Hd|exact H0]).
      destruct H0 as (-> & Hno & Hko & -> & Hfo).
      unfold push_level. destruct (nalloc true w1) as [[er|] w2] eqn:E.
      + split; [|left; eauto]. constructor; [|constructor]. split; [|split; [reflexivity|discriminate]]. eapply kids_shape; eauto.
      + rewrite inorder_eq, Ee. unfold nlen.
        apply (@clone_internal_ok P h (clone_subtree nalloc kclone vclone h) IH (kvs n) es (Node [] [o]) (length (inorder o)) w2 [e0] []); auto.
        * cbn [edges]. constructor; auto. split; auto. now rewrite Hno.
        * rewrite (inorder_eq (Node [] [o])). cbn [edges kvs map weave]. now rewrite app_nil_r.
        * rewrite (inorder_eq (Node [] [o])). cbn [edges kvs map weave]. rewrite !app_nil_r. auto.
  Qed.

  Lemma try_clone_ok m w : sound m ->
    let '(o, d, w') := try_clone nalloc kclone vclone m w in
    Forall (@droppable K V) d /\
    match o with
    | Ret m' => d = [] /\ sound m' /\ Forall2 cloned (entries m) (entries m')
    | o => fault o w'
    end.
  Proof.
    intros (Hb & Hs & Hl). unfold try_clone, len. destruct (Nat.eqb_spec (blen m) 0) as [E|E].
    - assert (He : entries m = []) by (destruct (entries m); auto; simpl in Hl; lia).
      split; [constructor|]. split; auto. split; [apply new_sound|]. rewrite He. constructor.
    - destruct Hb as [Hb1 Hb2]. pose proof (clone_subtree_ok fair (bheight m) (bnode m) w Hb2) as HC.
      destruct (clone_subtree nalloc kclone vclone (bheight m) (bnode m) w) as [[[[n' l]|er| | |] d] w1]; destruct HC as [Hd HC]; auto.
      destruct HC as (-> & Hn & Hk & -> & Hf). split; auto. split; auto. split; [|exact Hf].
      split; [|split; [discriminate|reflexivity]]. split; [cbn [bnode bheight]; now rewrite Hn|exact Hk].
  Qed.
End CloneProofs.
