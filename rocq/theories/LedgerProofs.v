(** * LedgerProofs: the books balance at every step *)
From Coq Require Import List Arith Lia Bool Sorted Permutation.
From Verif Require Import Base MapSpec IterSpec BTreeModel BTreeInv BTreeLemmas BTreeSearch BTreeInsert BTreeRemove BTreeOps BTreeIterModel BTreeIterProofs
  BTreeBulkModel BTreeBorder BTreeSplit BTreeAppend BTreeClone BTreeWrites BTreeEntry BTreeCollect MergeSpec SpecFacts HistoryModel HistorySpec HistoryProofs
  LedgerModel LedgerSpec Properties_BTree2.
Import ListNotations.
Set Implicit Arguments.

(** ** Without the trace it is the model *)
Section Erase.
  Variables (K V Q W : Type) (nalloc : bool -> W -> option reserve_error * W).
  Variables (cmp : K -> K -> comparison) (qcmp : Q -> Q -> comparison) (borrow : K -> Q).
  Variables (kclone : K -> W -> outcome reserve_error K * W) (vclone : V -> W -> outcome reserve_error V * W).
  Notation kv := (K * V)%type.
  Variables (eqb : kv -> kv -> bool) (pcmp : kv -> kv -> option comparison).
  Notation bmap := (bmap K V).
  Notation node := (node K V).

  Definition no_t {A B} (r : A * B * list (fate K V) * W) : A * B * W := let '(a, b, _, w) := r in (a, b, w).

  Lemma l_drop_all_erase (l : list bmap) : fst (l_drop_all l) = drop_all l.
  Proof.
    induction l as [|m l IH]; cbn [l_drop_all drop_all]; auto. unfold l_drop. destruct (drop_map m) as [[d fr]|e| | |]; auto; [|destruct e].
    destruct (l_drop_all l) as [o t]. exact IH.
  Qed.
  Lemma l_write_all_erase ws : forall m : bmap, fst (l_write_all ws m) = write_all ws m.
  Proof.
    induction ws as [|[a f] ws IH]; intros m; cbn [l_write_all write_all]; auto. destruct (update_at a (write_val f) m) as [m'|]; auto.
    specialize (IH m'). destruct (l_write_all ws m') as [o t]. exact IH.
  Qed.
  Lemma l_insert_up_erase H : forall c (l : node) x r rt a w, no_t (l_insert_up nalloc H l x r rt a c w) = insert_up nalloc H l x r rt a c w.
  Proof.
    induction c as [|f c IH]; intros l x r rt a w; cbn [l_insert_up insert_up].
    - destruct (push_level nalloc l w) as [[] w1]; auto.
    - destruct (internal_insert nalloc (fidx f) x r rt (fill f l) w) as [[[[n|l' y r'] [rt' j]]| | | |] w1]; auto.
  Qed.
  Lemma l_vacant_erase (m : bmap) k hd v w : no_t (l_vacant_insert nalloc m k hd v w) = vacant_insert nalloc m k hd v w.
  Proof.
    unfold l_vacant_insert, vacant_insert. destruct (leaf_insert nalloc (hi hd) (k, v) (hn hd) w) as [[[[n|l y r] [rt i]]| | | |] w1]; auto.
    rewrite <- l_insert_up_erase. destruct (l_insert_up nalloc (bheight m) l y r rt ([], i) (hc hd) w1) as [[[o [n h]] t] w2]. reflexivity.
  Qed.
  Lemma l_entry_erase k (m : bmap) w : no_t (l_try_entry nalloc cmp k m w) = try_entry nalloc cmp k m w.
  Proof.
    unfold l_try_entry, try_entry. destruct (ensure_root_is_owned nalloc m w) as [[[] m1] w1]; auto. destruct (search (cmp k) m1) as [[hd|hd]|]; auto.
  Qed.
  Lemma l_insert_erase k v (m : bmap) w : no_t (l_try_insert nalloc cmp k v m w) = try_insert nalloc cmp k v m w.
  Proof.
    unfold l_try_insert, try_insert. rewrite <- l_entry_erase. destruct (l_try_entry nalloc cmp k m w) as [[[[[hd|k' hd]| | | |] m1] t] w1]; cbn [no_t]; auto.
    - destruct (occupied_insert m1 hd v) as [o m2]. reflexivity.
    - rewrite <- l_vacant_erase. destruct (l_vacant_insert nalloc m1 k' hd v w1) as [[[o2 m2] t2] w2]. reflexivity.
  Qed.
  Lemma l_replace_erase k v (m : bmap) w : no_t (l_replace_key nalloc cmp k v m w) = replace_key nalloc cmp k v m w.
  Proof.
    unfold l_replace_key, replace_key. destruct (try_entry nalloc cmp k m w) as [[[[hd|k' hd]| | | |] m1] w1]; cbn [no_t]; auto.
    - destruct (into_kv hd); auto. destruct (update_at _ _ m1); auto.
    - rewrite <- l_vacant_erase. destruct (l_vacant_insert nalloc m1 k' hd v w1) as [[[o2 m2] t2] w2]. reflexivity.
  Qed.
  Lemma l_extend_erase l : forall (m : bmap) w, no_t (l_extend nalloc cmp l m w) = extend nalloc cmp l m w.
  Proof.
    induction l as [|x l IH]; intros m w; cbn [l_extend extend]; auto. rewrite <- l_insert_erase.
    destruct (l_try_insert nalloc cmp (fst x) (snd x) m w) as [[[o m1] t] w1]. cbn [no_t]. destruct o; auto.
    rewrite <- IH. destruct (l_extend nalloc cmp l m1 w1) as [[[o2 m2] t2] w2]. reflexivity.
  Qed.
  Lemma l_from_sorted_erase fuel : forall mi (n : node) c len w, fst (l_from_sorted nalloc cmp fuel mi n c len w) = from_sorted_loop nalloc cmp fuel mi n c len w.
  Proof.
    induction fuel as [|fuel IH]; intros mi n c len w; cbn [l_from_sorted from_sorted_loop]; auto.
    destruct (merge_next cmp mi) as [[[x|] mi']| | | |]; auto. destruct (push_sorted nalloc x n c w) as [[[[n' c']| | | |] t] w']; auto.
  Qed.
  Lemma l_append_erase (m o : bmap) w : fst (l_append nalloc cmp m o w) = append nalloc cmp m o w.
  Proof.
    unfold l_append, append. destruct (len o =? 0); auto. destruct (len m =? 0); auto. destruct (map_into_iter m); auto. destruct (map_into_iter o); auto.
    destruct (new_leaf K V nalloc w) as [[] w1]; auto. rewrite <- l_from_sorted_erase.
    destruct (l_from_sorted nalloc cmp _ _ a1 [] 0 w1) as [[[[[r [n h]] l] mi'] w2] x]. cbn [fst]. destruct r; auto. destruct (fix_right_edge h n); auto.
  Qed.
  Lemma l_kv_clone_erase x w : (let '(o, _, w') := l_kv_clone kclone vclone x w in (o, w')) = kv_clone kclone vclone x w.
  Proof. unfold l_kv_clone, kv_clone. destruct (kclone (fst x) w) as [[] w1]; auto. destruct (vclone (snd x) w1) as [[] w2]; auto. Qed.
  Lemma l_clone_leaf_erase xs : forall (o : node) l w, no_t (l_clone_leaf kclone vclone xs o l w) = clone_leaf kclone vclone xs o l w.
  Proof.
    induction xs as [|x xs IH]; intros o l w; cbn [l_clone_leaf clone_leaf]; auto. rewrite <- l_kv_clone_erase.
    destruct (l_kv_clone kclone vclone x w) as [[[y| | | |] t] w1]; auto. destruct (push 0 y None o) as [o'|]; auto. rewrite <- IH.
    destruct (l_clone_leaf kclone vclone xs o' (l + 1) w1) as [[[r d] t'] w']. reflexivity.
  Qed.
  Lemma l_clone_internal_erase sub sub' h : (forall e w, no_t (sub e w) = sub' e w) ->
    forall xs es (o : node) l w, no_t (l_clone_internal kclone vclone sub h xs es o l w) = clone_internal kclone vclone sub' h xs es o l w.
  Proof.
    intros HS. induction xs as [|x xs IH]; intros es o l w; destruct es as [|e es]; cbn [l_clone_internal clone_internal]; auto. rewrite <- l_kv_clone_erase.
    destruct (l_kv_clone kclone vclone x w) as [[[y| | | |] t] w1]; auto. rewrite <- HS. destruct (sub e w1) as [[[[[s sl]| | | |] d] t2] w2]; auto.
    cbn [no_t]. destruct (push (S h) y (Some s) o) as [o'|]; auto. rewrite <- IH.
    destruct (l_clone_internal kclone vclone sub h xs es o' _ w2) as [[[r d3] t3] w3]. reflexivity.
  Qed.
  Lemma l_clone_subtree_erase h : forall (n : node) w, no_t (l_clone_subtree nalloc kclone vclone h n w) = clone_subtree nalloc kclone vclone h n w.
  Proof.
    induction h as [|h IH]; intros n w; cbn [l_clone_subtree clone_subtree].
    - destruct (new_leaf K V nalloc w) as [[] w1]; auto. apply l_clone_leaf_erase.
    - destruct (edges n) as [|e0 es]; auto. rewrite <- IH. destruct (l_clone_subtree nalloc kclone vclone h e0 w) as [[[[[o l]| | | |] d] t] w1]; auto.
      cbn [no_t]. destruct (push_level nalloc o w1) as [[] w2]; auto. rewrite <- (l_clone_internal_erase _ _ h IH).
      destruct (l_clone_internal kclone vclone _ h (kvs n) es a l w2) as [[[r d2] t2] w3]. reflexivity.
  Qed.
  Lemma l_try_clone_erase (m : bmap) w : no_t (l_try_clone nalloc kclone vclone m w) = try_clone nalloc kclone vclone m w.
  Proof.
    unfold l_try_clone, try_clone. destruct (len m =? 0); auto. rewrite <- l_clone_subtree_erase.
    destruct (l_clone_subtree nalloc kclone vclone (bheight m) (bnode m) w) as [[[[[n l]| | | |] d] t] w1]; auto.
  Qed.
  Lemma l_clone_erase (m : bmap) w : no_t (l_clone nalloc kclone vclone m w) = clone nalloc kclone vclone m w.
  Proof. unfold l_clone, clone. rewrite <- l_try_clone_erase. destruct (l_try_clone nalloc kclone vclone m w) as [[[[] d] t] w1]; auto. Qed.

  Theorem lstep_erase (c : op K V Q) s w :
    no_t (lstep nalloc cmp kclone vclone qcmp borrow eqb pcmp c s w) = step nalloc cmp qcmp borrow kclone vclone eqb pcmp c s w.
  Proof.
    destruct c; cbn [lstep]; try (destruct (step nalloc cmp qcmp borrow kclone vclone eqb pcmp _ s w) as [[o s'] w']; reflexivity); cbn [step].
    - unfold l_assign. rewrite <- l_drop_all_erase. destruct (l_drop_all [s r]) as [o d]. reflexivity.
    - rewrite <- l_insert_erase. destruct (l_try_insert nalloc cmp k v (s r) w) as [[[o m] t] w']. reflexivity.
    - rewrite <- l_replace_erase. destruct (l_replace_key nalloc cmp k v (s r) w) as [[[o m] t] w']. reflexivity.
    - unfold l_remove, remove. destruct (remove_entry (look qcmp borrow x) (s r)) as [o m]. reflexivity.
    - destruct (cast (get_mut (look qcmp borrow x) (s r))) as [[a|]| | | |]; auto. destruct (update_at a (write_val f) (s r)); auto.
    - unfold l_assign. rewrite <- l_drop_all_erase. destruct (l_drop_all [s r]) as [o d]. reflexivity.
    - rewrite <- l_append_erase. destruct (l_append nalloc cmp (s r) (s s0) w) as [[[[[o m] m2] mi] w'] x]. cbn [fst]. destruct mi as [mi|]; auto.
      destruct (drop_peekable (mleft mi)) as [[l1 f1]| | | |]; auto. destruct (drop_peekable (mright mi)) as [[l2 f2]| | | |]; auto.
    - destruct (split_off nalloc (look qcmp borrow x) (s r) w) as [[[o m] ds] w']. destruct o; rewrite <- l_drop_all_erase; destruct (l_drop_all _) as [o2 d]; reflexivity.
    - rewrite <- l_try_clone_erase. destruct (l_try_clone nalloc kclone vclone (s r) w) as [[[o ds] t] w']. cbn [no_t]. unfold l_assign.
      destruct o; rewrite <- l_drop_all_erase; destruct (l_drop_all _) as [o2 d]; reflexivity.
    - rewrite <- l_clone_erase. destruct (l_clone nalloc kclone vclone (s r) w) as [[[o ds] t] w']. cbn [no_t]. unfold l_assign.
      destruct o; rewrite <- l_drop_all_erase; destruct (l_drop_all _) as [o2 d]; reflexivity.
    - rewrite <- l_extend_erase. destruct (l_extend nalloc cmp l (s r) w) as [[[o m] t] w']. reflexivity.
    - destruct (map_iter (s r)); auto. destruct (cast (IterSpec.calls _ _ calls a)) as [[outs it]| | | |]; auto.
      rewrite <- l_write_all_erase. destruct (l_write_all (chosen outs ws) (s r)) as [[m|] t]; auto.
    - destruct (map_range qcmp borrow lo hi (s r)); auto. destruct (cast (IterSpec.calls _ _ calls a)) as [[outs it]| | | |]; auto.
      rewrite <- l_write_all_erase. destruct (l_write_all (chosen outs ws) (s r)) as [[m|] t]; auto.
    - destruct (map_into_iter (s r)); auto. destruct (cast (IterSpec.calls _ _ calls a)) as [[outs it]| | | |]; auto.
      destruct (drop_into_iter it) as [[l f]|e| | |]; auto. destruct e.
    - rewrite <- l_entry_erase. destruct (l_try_entry nalloc cmp k (s r) w) as [[[o m1] t] w1]. cbn [no_t]. destruct o as [[hd|k' hd]| | | |]; auto.
      + destruct (and_modify m1 (Occupied hd) f) as [o2 m2]. destruct o2; auto. destruct (or_try_insert_with _ _ _ _ _) as [[o3 m3] w3]. reflexivity.
      + cbn [and_modify or_try_insert_with]. rewrite <- l_vacant_erase. destruct (l_vacant_insert nalloc m1 k' hd v w1) as [[[o3 m3] t3] w3]. reflexivity.
    - rewrite <- l_entry_erase. destruct (l_try_entry nalloc cmp k (s r) w) as [[[o m1] t] w1]. cbn [no_t]. destruct o as [[hd|k' hd]| | | |]; auto.
      destruct (remove_entry_at m1 hd) as [o2 m2]. reflexivity.
  Qed.
End Erase.
