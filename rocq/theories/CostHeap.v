(** * CostHeap: a node never has room for more than 11 keys (C54)

    Every function of HeapModel and HeapMapModel keeps the key arrays at their size, whatever
    the memory looks like: [slim] is kept by each of them. *)
From Coq Require Import List Arith Lia Bool.
From Verif Require Import Base IterSpec BTreeModel BTreeIterModel HeapModel HistoryModel HeapMapModel.
Import ListNotations.
Set Implicit Arguments.

Section Slim.
  Variables (K V : Type).
  Notation kv := (K * V)%type.
  Notation heap := (heap K V).
  Notation HM := (HM K V).
  Notation akeys := (akeys K V).
  Notation avals := (avals K V).
  Notation aedges := (aedges K V).

  Definition thin (c : cell K V) : Prop := length (ckeys c) <= CAPACITY.
  Definition slim (hp : heap) : Prop := forall l c, hget hp l = Some c -> thin c.
  Definition keeps (A : Type) (m : HM A) : Prop := forall hp a hp', slim hp -> m hp = Some (a, hp') -> slim hp'.
  Arguments keeps {A} m.

  Lemma slim_nil : slim [].
  Proof. intros l c. unfold hget. destruct (l =? sroot); cbn; [|discriminate]. intros [= <-]. unfold thin. cbn. lia. Qed.
  Lemma slim_set hp l c : slim hp -> thin c -> slim (hset hp l (Some c)).
  Proof.
    intros H1 H2 l' c'. unfold hget, hset. destruct (l' =? sroot) eqn:E.
    - intros [= <-]. unfold thin. cbn. lia.
    - cbn. destruct (l =? l'); [intros [= <-]; exact H2|]. intros H. apply (H1 l'). unfold hget. now rewrite E.
  Qed.
  Lemma slim_free hp l : slim hp -> slim (hset hp l None).
  Proof.
    intros H1 l' c'. unfold hget, hset. destruct (l' =? sroot) eqn:E.
    - intros [= <-]. unfold thin. cbn. lia.
    - cbn. destruct (l =? l'); [discriminate|]. intros H. apply (H1 l'). unfold hget. now rewrite E.
  Qed.

  Lemma k_ret A (a : A) : keeps (hret a).
  Proof. intros hp b hp' H [= <- <-]. exact H. Qed.
  Lemma k_ub A : keeps (@hub K V A).
  Proof. intros hp b hp' H. discriminate. Qed.
  Lemma k_bind A B (m : HM A) (f : A -> HM B) : keeps m -> (forall a, keeps (f a)) -> keeps (hbind m f).
  Proof. intros H1 H2 hp b hp' H. unfold hbind. destruct (m hp) as [[a hp1]|] eqn:E; [|discriminate]. intros E2. exact (H2 a hp1 b hp' (H1 hp a hp1 H E) E2). Qed.
  Lemma k_check b : keeps (@check K V b).
  Proof. destruct b; [apply k_ret|apply k_ub]. Qed.
  Lemma k_of A (o : option A) : keeps (of_option o).
  Proof. destruct o; [apply k_ret|apply k_ub]. Qed.
  Lemma k_hread l : keeps (hread l).
  Proof. intros hp b hp' H. unfold hread. destruct (hget hp l); [intros [= <- <-]; exact H|discriminate]. Qed.
  Lemma k_free l i : keeps (hfree l i).
  Proof.
    intros hp b hp' H. unfold hfree. destruct (l =? sroot); [discriminate|]. destruct (hget hp l); [|discriminate].
    destruct (eqb _ _); [|discriminate]. intros [= <- <-]. now apply slim_free.
  Qed.
  (** a cell is read, changed without more room for keys, and written *)
  Lemma k_change A l l' (f : cell K V -> HM (A * cell K V)) (g : A * cell K V -> cell K V) : (forall c hp a hp', f c hp = Some (a, hp') -> hp' = hp /\ (thin c -> thin (g a))) ->
    keeps (hbind (hread l) (fun c => hbind (f c) (fun a => hwrite l' (g a)))).
  Proof.
    intros HF hp b hp' H. unfold hbind, hread. destruct (hget hp l) as [c|] eqn:E; [|discriminate].
    destruct (f c hp) as [[a hp1]|] eqn:E1; [|discriminate]. destruct (HF _ _ _ _ E1) as [-> HT]. unfold hwrite.
    destruct (l' =? sroot); [discriminate|]. destruct (hget hp l'); [|discriminate]. intros [= <- <-]. apply slim_set; [exact H|]. apply HT. exact (H l c E).
  Qed.
  Lemma k_write l c : thin c -> keeps (hwrite l c).
  Proof.
    intros T hp b hp' H. unfold hwrite. destruct (l =? sroot); [discriminate|]. destruct (hget hp l); [|discriminate]. intros [= <- <-]. now apply slim_set.
  Qed.
  Lemma k_cell A l (f : cell K V -> HM A) : (forall c, thin c -> keeps (f c)) -> keeps (hbind (hread l) f).
  Proof.
    intros HF hp b hp' H. unfold hbind, hread. destruct (hget hp l) as [c|] eqn:E; [|discriminate]. intros E1. exact (HF c (H l c E) hp b hp' H E1).
  Qed.
  (** the arrays that the functions of HeapModel write: the new one is as long as the old one *)
  Definition tame (A : Type) (f : field K V A) : Prop := forall c a, thin c -> length a = length (aget f c) -> thin (aset f c a).
  Arguments tame {A} f.
  Lemma t_keys : tame akeys.
  Proof. intros c a T L. unfold thin in *. cbn in *. lia. Qed.
  Lemma t_vals : tame avals.
  Proof. intros c a T L. exact T. Qed.
  Lemma t_edges : tame aedges.
  Proof. intros c a T L. exact T. Qed.

  Lemma write_len A (a : slots A) i x a' : arr_write a i x = Some a' -> length a' = length a.
  Proof.
    unfold arr_write. destruct (i <? length a) eqn:E; [|discriminate]. apply Nat.ltb_lt in E. intros [= <-].
    pose proof (firstn_length i a) as L1. pose proof (skipn_length (S i) a) as L2.
    rewrite app_length, L1. change (Nat.min i (length a) + S (length (skipn (S i) a)) = length a). rewrite L2. lia.
  Qed.
  Lemma copy_len A (s d : slots A) i j n a' : arr_copy s i d j n = Some a' -> length a' = length d.
  Proof.
    unfold arr_copy. destruct (_ && _) eqn:E; [|discriminate]. apply andb_prop in E. destruct E as [E1 E2].
    apply Nat.leb_le in E1, E2. intros [= <-]. rewrite !app_length, !firstn_length, !skipn_length. lia.
  Qed.
  Lemma ins_len A (a : slots A) n i x a' : arr_slice_insert a n i x = Some a' -> length a' = length a.
  Proof.
    unfold arr_slice_insert. destruct (i <=? n); [|discriminate]. destruct (arr_copy _ _ _ _ _) eqn:E; [|discriminate].
    intros E1. rewrite (write_len _ _ _ E1). exact (copy_len _ _ _ _ _ E).
  Qed.
  Lemma rem_len A (a : slots A) n i r : arr_slice_remove a n i = Some r -> length (snd r) = length a.
  Proof.
    unfold arr_slice_remove. destruct (i <? n); [|discriminate]. destruct (arr_read a i); [|discriminate]. destruct (arr_copy _ _ _ _ _) eqn:E; [|discriminate].
    intros [= <-]. exact (copy_len _ _ _ _ _ E).
  Qed.
  Lemma k_given A B (o : option A) (f : A -> HM B) : (forall a, o = Some a -> keeps (f a)) -> keeps (hbind (of_option o) f).
  Proof. intros H. destruct o as [a|]; [|intros ? ? ? ?; discriminate]. intros hp b hp' Hs E. exact (H a eq_refl hp b hp' Hs E). Qed.

  Lemma k_aread A (f : field K V A) l i : keeps (a_read f l i).
  Proof. apply k_cell. intros c _. apply k_of. Qed.
  Lemma k_slice A (f : field K V A) l n : keeps (slice f l n).
  Proof. apply k_cell. intros c _. apply k_of. Qed.
  Lemma k_awrite A (f : field K V A) l i x : tame f -> keeps (a_write f l i x).
  Proof. intros T. apply k_cell. intros c Hc. apply k_given. intros a E. apply k_write, T; [exact Hc|]. exact (write_len _ _ _ E). Qed.
  Lemma k_amove A (f : field K V A) l i j n : tame f -> keeps (a_move f l i j n).
  Proof. intros T. apply k_cell. intros c Hc. apply k_given. intros a E. apply k_write, T; [exact Hc|]. exact (copy_len _ _ _ _ _ E). Qed.
  Lemma k_acopy A (f : field K V A) s i d j n : tame f -> keeps (a_copy f s i d j n).
  Proof.
    intros T. apply k_bind; [apply k_check|]. intros _. apply k_cell. intros cs _. apply k_cell. intros c Hc. apply k_given. intros a E. apply k_write, T; [exact Hc|].
    exact (copy_len _ _ _ _ _ E).
  Qed.
  Lemma k_ins A (f : field K V A) l n i x : tame f -> keeps (slice_ins f l n i x).
  Proof. intros T. apply k_cell. intros c Hc. apply k_given. intros a E. apply k_write, T; [exact Hc|]. exact (ins_len _ _ _ _ E). Qed.
  Lemma k_rem A (f : field K V A) l n i : tame f -> keeps (slice_rem f l n i).
  Proof.
    intros T. apply k_cell. intros c Hc. apply k_given. intros a E. apply k_bind; [|intros; apply k_ret].
    apply k_write, T; [exact Hc|]. exact (rem_len _ _ _ E).
  Qed.
  Lemma k_setlen r n : keeps (set_len r n).
  Proof. apply k_cell. intros c Hc. apply k_write. exact Hc. Qed.
  Lemma k_setpar l p i : keeps (set_parent l p i).
  Proof. apply k_cell. intros c Hc. apply k_write. exact Hc. Qed.
  Lemma k_clearpar l : keeps (clear_parent l).
  Proof. apply k_cell. intros c Hc. apply k_write. exact Hc. Qed.

  Create HintDb slim.
  Hint Resolve k_ret k_ub k_check k_of k_hread k_free k_aread k_slice k_awrite k_amove k_acopy k_ins k_rem k_setlen k_setpar k_clearpar t_keys t_vals t_edges : slim.
  Ltac k1 := match goal with
    | |- forall _, _ => intro
    | |- keeps (hbind _ _) => apply k_bind
    | |- keeps (match ?x with _ => _ end) => destruct x
    | |- keeps (let _ := _ in _) => cbv zeta
    | |- keeps (snd (_, _)) => cbn [snd]
    | |- keeps _ => solve [auto with slim]
    end.
  Ltac ks := repeat k1; try solve [auto with slim].

  Lemma k_nlen r : keeps (n_len r). Proof. unfold n_len. ks. Qed.
  Hint Resolve k_nlen : slim.
  Lemma k_lsub r n : keeps (len_sub r n). Proof. unfold len_sub. ks. Qed.
  Lemma k_ladd r n : keeps (len_add r n). Proof. unfold len_add. ks. Qed.
  Lemma k_shared r : keeps (@not_shared K V r). Proof. unfold not_shared. ks. Qed.
  Hint Resolve k_lsub k_ladd k_shared : slim.
  Lemma k_nkeys r : keeps (n_keys r). Proof. unfold n_keys. ks. Qed.
  Lemma k_nvals r : keeps (n_vals r). Proof. unfold n_vals. ks. Qed.
  Lemma k_ascend r : keeps (ascend r). Proof. unfold ascend. ks. Qed.
  Lemma k_nedge r i : keeps (new_edge r i). Proof. unfold new_edge. ks. Qed.
  Lemma k_nkv r i : keeps (new_kv r i). Proof. unfold new_kv. ks. Qed.
  Hint Resolve k_nkeys k_nvals k_ascend k_nedge k_nkv : slim.
  Lemma k_ledge h : keeps (left_edge h). Proof. unfold left_edge. ks. Qed.
  Lemma k_redge h : keeps (right_edge h). Proof. unfold right_edge. ks. Qed.
  Lemma k_fedge h : keeps (first_edge h). Proof. unfold first_edge. ks. Qed.
  Lemma k_laedge h : keeps (last_edge h). Proof. unfold last_edge. ks. Qed.
  Lemma k_fkv h : keeps (first_kv h). Proof. unfold first_kv. ks. Qed.
  Lemma k_lakv h : keeps (last_kv h). Proof. unfold last_kv. ks. Qed.
  Lemma k_lkv h : keeps (left_kv h). Proof. unfold left_kv. ks. Qed.
  Lemma k_rkv h : keeps (right_kv h). Proof. unfold right_kv. ks. Qed.
  Lemma k_desc h : keeps (h_descend h). Proof. unfold h_descend. destruct h. ks. Qed.
  Hint Resolve k_ledge k_redge k_fedge k_laedge k_fkv k_lakv k_lkv k_rkv k_desc : slim.
  Lemma k_link h : keeps (correct_parent_link h). Proof. unfold correct_parent_link. ks. Qed.
  Hint Resolve k_link : slim.
  Lemma k_links r i n : keeps (correct_links r i n). Proof. revert i. induction n; intros; cbn [correct_links]; ks. Qed.
  Hint Resolve k_links : slim.
  Lemma k_alllinks r : keeps (correct_all_links r). Proof. unfold correct_all_links. ks. Qed.
  Hint Resolve k_alllinks : slim.
  Lemma k_lpush r x : keeps (leaf_push r x). Proof. unfold leaf_push. ks. Qed.
  Lemma k_lpushf r x : keeps (leaf_push_front r x). Proof. unfold leaf_push_front. ks. Qed.
  Lemma k_ipush r x e : keeps (internal_push r x e). Proof. unfold internal_push. ks. Qed.
  Lemma k_ipushf r x e : keeps (internal_push_front r x e). Proof. unfold internal_push_front. ks. Qed.
  Lemma k_pop r : keeps (h_pop r). Proof. unfold h_pop. ks. Qed.
  Lemma k_popf r : keeps (h_pop_front r). Proof. unfold h_pop_front. ks. Qed.
  Lemma k_lif r i x : keeps (h_leaf_insert_fit r i x). Proof. unfold h_leaf_insert_fit. ks. Qed.
  Hint Resolve k_lpush k_lpushf k_ipush k_ipushf k_pop k_popf k_lif : slim.
  Lemma k_iif r i x e : keeps (h_internal_insert_fit r i x e). Proof. unfold h_internal_insert_fit. ks. Qed.
  Lemma k_split r i n b : keeps (split_into r i n b). Proof. unfold split_into. ks. Qed.
  Lemma k_lrem h : keeps (h_leaf_remove h). Proof. unfold h_leaf_remove. ks. Qed.
  Lemma k_canm h : keeps (h_can_merge h). Proof. unfold h_can_merge. ks. Qed.
  Lemma k_merge h : keeps (h_merge h). Proof. unfold h_merge. ks. Qed.
  Lemma k_repl h x : keeps (replace_kv h x). Proof. unfold replace_kv. ks. Qed.
  Hint Resolve k_iif k_split k_lrem k_canm k_merge k_repl : slim.
  Lemma k_stl h : keeps (h_steal_left h). Proof. unfold h_steal_left. ks. Qed.
  Lemma k_str h : keeps (h_steal_right h). Proof. unfold h_steal_right. ks. Qed.
  Lemma k_mkv s i d j n : keeps (@move_kv K V s i d j n). Proof. unfold move_kv. ks. Qed.
  Lemma k_medges s i d j n : keeps (@move_edges K V s i d j n). Proof. unfold move_edges. ks. Qed.
  Lemma k_ptrs r : keeps (@kv_pointers K V r). Proof. unfold kv_pointers. ks. Qed.
  Hint Resolve k_stl k_str k_mkv k_medges k_ptrs : slim.
  Lemma k_bsl h n : keeps (@h_bulk_steal_left K V h n). Proof. unfold h_bulk_steal_left. ks. Qed.
  Lemma k_bsr h n : keeps (@h_bulk_steal_right K V h n). Proof. unfold h_bulk_steal_right. ks. Qed.
  Lemma k_suffix l i r : keeps (@h_move_suffix K V l i r). Proof. unfold h_move_suffix. ks. Qed.
  Lemma k_popl r : keeps (@h_pop_level K V r). Proof. unfold h_pop_level. ks. Qed.
  Lemma k_dealloc r b : keeps (@deallocate_and_ascend K V r b). Proof. unfold deallocate_and_ascend. ks. Qed.
  Hint Resolve k_bsl k_bsr k_suffix k_popl k_dealloc : slim.
  Lemma k_fle n : forall r, keeps (@h_first_leaf_edge K V n r). Proof. induction n; intros; cbn [h_first_leaf_edge]; ks. Qed.
  Lemma k_lle n : forall r, keeps (@h_last_leaf_edge K V n r). Proof. induction n; intros; cbn [h_last_leaf_edge]; ks. Qed.
  Lemma k_ikv h : keeps (@h_into_kv K V h). Proof. unfold h_into_kv. ks. Qed.
  Hint Resolve k_fle k_lle k_ikv : slim.
  Lemma k_under r : keeps (@h_handle_underfull K V r). Proof. unfold h_handle_underfull. ks. Qed.
  Hint Resolve k_under : slim.
  Lemma k_fixu n : forall r c, keeps (@h_fix_underflow K V n r c). Proof. induction n; intros; cbn [h_fix_underflow]; ks. Qed.
  Hint Resolve k_fixu : slim.
  Lemma k_remkv r h : keeps (@h_remove_kv K V r h). Proof. unfold h_remove_kv. ks. Qed.
  Hint Resolve k_remkv : slim.
  Lemma k_remat m h : keeps (@h_remove_entry_at K V m h). Proof. unfold h_remove_entry_at. ks. Qed.
  Lemma k_climbr n : forall r, keeps (@h_climb_right K V n r). Proof. induction n; intros; cbn [h_climb_right]; ks. Qed.
  Lemma k_climbl n : forall r, keeps (@h_climb_left K V n r). Proof. induction n; intros; cbn [h_climb_left]; ks. Qed.
  Hint Resolve k_remat k_climbr k_climbl : slim.
  Lemma k_nextu n h : keeps (@h_next_unchecked K V n h). Proof. unfold h_next_unchecked. ks. Qed.
  Lemma k_nextbu n h : keeps (@h_next_back_unchecked K V n h). Proof. unfold h_next_back_unchecked. ks. Qed.
  Hint Resolve k_nextu k_nextbu : slim.
  Lemma k_intoit m : keeps (@h_into_iter K V m). Proof. unfold h_into_iter. ks. Qed.
  Lemma k_freer n : forall r b, keeps (@h_free_right K V n r b). Proof. induction n; intros; cbn [h_free_right]; ks. Qed.
  Lemma k_freel n : forall r b, keeps (@h_free_left K V n r b). Proof. induction n; intros; cbn [h_free_left]; ks. Qed.
  Hint Resolve k_intoit k_freer k_freel : slim.
  Lemma k_inton n i : keeps (@h_into_next K V n i). Proof. unfold h_into_next. ks. Qed.
  Lemma k_intonb n i : keeps (@h_into_next_back K V n i). Proof. unfold h_into_next_back. ks. Qed.
  Hint Resolve k_inton k_intonb : slim.
  Lemma k_drain f n : forall i, keeps (@h_drain K V f n i). Proof. induction n; intros; cbn [h_drain]; ks. Qed.
  Lemma k_spine n : forall r b, keeps (@h_free_spine K V n r b). Proof. induction n; intros; cbn [h_free_spine]; ks. Qed.
  Hint Resolve k_drain k_spine : slim.
  Lemma k_dropi n i : keeps (@h_drop_into_iter K V n i). Proof. unfold h_drop_into_iter. ks. Qed.
  Hint Resolve k_dropi : slim.
  Lemma k_drop m : keeps (@h_drop K V m). Proof. unfold h_drop. ks. Qed.
  Lemma k_kvmut h : keeps (@h_kv_mut K V h). Proof. unfold h_kv_mut. ks. Qed.
  Lemma k_rwrite a f : keeps (@ref_write K V a f). Proof. unfold ref_write. ks. Qed.
  Lemma k_rwritek a k : keeps (@ref_write_key K V a k). Proof. unfold ref_write_key. ks. Qed.
  Hint Resolve k_drop k_kvmut k_rwrite k_rwritek : slim.
  Lemma k_occ h v : keeps (@h_occupied_insert K V h v). Proof. unfold h_occupied_insert. ks. Qed.
  Lemma k_iter m : keeps (@h_iter K V m). Proof. unfold h_iter. ks. Qed.
  Lemma k_inext f i : keeps (@h_iter_next K V f i). Proof. unfold h_iter_next. ks. Qed.
  Hint Resolve k_occ k_iter k_inext : slim.
  Lemma k_peek p : keeps (@h_peek K V p). Proof. unfold h_peek. ks. Qed.
  Lemma k_pnext p : keeps (@h_pnext K V p). Proof. unfold h_pnext. ks. Qed.
  Hint Resolve k_peek k_pnext : slim.

  Lemma k_dropm mi : keeps (@h_drop_merge K V mi). Proof. unfold h_drop_merge, h_drop_peekable. ks. Qed.
  Lemma k_fre n : forall r, keeps (@h_fix_right_edge K V n r). Proof. induction n; intros; cbn [h_fix_right_edge]; ks. Qed.
  Lemma k_ftop n : forall r, keeps (@h_fix_top K V n r). Proof. induction n; intros; cbn [h_fix_top]; ks. Qed.
  Lemma k_frl n : forall r, keeps (@h_fix_right_loop K V n r). Proof. induction n; intros; cbn [h_fix_right_loop]; ks. Qed.
  Lemma k_fll n : forall r, keeps (@h_fix_left_loop K V n r). Proof. induction n; intros; cbn [h_fix_left_loop]; ks. Qed.
  Hint Resolve k_dropm k_fre k_ftop k_frl k_fll : slim.
  Lemma k_fixb loop r : (forall n r, keeps (loop n r)) -> keeps (@h_fix_border K V loop r). Proof. intros. unfold h_fix_border. ks. Qed.
  Lemma k_dfse sub : (forall r, keeps (sub r)) -> forall n e x, keeps (@h_dfs_edges K V sub n e x). Proof. intros H. induction n; intros; cbn [h_dfs_edges]; ks. Qed.
  Hint Resolve k_fixb k_dfse : slim.
  Lemma k_dfs n : forall r, keeps (@h_dfs K V n r). Proof. induction n; intros; cbn [h_dfs]; ks. Qed.
  Lemma k_rnext f r : keeps (@h_range_next K V f r). Proof. unfold h_range_next. ks. Qed.
  Lemma k_rnextb f r : keeps (@h_range_next_back K V f r). Proof. unfold h_range_next_back. ks. Qed.
  Lemma k_inextb f i : keeps (@h_iter_next_back K V f i). Proof. unfold h_iter_next_back. ks. Qed.
  Hint Resolve k_dfs k_rnext k_rnextb k_inextb : slim.
  Lemma k_calls S A (n b : S -> HM (option A * S)) cs : (forall s, keeps (n s)) -> (forall s, keeps (b s)) -> forall s, keeps (hcalls n b cs s).
  Proof. intros H1 H2. induction cs as [|[] cs IH]; intros; cbn [hcalls]; ks. Qed.
  Lemma k_wall l : keeps (@ref_write_all K V l). Proof. induction l as [|[a f] l IH]; cbn [ref_write_all]; ks. Qed.
  Lemma k_modify en f : keeps (@h_and_modify K V en f). Proof. unfold h_and_modify. ks. Qed.

  Lemma thin_fresh b : thin (fresh_cell K V b).
  Proof. unfold thin, fresh_cell. cbn [ckeys]. rewrite repeat_length. lia. Qed.

  (** the key slice of a node *)
  Lemma init_len A (a : slots A) n l : arr_init a n = Some l -> length l = n /\ n <= length a.
  Proof.
    revert a l. induction n as [|n IH]; intros [|[x|] a] l; cbn [arr_init]; try discriminate; try (intros [= <-]; cbn; lia).
    destruct (arr_init a n) eqn:E; [|discriminate]. cbn. intros [= <-]. destruct (IH _ _ E). cbn. lia.
  Qed.
  Lemma keys_len r hp l hp' : slim hp -> n_keys r hp = Some (l, hp') -> length l <= CAPACITY /\ hp' = hp.
  Proof.
    intros H. unfold n_keys, n_len, slice, hbind, hread, hret, of_option, hub. destruct (hget hp (rl r)) as [c|] eqn:E; [|discriminate]. rewrite E.
    cbn [aget HeapModel.akeys]. destruct (arr_init (ckeys c) (clen c)) eqn:E1; [|discriminate]. intros [= <- <-].
    destruct (init_len _ _ E1). specialize (H _ _ E). unfold thin in H. split; [lia|reflexivity].
  Qed.
End Slim.
Create HintDb slim.
#[global] Hint Resolve k_ret k_ub k_check k_of k_hread k_free k_aread k_slice k_awrite k_amove k_acopy k_ins k_rem k_setlen k_setpar k_clearpar t_keys t_vals t_edges
  k_nlen k_lsub k_ladd k_shared k_nkeys k_nvals k_ascend k_nedge k_nkv k_ledge k_redge k_fedge k_laedge k_fkv k_lakv k_lkv k_rkv k_desc k_link k_links k_alllinks
  k_lpush k_lpushf k_ipush k_ipushf k_pop k_popf k_lif k_iif k_split k_lrem k_canm k_merge k_repl k_stl k_str k_mkv k_medges k_ptrs k_bsl k_bsr k_suffix k_popl k_dealloc
  k_fle k_lle k_ikv k_under k_fixu k_remkv k_remat k_climbr k_climbl k_nextu k_nextbu k_intoit k_freer k_freel k_inton k_intonb k_drain k_spine k_dropi k_drop k_kvmut
  k_rwrite k_rwritek k_occ k_iter k_inext k_peek k_pnext k_dropm k_fre k_ftop k_frl k_fll k_fixb k_dfse k_dfs k_rnext k_rnextb k_inextb k_calls k_wall k_modify : slim.
Ltac k1 := match goal with
  | |- forall _, _ => intro
  | |- keeps (hbind _ _) => apply k_bind
  | |- keeps (match ?x with _ => _ end) => destruct x
  | |- keeps (let _ := _ in _) => cbv zeta
  | |- keeps _ => solve [auto with slim]
  end.
Ltac ks := repeat k1; try solve [auto with slim].
