(** * FrameProofs: which functions write nothing, and which write values only -
    on any heap, in order or not. *)
From Coq Require Import List Arith Lia Bool.
From Verif Require Import Base IterSpec BTreeModel BTreeIterModel HeapModel HistoryModel HeapMapModel HostileModel HistorySpec HeapSpec ContainSpec FrameSpec.
Import ListNotations.
Set Implicit Arguments.

Section Quiet.
  Variables (K V W : Type).
  Notation kv := (K * V)%type.
  Notation heap := (heap K V).
  Notation HM := (HM K V).
  Notation AM := (AM K V W).
  Implicit Types (hp : heap).

  (** ** Functions on the heap *)
  Section Rel.
    Variable R : heap -> heap -> Prop.
    Hypothesis Rr : forall hp, R hp hp.
    Hypothesis Rt : forall a b c, R a b -> R b c -> R a c.
    Definition keeps_ A (m : HM A) : Prop := forall hp x hp', m hp = Some (x, hp') -> R hp hp'.
    Definition akeeps_ A (m : AM A) : Prop := forall hp w, R hp (snd (fst (m hp w))).
    Lemma k_ret A (a : A) : keeps_ (@hret K V A a).
    Proof using Rr. intros hp x hp' E. unfold hret in E. injection E as <- <-. apply Rr. Qed.
    Lemma k_ub A : keeps_ (@hub K V A).
    Proof using. intros hp x hp' E. discriminate E. Qed.
    Lemma k_bind A B (m : HM A) (f : A -> HM B) : keeps_ m -> (forall a, keeps_ (f a)) -> keeps_ (hbind m f).
    Proof using Rt. intros H1 H2 hp x hp' E. unfold hbind in E. destruct (m hp) as [[a hp1]|] eqn:Em; [|discriminate E]. eapply Rt; [eapply H1; eauto|eapply H2; eauto]. Qed.
    Lemma k_check b : keeps_ (@check K V b).
    Proof using Rr. unfold check. destruct b; [apply k_ret|apply k_ub]. Qed.
    Lemma k_opt A (o : option A) : keeps_ (@of_option K V A o).
    Proof using Rr. destruct o; [apply k_ret|apply k_ub]. Qed.
    Lemma k_read l : keeps_ (@hread K V l).
    Proof using Rr. intros hp x hp' E. unfold hread in E. destruct (hget hp l); [|discriminate E]. injection E as _ <-. apply Rr. Qed.

    Lemma a_ret A (a : A) : akeeps_ (@aret K V W A a).
    Proof using Rr. intros hp w. apply Rr. Qed.
    Lemma a_ub A : akeeps_ (@aub K V W A).
    Proof using Rr. intros hp w. apply Rr. Qed.
    Lemma a_panic A : akeeps_ (fun hp w => (@Panic reserve_error A, hp, w)).
    Proof using Rr. intros hp w. apply Rr. Qed.
    Lemma a_ask A (q : asks W A) : akeeps_ (ask (K:=K) (V:=V) q).
    Proof using Rr. intros hp w. unfold ask. destruct (q w) as [[a|] w']; apply Rr. Qed.
    Lemma a_lift A (m : HM A) : keeps_ m -> akeeps_ (@lift K V W A m).
    Proof using Rr. intros H hp w. unfold lift. destruct (m hp) as [[a hp']|] eqn:E; [eapply H; eauto|apply Rr]. Qed.
    Lemma a_bind A B (m : AM A) (f : A -> AM B) : akeeps_ m -> (forall a, akeeps_ (f a)) -> akeeps_ (abind m f).
    Proof using Rt.
      intros H1 H2 hp w. unfold abind. specialize (H1 hp w). destruct (m hp w) as [[o hp1] w1]. cbn [fst snd] in H1.
      destruct o; try exact H1. eapply Rt; [exact H1|apply H2].
    Qed.
  End Rel.
  Lemma keeps_weak (R R' : heap -> heap -> Prop) A (m : HM A) : (forall a b, R a b -> R' a b) -> keeps_ R m -> keeps_ R' m.
  Proof. intros H Hm hp x hp' E. eapply H, Hm, E. Qed.
  Lemma akeeps_weak (R R' : heap -> heap -> Prop) A (m : AM A) : (forall a b, R a b -> R' a b) -> akeeps_ R m -> akeeps_ R' m.
  Proof. intros H Hm hp w. apply H, Hm. Qed.

  (** nothing at all is written *)
  Definition eqh (a b : heap) : Prop := b = a.
  Lemma eqh_r hp : eqh hp hp. Proof. reflexivity. Qed.
  Lemma eqh_t a b c : eqh a b -> eqh b c -> eqh a c. Proof. unfold eqh. congruence. Qed.
  Notation quiet := (keeps_ eqh).
  Notation aquiet := (akeeps_ eqh).

  Ltac q1 := first
    [ apply k_ret; exact eqh_r | apply k_ub | apply k_check; exact eqh_r | apply k_opt; exact eqh_r | apply k_read; exact eqh_r
    | apply k_bind; [exact eqh_t| |intros ?]
    | match goal with
      | |- keeps_ _ (match ?x with _ => _ end) => destruct x
      | |- keeps_ _ (let '(_, _) := ?x in _) => destruct x
      end ].
  Ltac q := repeat q1; eauto.

  Lemma q_a_read A (f : field K V A) l i : quiet (a_read f l i). Proof. unfold a_read. q. Qed.
  Lemma q_slice A (f : field K V A) l n : quiet (slice f l n). Proof. unfold slice. q. Qed.
  Lemma q_len r : quiet (@n_len K V r). Proof. unfold n_len. q. Qed.
  Hint Resolve q_a_read q_slice q_len : core.
  Lemma q_keys r : quiet (@n_keys K V r). Proof. unfold n_keys. q. Qed.
  Lemma q_shared r : quiet (@not_shared K V r). Proof. unfold not_shared. q. Qed.
  Hint Resolve q_keys q_shared : core.
  Lemma q_vals r : quiet (@n_vals K V r). Proof. unfold n_vals. q. Qed.
  Lemma q_ascend r : quiet (@ascend K V r). Proof. unfold ascend. q. Qed.
  Lemma q_new_edge r i : quiet (@new_edge K V r i). Proof. unfold new_edge. q. Qed.
  Lemma q_new_kv r i : quiet (@new_kv K V r i). Proof. unfold new_kv. q. Qed.
  Hint Resolve q_vals q_ascend q_new_edge q_new_kv : core.
  Lemma q_left_edge h : quiet (@left_edge K V h). Proof. unfold left_edge. q. Qed.
  Lemma q_right_edge h : quiet (@right_edge K V h). Proof. unfold right_edge. q. Qed.
  Lemma q_first_edge r : quiet (@first_edge K V r). Proof. unfold first_edge. q. Qed.
  Lemma q_last_edge r : quiet (@last_edge K V r). Proof. unfold last_edge. q. Qed.
  Lemma q_left_kv h : quiet (@left_kv K V h). Proof. unfold left_kv. q. Qed.
  Lemma q_right_kv h : quiet (@right_kv K V h). Proof. unfold right_kv. q. Qed.
  Lemma q_descend h : quiet (@h_descend K V h). Proof. unfold h_descend. q. Qed.
  Hint Resolve q_left_edge q_right_edge q_first_edge q_last_edge q_left_kv q_right_kv q_descend : core.
  Lemma q_first_leaf fuel : forall r, quiet (@h_first_leaf_edge K V fuel r).
  Proof. induction fuel as [|fuel IH]; intros r; cbn [h_first_leaf_edge]; q. Qed.
  Lemma q_last_leaf fuel : forall r, quiet (@h_last_leaf_edge K V fuel r).
  Proof. induction fuel as [|fuel IH]; intros r; cbn [h_last_leaf_edge]; q. Qed.
  Lemma q_into_kv h : quiet (@h_into_kv K V h). Proof. unfold h_into_kv. q. Qed.
  Lemma q_kv_mut h : quiet (@h_kv_mut K V h). Proof. unfold h_kv_mut. q. Qed.
  Hint Resolve q_first_leaf q_last_leaf q_into_kv q_kv_mut : core.
  Lemma q_climb_right fuel : forall r, quiet (@h_climb_right K V fuel r).
  Proof. induction fuel as [|fuel IH]; intros r; cbn [h_climb_right]; q. Qed.
  Lemma q_climb_left fuel : forall r, quiet (@h_climb_left K V fuel r).
  Proof. induction fuel as [|fuel IH]; intros r; cbn [h_climb_left]; q. Qed.
  Hint Resolve q_climb_right q_climb_left : core.
  Lemma q_next fuel h : quiet (@h_next_unchecked K V fuel h). Proof. unfold h_next_unchecked. q. Qed.
  Lemma q_next_back fuel h : quiet (@h_next_back_unchecked K V fuel h). Proof. unfold h_next_back_unchecked. q. Qed.
  Hint Resolve q_next q_next_back : core.
  Lemma q_range_next fuel r : quiet (@h_range_next K V fuel r). Proof. unfold h_range_next. q. Qed.
  Lemma q_range_next_back fuel r : quiet (@h_range_next_back K V fuel r). Proof. unfold h_range_next_back. q. Qed.
  Lemma q_iter m : quiet (@h_iter K V m). Proof. unfold h_iter. q. Qed.
  Lemma q_iter_next fuel it : quiet (@h_iter_next K V fuel it). Proof. unfold h_iter_next. q. Qed.
  Lemma q_iter_next_back fuel it : quiet (@h_iter_next_back K V fuel it). Proof. unfold h_iter_next_back. q. Qed.
  Hint Resolve q_range_next q_range_next_back q_iter q_iter_next q_iter_next_back : core.
  Lemma q_hcalls S A (next next_back : S -> HM (option A * S)) : (forall s, quiet (next s)) -> (forall s, quiet (next_back s)) ->
    forall cs s, quiet (hcalls next next_back cs s).
  Proof. intros H1 H2. induction cs as [|e cs IH]; intros s; cbn [hcalls]; q. Qed.
  Hint Resolve q_hcalls : core.

  (** ** Functions that call comparisons *)
  Ltac aq1 := first
    [ apply a_ret; exact eqh_r | apply a_ub; exact eqh_r | apply a_panic; exact eqh_r | apply a_ask; exact eqh_r
    | apply a_lift; [exact eqh_r|solve [q]]
    | apply a_bind; [exact eqh_t| |intros ?]
    | match goal with
      | |- akeeps_ _ (match ?x with _ => _ end) => destruct x
      | |- akeeps_ _ (let '(_, _) := ?x in _) => destruct x
      end ].
  Ltac aq := repeat aq1; eauto.
  Lemma aq_linear q l : aquiet (@hx_linear K V W q l).
  Proof. induction l as [|k l IH]; cbn [hx_linear]; aq. Qed.
  Hint Resolve aq_linear : core.
  Lemma aq_search_linear q r : aquiet (@hx_search_linear K V W q r). Proof. unfold hx_search_linear. aq. Qed.
  Hint Resolve aq_search_linear : core.
  Lemma aq_search_tree fuel : forall q r, aquiet (@hx_search_tree K V W fuel q r).
  Proof. induction fuel as [|fuel IH]; intros q r; cbn [hx_search_tree]; aq. Qed.
  Hint Resolve aq_search_tree : core.
  Lemma aq_get q m : aquiet (@hx_get_key_value K V W q m). Proof. unfold hx_get_key_value, hx_search. aq. Qed.
  Lemma aq_get_mut q m : aquiet (@hx_get_mut K V W q m). Proof. unfold hx_get_mut, hx_search. aq. Qed.
  Section Range.
    Variables (Q : Type) (qcmp : Q -> K -> asks W comparison) (qeq qgt : Q -> Q -> asks W bool) (view : bound_ Q -> asks W (bound_ Q)).
    Lemma aq_bad lo hi : aquiet (@hx_bad K V W Q qeq qgt view lo hi). Proof. unfold hx_bad. aq. Qed.
    Lemma aq_min b lo r : aquiet (@hx_min_edge K V W Q qcmp view b lo r). Proof. unfold hx_min_edge. aq. Qed.
    Lemma aq_max b hi r : aquiet (@hx_max_edge K V W Q qcmp view b hi r). Proof. unfold hx_max_edge. aq. Qed.
    Hint Resolve aq_bad aq_min aq_max : core.
    Lemma aq_loop fuel : forall lo hi a b x y d, aquiet (@hx_range_loop K V W Q qcmp view fuel lo hi a b x y d).
    Proof. induction fuel as [|fuel IH]; intros lo hi a b x y d; cbn [hx_range_loop]; aq. Qed.
    Hint Resolve aq_loop : core.
    Lemma aq_range lo hi m : aquiet (@hx_range K V W Q qcmp qeq qgt view lo hi m). Proof. unfold hx_range. aq. Qed.
  End Range.
  Lemma aq_zip eqb fa fb fuel : forall a b, aquiet (@hx_zip_all K V W eqb fa fb fuel a b).
  Proof. induction fuel as [|fuel IH]; intros a b; cbn [hx_zip_all]; aq. Qed.
  Hint Resolve aq_zip : core.
  Lemma aq_eq eqb m1 m2 : aquiet (@hx_eq K V W eqb m1 m2). Proof. unfold hx_eq. aq. Qed.
  Lemma aq_iter_cmp c fa fb fuel : forall a b, aquiet (@hx_iter_cmp K V W c fa fb fuel a b).
  Proof. induction fuel as [|fuel IH]; intros a b; cbn [hx_iter_cmp]; aq. Qed.
  Hint Resolve aq_iter_cmp : core.
  Lemma aq_cmp c m1 m2 : aquiet (@hx_cmp K V W c m1 m2). Proof. unfold hx_cmp. aq. Qed.

  (** ** Values *)
  Notation only_values := (@only_values K V).
  Lemma ov_r hp : only_values hp hp.
  Proof. intros l. destruct (hget hp l); [|exact I]. unfold same_but_values. intuition. Qed.
  Lemma ov_t a b c : only_values a b -> only_values b c -> only_values a c.
  Proof.
    intros H1 H2 l. specialize (H1 l). specialize (H2 l). destruct (hget a l), (hget b l), (hget c l); try contradiction; auto.
    unfold same_but_values in *. intuition congruence.
  Qed.
  Lemma ov_eqh a b : eqh a b -> only_values a b. Proof. unfold eqh. intros ->. apply ov_r. Qed.
  Lemma hget_set hp l c l' : l <> sroot -> hget (hset hp l c) l' = if l' =? l then c else hget hp l'.
  Proof.
    intros N. unfold hget, hset. cbn [hfind]. destruct (Nat.eqb_spec l' sroot) as [->|E].
    - destruct (Nat.eqb_spec sroot l); [congruence|reflexivity].
    - rewrite (Nat.eqb_sym l l'). reflexivity.
  Qed.
  Lemma ov_write a f : keeps_ only_values (@ref_write K V a f).
  Proof.
    intros hp x hp' E. unfold ref_write, a_read, a_write, hbind, hread, of_option, hwrite, hret in E.
    destruct (hget hp (fst a)) as [c|] eqn:Eg; [|discriminate E]. cbn [avals aget aset] in E.
    destruct (arr_read (cvals c) (snd a)) as [v|] eqn:Ev; [|discriminate E]. cbn in E. rewrite Eg in E.
    destruct (arr_write (cvals c) (snd a) (f v)) as [vs|] eqn:Ew; [|discriminate E]. cbn in E.
    destruct (Nat.eqb_spec (fst a) sroot) as [|N]; [discriminate E|]. rewrite Eg in E. injection E as _ <-.
    intros l. rewrite hget_set by exact N. destruct (Nat.eqb_spec l (fst a)) as [->|Ne].
    - rewrite Eg. unfold same_but_values. cbn. repeat (split; [reflexivity|]).
      unfold arr_read in Ev. destruct (nth_error (cvals c) (snd a)) as [[v'|]|] eqn:En; try discriminate Ev.
      unfold arr_write in Ew. destruct (Nat.ltb_spec (snd a) (length (cvals c))) as [Hl|]; [|discriminate Ew]. injection Ew as <-.
      transitivity (map (@full V) (firstn (snd a) (cvals c) ++ Some v' :: skipn (S (snd a)) (cvals c))).
      { now rewrite !map_app. }
      f_equal. clear - En. revert En. generalize (snd a) as i, (cvals c) as l. intros i. induction i as [|i IH]; intros [|y l] En; cbn in *; try discriminate En.
      + injection En as ->. reflexivity.
      + f_equal. now apply IH.
    - specialize (ov_r hp l). auto.
  Qed.
  Lemma ov_write_all l : keeps_ only_values (@ref_write_all K V l).
  Proof.
    induction l as [|[a f] l IH]; cbn [ref_write_all]; [apply k_ret; exact ov_r|]. apply k_bind; [exact ov_t|apply ov_write|intros _; exact IH].
  Qed.
End Quiet.
