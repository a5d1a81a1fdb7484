(** * HostilePure: with comparisons that are functions of their arguments,
    HostileModel is HeapMapModel. *)
From Coq Require Import List Arith Lia Bool.
From Verif Require Import Base MapSpec IterSpec BTreeModel BTreeIterModel HeapModel HistoryModel HistorySpec HeapMapModel HeapSpec HostileModel.
Import ListNotations.
Set Implicit Arguments.
Unset Strict Implicit.

(** an answer that depends on nothing else, and does nothing else *)
Definition tells {W A : Type} (a : A) : asks W A := fun w => (Some a, w).
(** [a == b] and [a > b] of an order *)
Definition same_ (c : comparison) : bool := match c with Eq => true | _ => false end.
Definition more_ (c : comparison) : bool := match c with Gt => true | _ => false end.

Section Pure.
  Variables (K V W : Type).
  Notation kv := (K * V)%type.
  Notation heap := (heap K V).
  Notation HM := (HM K V).
  Notation AM := (AM K V W).
  Notation hret := (@hret K V _).
  Notation "x <~ m ;~ k" := (hbind m (fun x => k)) (at level 80, m at level 79, right associativity).
  Notation "x <- m ;- k" := (abind m (fun x => k)) (at level 80, m at level 79, right associativity).

  (** [m2] does what [m1] does, when [m1] is defined *)
  Definition agree {A} (m1 : HM A) (m2 : AM A) : Prop :=
    forall hp w a hp', m1 hp = Some (a, hp') -> m2 hp w = (Ret a, hp', w).

  Lemma agree_ret A (a : A) : agree (hret a) (@aret K V W _ a).
  Proof. intros hp w b hp' E. injection E as <- <-. reflexivity. Qed.
  Lemma agree_lift A (m : HM A) : agree m (@lift K V W _ m).
  Proof. intros hp w a hp' E. unfold lift. now rewrite E. Qed.
  Lemma agree_bind A C (m1 : HM A) (m2 : AM A) (f1 : A -> HM C) (f2 : A -> AM C) :
    agree m1 m2 -> (forall a, agree (f1 a) (f2 a)) -> agree (hbind m1 f1) (abind m2 f2).
  Proof.
    intros H1 H2 hp w a hp' E. unfold hbind in E. destruct (m1 hp) as [[b hp1]|] eqn:E1; [|discriminate].
    unfold abind. rewrite (H1 _ _ _ _ E1). exact (H2 _ _ _ _ _ E).
  Qed.
  Lemma agree_lifted A C (m1 : HM A) (f1 : A -> HM C) (f2 : A -> AM C) :
    (forall a, agree (f1 a) (f2 a)) -> agree (hbind m1 f1) (abind (@lift K V W _ m1) f2).
  Proof. apply agree_bind, agree_lift. Qed.
  Lemma agree_told A C (a : A) (m1 : HM C) (f2 : A -> AM C) : agree m1 (f2 a) -> agree m1 (abind (ask (K := K) (V := V) (tells a)) f2).
  Proof. intros H hp w c hp' E. exact (H _ _ _ _ E). Qed.
  Lemma agree_tells A (a : A) : agree (hret a) (ask (K := K) (V := V) (@tells W A a)).
  Proof. intros hp w b hp' E. injection E as <- <-. reflexivity. Qed.
  Lemma agree_hub A (m : AM A) : agree (@hub K V A) m.
  Proof. intros hp w a hp' E. discriminate E. Qed.
  Ltac ag := repeat first
    [ apply agree_ret | apply agree_hub | apply agree_told | apply agree_tells | apply agree_lift
    | apply agree_lifted; intros ? | apply agree_bind; [|intros ?] ].

  (** ** search.rs *)
  Lemma linear_pure (q : K -> comparison) l : agree (hret (key_linear q l)) (hx_linear (V := V) (fun k => @tells W _ (q k)) l).
  Proof.
    induction l as [|k l IH]; cbn [key_linear hx_linear]; [ag|]. apply agree_told. destruct (q k); [ag|ag|].
    intros hp w a hp' E. injection E as <- <-. unfold abind. rewrite (IH hp w _ hp eq_refl). destruct (key_linear q l). reflexivity.
  Qed.
  Lemma search_linear_pure (q : K -> comparison) r : agree (h_search_linear (V := V) q r) (hx_search_linear (V := V) (fun k => @tells W _ (q k)) r).
  Proof. unfold h_search_linear, hx_search_linear. apply agree_lifted. intros ks. apply linear_pure. Qed.
  Lemma search_tree_pure (q : K -> comparison) n : forall r, agree (h_search_tree (V := V) n q r) (hx_search_tree (V := V) n (fun k => @tells W _ (q k)) r).
  Proof.
    induction n as [|n IH]; intros r; cbn [h_search_tree hx_search_tree]; [ag|].
    apply agree_bind; [apply search_linear_pure|]. intros s. destruct (snd s); [ag|]. apply agree_lifted. intros e.
    destruct (rh r); [ag|]. apply agree_lifted. intros c. apply IH.
  Qed.
  Lemma get_key_value_pure (q : K -> comparison) m : agree (h_get_key_value (V := V) q m) (hx_get_key_value (V := V) (fun k => @tells W _ (q k)) m).
  Proof.
    unfold h_get_key_value, hx_get_key_value, hx_search. apply agree_bind; [apply search_tree_pure|]. intros [h|h]; ag.
  Qed.
  Lemma get_mut_pure (q : K -> comparison) m : agree (h_get_mut (V := V) q m) (hx_get_mut (V := V) (fun k => @tells W _ (q k)) m).
  Proof. unfold h_get_mut, hx_get_mut, hx_search. apply agree_bind; [apply search_tree_pure|]. intros [h|h]; ag. Qed.
  Lemma remove_entry_pure (q : K -> comparison) m : agree (h_remove_entry (V := V) q m) (hx_remove_entry (V := V) (fun k => @tells W _ (q k)) m).
  Proof. unfold h_remove_entry, hx_remove_entry, hx_search. apply agree_bind; [apply search_tree_pure|]. intros [h|h]; ag. Qed.

  (** ** range_search *)
  Section Range.
    Variables (Q : Type) (qcmp : Q -> Q -> comparison) (borrow : K -> Q).
    Notation ask_q := (fun x k => @tells W _ (qcmp x (borrow k))).
    Notation ask_eq := (fun x y => @tells W _ (same_ (qcmp x y))).
    Notation ask_gt := (fun x y => @tells W _ (more_ (qcmp x y))).
    Notation ask_view := (fun b : bound_ Q => @tells W _ b).
    (** [Panic] is returned as a value by HeapMapModel *)
    Definition agree_out {A} (m1 : HM (outcome Empty_set A)) (m2 : AM A) : Prop :=
      forall hp w o hp', m1 hp = Some (o, hp') ->
        match o with Ret a => m2 hp w = (Ret a, hp', w) | Panic => m2 hp w = (Panic, hp', w) | _ => False end.
    Lemma out_bind A C (m1 : HM A) (m2 : AM A) (f1 : A -> HM (outcome Empty_set C)) (f2 : A -> AM C) :
      agree m1 m2 -> (forall a, agree_out (f1 a) (f2 a)) -> agree_out (hbind m1 f1) (abind m2 f2).
    Proof.
      intros H1 H2 hp w o hp' E. unfold hbind in E. destruct (m1 hp) as [[b hp1]|] eqn:E1; [|discriminate].
      unfold abind. rewrite (H1 _ _ _ _ E1). exact (H2 _ _ _ _ _ E).
    Qed.
    Lemma out_ret A (a : A) : agree_out (hret (Ret a)) (@aret K V W _ a).
    Proof. intros hp w o hp' E. injection E as <- <-. reflexivity. Qed.
    Lemma out_panic A : agree_out (hret (Panic (A := A))) (fun hp w => (Panic, hp, w)).
    Proof. intros hp w o hp' E. injection E as <- <-. reflexivity. Qed.
    Lemma out_hub A (m : AM A) : agree_out (@hub K V _) m.
    Proof. intros hp w a hp' E. discriminate E. Qed.

    Lemma bad_pure lo hi : agree (hret (bad_range qcmp lo hi)) (hx_bad (K := K) (V := V) ask_eq ask_gt ask_view lo hi).
    Proof.
      unfold hx_bad, bad_range. do 2 apply agree_told. destruct lo as [x|x|], hi as [y|y|]; ag.
      unfold same_, more_. destruct (qcmp x y); ag.
    Qed.
    Lemma min_edge_pure found lo r : agree (h_min_edge qcmp borrow found lo r) (hx_min_edge (V := V) ask_q ask_view found lo r).
    Proof.
      unfold h_min_edge, hx_min_edge. apply agree_told. destruct found, lo; repeat first [apply search_linear_pure | apply agree_bind; [apply search_linear_pure|intros ?]]; ag.
    Qed.
    Lemma max_edge_pure found hi r : agree (h_max_edge qcmp borrow found hi r) (hx_max_edge (V := V) ask_q ask_view found hi r).
    Proof.
      unfold h_max_edge, hx_max_edge. apply agree_told. destruct found, hi; repeat first [apply search_linear_pure | apply agree_bind; [apply search_linear_pure|intros ?]]; ag.
    Qed.
    Lemma range_loop_pure n : forall lo hi minr maxr minf maxf d,
      agree_out (h_range_loop qcmp borrow n lo hi minr maxr minf maxf d) (hx_range_loop (V := V) ask_q ask_view n lo hi minr maxr minf maxf d).
    Proof.
      induction n as [|n IH]; intros; cbn [h_range_loop hx_range_loop]; [apply out_hub|].
      apply out_bind; [apply min_edge_pure|intros a]. apply out_bind; [apply max_edge_pure|intros b].
      destruct (negb d && (fst b <? fst a)); [apply out_panic|]. cbv zeta.
      apply out_bind; [apply agree_lift|intros f]. apply out_bind; [apply agree_lift|intros g].
      destruct (rh minr), (rh maxr); [apply out_ret|apply out_hub|apply out_hub|].
      apply out_bind; [apply agree_lift|intros c']. apply out_bind; [apply agree_lift|intros d']. apply IH.
    Qed.
    Lemma range_pure lo hi m : agree_out (h_range qcmp borrow lo hi m) (hx_range (V := V) ask_q ask_eq ask_gt ask_view lo hi m).
    Proof.
      intros hp w o hp' E. unfold hx_range, abind. rewrite (@bad_pure lo hi hp w (bad_range qcmp lo hi) hp eq_refl).
      unfold h_range in E. destruct (bad_range qcmp lo hi); [exact (out_panic w E)|exact (range_loop_pure w E)].
    Qed.
  End Range.

  (** ** split_off, comparison of maps *)
  Lemma split_loop_pure (q : K -> comparison) n : forall l r, agree (h_split_loop (V := V) n q l r) (hx_split_loop (V := V) n (fun k => @tells W _ (q k)) l r).
  Proof.
    induction n as [|n IH]; intros l r; cbn [h_split_loop hx_split_loop]; [ag|].
    apply agree_bind; [apply search_linear_pure|intros s]. apply agree_lifted. intros e. apply agree_lifted. intros x.
    destruct (rh l), (rh r); try (ag; fail). apply agree_lifted. intros cl. apply agree_lifted. intros fe. apply agree_lifted. intros cr. apply IH.
  Qed.
  Lemma zip_all_pure (eqb : kv -> kv -> bool) fa fb n : forall a b,
    agree (h_zip_all eqb fa fb n a b) (hx_zip_all (fun x y => @tells W _ (eqb x y)) fa fb n a b).
  Proof.
    induction n as [|n IH]; intros a b; cbn [h_zip_all hx_zip_all]; [ag|].
    apply agree_lifted. intros x. destruct (fst x) as [u|]; [|ag]. apply agree_lifted. intros y. destruct (fst y) as [v|]; [|ag].
    apply agree_told. destruct (eqb (fst u) (fst v)); [apply IH|ag].
  Qed.
  Lemma eq_pure (eqb : kv -> kv -> bool) m1 m2 : agree (h_eq eqb m1 m2) (hx_eq (fun x y => @tells W _ (eqb x y)) m1 m2).
  Proof. unfold h_eq, hx_eq. destruct (mlen m1 =? mlen m2); [|ag]. do 2 (apply agree_lifted; intros ?). apply zip_all_pure. Qed.
  Lemma iter_cmp_pure (c : kv -> kv -> option comparison) fa fb n : forall a b,
    agree (h_iter_cmp c fa fb n a b) (hx_iter_cmp (fun x y => @tells W _ (c x y)) fa fb n a b).
  Proof.
    induction n as [|n IH]; intros a b; cbn [h_iter_cmp hx_iter_cmp]; [ag|].
    apply agree_lifted. intros x. destruct (fst x) as [u|]; [|ag]. apply agree_lifted. intros y. destruct (fst y) as [v|]; [|ag].
    apply agree_told. destruct (c (fst u) (fst v)) as [[| |]|]; try (ag; fail). apply IH.
  Qed.
  Lemma cmp_pure (c : kv -> kv -> option comparison) m1 m2 : agree (h_cmp c m1 m2) (hx_cmp (fun x y => @tells W _ (c x y)) m1 m2).
  Proof. unfold h_cmp, hx_cmp. do 2 (apply agree_lifted; intros ?). apply iter_cmp_pure. Qed.

  (** ** append: MergeIter::next *)
  Lemma merge_next_pure (cmp : K -> K -> comparison) mi hp w o mi' hp' :
    h_merge_next (V := V) cmp mi hp = Some ((o, mi'), hp') -> hx_merge_next (fun a b => @tells W _ (cmp a b)) mi hp w = (Ret o, mi', hp', w).
  Proof.
    unfold h_merge_next, hx_merge_next, lift, hbind. intros E.
    destruct (h_peek (hml mi) hp) as [[a hp1]|]; [|discriminate]. destruct (h_peek (hmr mi) hp1) as [[b hp2]|]; [|discriminate].
    unfold HeapModel.hret, tells. cbv beta iota zeta.
    destruct (fst a) as [x|], (fst b) as [y|].
    - destruct (cmp (fst x) (fst y)).
      + destruct (h_pnext (snd a) hp2) as [[r hp3]|]; [|discriminate]. destruct (h_pnext (snd b) hp3) as [[t hp4]|]; [|discriminate].
        injection E as <- <- <-. reflexivity.
      + destruct (h_pnext (snd a) hp2) as [[r hp3]|]; [|discriminate]. injection E as <- <- <-. reflexivity.
      + destruct (h_pnext (snd b) hp2) as [[r hp3]|]; [|discriminate]. injection E as <- <- <-. reflexivity.
    - destruct (h_pnext (snd a) hp2) as [[r hp3]|]; [|discriminate]. injection E as <- <- <-. reflexivity.
    - destruct (h_pnext (snd b) hp2) as [[r hp3]|]; [|discriminate]. injection E as <- <- <-. reflexivity.
    - injection E as <- <- <-. reflexivity.
  Qed.

  (** ** The functions that allocate *)
  Section Alloc.
    Variables (nalloc : bool -> W -> option reserve_error * W) (place : heap -> W -> loc) (cmp : K -> K -> comparison).
    Notation kcmp := (fun a b => @tells W _ (cmp a b)).

    Lemma try_entry_pure k m hp w : fst (fst (fst (h_try_entry nalloc place cmp k m hp w))) <> UB ->
      hx_try_entry nalloc place kcmp k m hp w = h_try_entry nalloc place cmp k m hp w.
    Proof.
      unfold h_try_entry, hx_try_entry, hx_search. destruct (h_ensure_root_is_owned nalloc place m hp w) as [[[o m1] hp1] w1].
      destruct o; try reflexivity. destruct (h_search_tree (S (rh (mroot m1))) (cmp k) (mroot m1) hp1) as [[s hp2]|] eqn:E; [|now intros []].
      intros _. rewrite (search_tree_pure w1 E). destruct s; reflexivity.
    Qed.
    Lemma try_insert_pure k v m hp w : fst (fst (fst (h_try_insert nalloc place cmp k v m hp w))) <> UB ->
      hx_try_insert nalloc place kcmp k v m hp w = h_try_insert nalloc place cmp k v m hp w.
    Proof.
      unfold h_try_insert, hx_try_insert. intros H. rewrite try_entry_pure; [reflexivity|].
      destruct (h_try_entry nalloc place cmp k m hp w) as [[[o m1] hp1] w1]. cbn [fst]. intros ->. now apply H.
    Qed.
    Lemma replace_key_pure k v m hp w : fst (fst (fst (h_replace_key nalloc place cmp k v m hp w))) <> UB ->
      hx_replace_key nalloc place kcmp k v m hp w = h_replace_key nalloc place cmp k v m hp w.
    Proof.
      unfold h_replace_key, hx_replace_key. intros H. rewrite try_entry_pure; [reflexivity|].
      destruct (h_try_entry nalloc place cmp k m hp w) as [[[o m1] hp1] w1]. cbn [fst]. intros ->. now apply H.
    Qed.
    Lemma extend_pure l : forall m hp w, fst (fst (fst (h_extend nalloc place cmp l m hp w))) <> UB ->
      hx_extend nalloc place kcmp l m hp w = h_extend nalloc place cmp l m hp w.
    Proof.
      induction l as [|x l IH]; intros m hp w H; cbn [h_extend hx_extend] in *; [reflexivity|].
      rewrite try_insert_pure.
      - destruct (h_try_insert nalloc place cmp (fst x) (snd x) m hp w) as [[[o m1] hp1] w1]. destruct o; try reflexivity. now apply IH.
      - destruct (h_try_insert nalloc place cmp (fst x) (snd x) m hp w) as [[[o m1] hp1] w1]. cbn [fst]. intros ->. now apply H.
    Qed.
    Lemma split_off_pure (q : K -> comparison) m hp w : fst (fst (fst (h_split_off nalloc place q m hp w))) <> UB ->
      hx_split_off nalloc place (fun k => @tells W _ (q k)) m hp w = h_split_off nalloc place q m hp w.
    Proof.
      unfold h_split_off, hx_split_off. destruct (mlen m =? 0); [reflexivity|].
      destruct (h_new_leaf nalloc place hp w) as [[o hp1] w1]. destruct o as [leaf| | | |]; try reflexivity.
      destruct (h_push_levels nalloc place (rh (mroot m)) leaf hp1 w1) as [[[o r] hp2] w2]. destruct o; try reflexivity.
      match goal with |- context [lift (hbind (h_split_loop _ _ _ _) ?f) hp2 w2] => set (F := f) end.
      destruct (h_split_loop (S (rh (mroot m))) q (mroot m) r hp2) as [[u hp3]|] eqn:E.
      - assert (lift (hbind (h_split_loop (S (rh (mroot m))) q (mroot m) r) F) hp2 w2 =
          match F u hp3 with Some (a, hp') => (Ret a, hp', w2) | None => (UB, hp2, w2) end) as -> by (unfold lift, hbind at 1; now rewrite E).
        rewrite (split_loop_pure w2 E).
        match goal with |- context [lift ?x hp3 w2] => change x with (F u) end. unfold lift.
        destruct (F u hp3) as [[[rm self] hp4]|]; [reflexivity|]. now intros [].
      - assert (lift (hbind (h_split_loop (S (rh (mroot m))) q (mroot m) r) F) hp2 w2 = (UB, hp2, w2)) as -> by (unfold lift, hbind at 1; now rewrite E).
        now intros [].
    Qed.
    Lemma from_sorted_pure n : forall mi root cur len hp w, fst (fst (fst (fst (h_from_sorted nalloc place cmp n mi root cur len hp w)))) <> UB ->
      hx_from_sorted nalloc place kcmp n mi root cur len hp w = h_from_sorted nalloc place cmp n mi root cur len hp w.
    Proof.
      induction n as [|n IH]; intros mi root cur len hp w; cbn [h_from_sorted hx_from_sorted]; [reflexivity|].
      unfold lift. destruct (h_merge_next cmp mi hp) as [[[o mi'] hp1]|] eqn:E; [|now intros []].
      rewrite (merge_next_pure w E). destruct o as [x|]; [|reflexivity].
      destruct (h_push_sorted nalloc place x root cur hp1 w) as [[[o2 root'] hp2] w2]. destruct o2; try reflexivity. apply IH.
    Qed.
    Lemma append_pure m o hp w : fst (fst (fst (fst (h_append nalloc place cmp m o hp w)))) <> UB ->
      hx_append nalloc place kcmp m o hp w = h_append nalloc place cmp m o hp w.
    Proof.
      unfold h_append, hx_append. destruct (mlen o =? 0); [reflexivity|]. destruct (mlen m =? 0); [reflexivity|].
      match goal with |- context [lift ?x hp w] => destruct (lift x hp w) as [[o1 hp1] w1] end. destruct o1 as [mi| | | |]; try reflexivity.
      destruct (h_ensure_root_is_owned nalloc place h_new hp1 w1) as [[[o2 m1] hp2] w2]. destruct o2; try reflexivity.
      match goal with |- context [lift ?x hp2 w2] => destruct (lift x hp2 w2) as [[o3 hp3] w3] end. destruct o3 as [cur| | | |]; try reflexivity.
      intros H. rewrite from_sorted_pure; [reflexivity|].
      destruct (h_from_sorted nalloc place cmp (mlen m + mlen o + 1) mi (mroot m1) cur 0 hp3 w3) as [[[[o4 m4] mi4] hp4] w4]. cbn [fst]. intros ->. now apply H.
    Qed.

    (** ** Programs *)
    Variables (Q : Type) (qcmp : Q -> Q -> comparison) (borrow : K -> Q).
    Variables (kclone : K -> W -> outcome reserve_error K * W) (vclone : V -> W -> outcome reserve_error V * W).
    Variables (eqb : kv -> kv -> bool) (pcmp : kv -> kv -> option comparison).
    Notation hstep := (hstep nalloc place cmp qcmp borrow kclone vclone eqb pcmp).
    Notation hrun := (hrun nalloc place cmp qcmp borrow kclone vclone eqb pcmp).
    (** the answers of an order that is a function *)
    Definition pure_step := hxstep nalloc place kcmp (fun x k => @tells W _ (qcmp x (borrow k)))
      (fun x y => @tells W _ (same_ (qcmp x y))) (fun x y => @tells W _ (more_ (qcmp x y))) (fun b => @tells W _ b)
      kclone vclone (fun x y => @tells W _ (eqb x y)) (fun x y => @tells W _ (pcmp x y)).
    Definition pure_run := hxrun nalloc place kcmp (fun x k => @tells W _ (qcmp x (borrow k)))
      (fun x y => @tells W _ (same_ (qcmp x y))) (fun x y => @tells W _ (more_ (qcmp x y))) (fun b => @tells W _ b)
      kclone vclone (fun x y => @tells W _ (eqb x y)) (fun x y => @tells W _ (pcmp x y)).

    Definition clones (c : op K V Q) : Prop := match c with TryClone _ _ | Clone _ _ => True | _ => False end.

    Notation obs := (obs K V).
    Lemma done_pure A (m1 : HM A) (m2 : AM A) (f : A -> outcome reserve_error obs * hregs) (g : A -> AM (obs * hregs)) s hp w :
      agree m1 m2 -> (forall a hp1, done (g a) s hp1 w = (fst (f a), snd (f a), hp1, w)) ->
      fst (fst (fst (pure (hbind m1 (fun a => hret (f a))) s hp w))) <> UB ->
      done (abind m2 g) s hp w = pure (hbind m1 (fun a => hret (f a))) s hp w.
    Proof.
      intros H1 H2. unfold pure, done, hbind, abind. destruct (m1 hp) as [[a hp1]|] eqn:E; [|now intros []]. intros _.
      rewrite (H1 _ w _ _ E). unfold HeapModel.hret. specialize (H2 a hp1). unfold done in H2. rewrite H2. now destruct (f a).
    Qed.

    Lemma pure_step_ok (c : op K V Q) s hp w : fst (fst (fst (hstep c s hp w))) <> UB \/ clones c -> pure_step c s hp w = hstep c s hp w.
    Proof.
      intros H. unfold pure_step. destruct c; cbn [HeapMapModel.hstep hxstep clones] in *; try reflexivity; try (destruct H as [H|[]]).
      - (* Insert *) rewrite try_insert_pure; [reflexivity|].
        destruct (h_try_insert nalloc place cmp k v (s r) hp w) as [[[o m] hp'] w']. cbn [fst] in *. intros ->. now apply H.
      - (* Replace *) rewrite replace_key_pure; [reflexivity|].
        destruct (h_replace_key nalloc place cmp k v (s r) hp w) as [[[o m] hp'] w']. cbn [fst] in *. intros ->. now apply H.
      - (* Remove *) apply done_pure; [apply remove_entry_pure|reflexivity|exact H].
      - (* Take *) apply done_pure; [apply remove_entry_pure|reflexivity|exact H].
      - (* Get *) apply done_pure; [apply get_key_value_pure|reflexivity|exact H].
      - (* GetKeyValue *) apply done_pure; [apply get_key_value_pure|reflexivity|exact H].
      - (* Contains *) apply done_pure; [apply get_key_value_pure|reflexivity|exact H].
      - (* Index *) apply done_pure; [apply get_key_value_pure|intros [e|]; reflexivity|exact H].
      - (* GetMut *) revert H. unfold pure, done, hbind at 1 3, abind at 1.
        destruct (h_get_mut (look qcmp borrow x) (s r) hp) as [[a hp1]|] eqn:E; [|now intros []].
        pose proof (get_mut_pure w E) as E2. unfold look in E2. cbv beta. rewrite E2. destruct a as [p|]; [|reflexivity]. unfold abind, lift, hbind.
        destruct (ref_write p f hp1) as [[u hp2]|]; [reflexivity|]. now intros [].
      - (* Append *) rewrite append_pure; [reflexivity|].
        match goal with |- context [h_append nalloc place cmp ?a ?b hp w] => destruct (h_append nalloc place cmp a b hp w) as [[[[o m] m2] hp'] w'] end. cbn [fst] in *. intros ->. now apply H.
      - (* SplitOff *) rewrite split_off_pure; [reflexivity|]. unfold look in *.
        destruct (h_split_off nalloc place (fun k => qcmp x (borrow k)) (s r) hp w) as [[[o m] hp'] w']. cbn [fst] in *. intros ->. now apply H.
      - (* Extend *) rewrite extend_pure; [reflexivity|].
        destruct (h_extend nalloc place cmp l (s r) hp w) as [[[o m] hp'] w']. cbn [fst] in *. intros ->. now apply H.
      - (* RangeOver *) revert H. unfold pure, done, hbind at 1 3, abind at 1.
        destruct (h_range qcmp borrow lo hi (s r) hp) as [[o hp1]|] eqn:E; [|now intros []].
        pose proof (range_pure w E) as E2. destruct o as [it|e| | |]; try (now destruct E2); rewrite E2; [|reflexivity].
        unfold abind, lift, hbind.
        match goal with |- context [hcalls ?a ?b ?c ?d hp1] => destruct (hcalls a b c d hp1) as [[x hp2]|] end; [reflexivity|now intros []].
      - (* RangeMut *) revert H. unfold pure, done, hbind at 1 4, abind at 1.
        destruct (h_range qcmp borrow lo hi (s r) hp) as [[o hp1]|] eqn:E; [|now intros []].
        pose proof (range_pure w E) as E2. destruct o as [it|e| | |]; try (now destruct E2); rewrite E2; [|reflexivity].
        unfold abind, lift, hbind.
        match goal with |- context [hcalls ?a ?b ?c ?d hp1] => destruct (hcalls a b c d hp1) as [[x hp2]|] end; [|now intros []].
        match goal with |- context [ref_write_all ?a hp2] => destruct (ref_write_all a hp2) as [[u hp3]|] end; [reflexivity|now intros []].
      - (* EntryOr *) rewrite try_entry_pure; [reflexivity|].
        destruct (h_try_entry nalloc place cmp k (s r) hp w) as [[[o m] hp'] w']. cbn [fst] in *. intros ->. now apply H.
      - (* EntryRemove *) rewrite try_entry_pure; [reflexivity|].
        destruct (h_try_entry nalloc place cmp k (s r) hp w) as [[[o m] hp'] w']. cbn [fst] in *. intros ->. now apply H.
      - (* Equal *) apply done_pure; [apply eq_pure|reflexivity|exact H].
      - (* Compare *) apply done_pure; [apply cmp_pure|reflexivity|exact H].
    Qed.

    (** a run that never meets undefined behaviour is the same run *)
    Lemma pure_run_same l : forall s hp w, Forall (fun r => fst (fst r) <> UB) (hrun l s hp w) -> pure_run l s hp w = hrun l s hp w.
    Proof.
      induction l as [|c l IH]; intros s hp w F; [reflexivity|]. unfold pure_run in *. cbn [hxrun HeapMapModel.hrun] in *.
      fold (pure_step c s hp w). rewrite pure_step_ok.
      - destruct (hstep c s hp w) as [[[o s'] hp'] w']. inversion F as [|? ? _ F2]; subst. f_equal. destruct o; try reflexivity; now apply IH.
      - left. destruct (hstep c s hp w) as [[[o s'] hp'] w']. inversion F; subst; auto.
    Qed.

    Variables (no_memory : reserve_error -> Prop) (copy : kv -> kv -> Prop) (clone_fails : outcome reserve_error unit -> Prop).
    Notation spec := (spec cmp qcmp borrow eqb pcmp no_memory copy clone_fails).
    Notation runs_ok := (runs_ok cmp qcmp borrow eqb pcmp no_memory copy clone_fails).

    Lemma spec_ub (c : op K V Q) S S' : spec c S UB S' -> clones c.
    Proof.
      destruct c; cbn [HistorySpec.spec clones]; auto; intros H.
      all: repeat match goal with
        | H : _ \/ _ |- _ => destruct H
        | H : _ /\ _ |- _ => destruct H
        | H : exists _, _ |- _ => destruct H
        | H : match ?x with _ => _ end |- _ => destruct x
        end; try discriminate.
      all: match goal with H : UB = match ?x with _ => _ end |- _ => destruct x; discriminate end.
    Qed.

    Lemma gave_up_ub (c : op K V Q) S : ~ gave_up cmp no_memory c S UB.
    Proof. destruct c; cbn [gave_up]; intros H; try contradiction; try (destruct H as (e & H & _); discriminate H); destruct H as [H _]; discriminate H. Qed.

    Lemma pure_run_ok l : forall S s hp w, runs_ok S l (hrun l s hp w) -> runs_ok S l (pure_run l s hp w).
    Proof.
      induction l as [|c l IH]; intros S s hp w H; [exact H|]. unfold pure_run in *. cbn [hxrun HeapMapModel.hrun] in *.
      fold (pure_step c s hp w).
      assert (fst (fst (fst (hstep c s hp w))) <> UB \/ clones c) as E.
      { destruct (hstep c s hp w) as [[[o s'] hp'] w']. cbn [fst]. inversion H; subst; auto.
        - destruct (match o with UB => true | _ => false end) eqn:Eo; [|left; intros ->; discriminate Eo]. destruct o; try discriminate Eo.
          right. eapply spec_ub; eauto.
        - left. intros ->. eapply gave_up_ub; eauto. }
      rewrite (pure_step_ok E). destruct (hstep c s hp w) as [[[o s'] hp'] w'].
      inversion H as [| ? ? ? ? ? ? S' rest HS HM Na Nu HR | ? ? ? ? ? ? S' HS HD | ? ? ? ? ? ? rest HG HT]; subst.
      - eapply H_step; eauto. destruct o; try congruence; now apply IH.
      - replace (match o with Abort | UB => [] | _ => _ end) with (@nil (outcome reserve_error obs * hregs * heap)) by (destruct HD; subst; reflexivity).
        eapply H_dead; eauto.
      - now apply H_gave_up.
    Qed.
  End Alloc.
End Pure.
