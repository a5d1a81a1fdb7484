(** * Properties_Vec: C01-C10, C19 (src/vec.rs, src/try_clone.rs)

    Everywhere: [W] is an arbitrary world, [alloc] an arbitrary allocator in
    it, [isize_max] an arbitrary machine, [sz] an arbitrary element size (0
    for zero-sized types).  [holds v l] (VecSpec): [v] is a valid vector whose
    elements are exactly [l]. *)
From Coq Require Import List Arith Lia Bool.
Import ListNotations.
From Verif Require Import Base VecModel VecSpec VecProofs VecProofs2 MiscModel MiscSpec MiscProofs
  VecHistoryModel VecHistorySpec VecHistoryProofs VecExact.
Set Implicit Arguments.

Section Vec.
  Variables (W : Type) (alloc : nat -> W -> answer * W) (isize_max : nat) (T : Type) (sz : nat).
  Variable tdrop : T -> W -> outcome reserve_error unit * W.
  Variable tclone : T -> W -> outcome reserve_error T * W.
  Notation holds := (holds isize_max sz).
  Notation capacity := (capacity isize_max sz).

  (** ** C01: a failed call leaves the vector as it was.
      [v' = v] is equality of capacity, length and every slot. *)
  Theorem C01_failed_call_changes_nothing : forall (v v' o o' : rvec T) l m w w' e (x : T) n i xs f,
    holds v l -> holds o m -> drop_returns tdrop -> closure_ok f ->
    (try_reserve alloc isize_max sz n (v, w) = (Err e, (v', w')) -> v' = v) /\
    (try_push alloc isize_max sz x (v, w) = (Err e, (v', w')) -> v' = v) /\
    (forall r, try_push_give_back alloc isize_max sz x (v, w) = (Err r, (v', w')) -> v' = v) /\
    (forall r, try_insert alloc isize_max sz i x (v, w) = (Err r, (v', w')) -> v' = v) /\
    (try_append alloc isize_max sz v o w = (Err e, (v', o', w')) -> v' = v /\ o' = o) /\
    (try_resize alloc isize_max sz tdrop n x (v, w) = (Err e, (v', w')) -> v' = v) /\
    (try_resize_with alloc isize_max sz tdrop n f (v, w) = (Err e, (v', w')) -> v' = v) /\
    (try_extend_from_slice alloc isize_max sz xs (v, w) = (Err e, (v', w')) -> v' = v).
  Proof.
    intros v v' o o' l m w w' e x n i xs f Hv Ho Hd Hf. repeat split; intros.
    - destruct (@try_reserve_cases W alloc isize_max T sz v l n w Hv) as [(? & ? & Hr & _)|(? & ? & Hr & _)]; congruence.
    - destruct (@try_push_cases W alloc isize_max T sz v l x w Hv) as [(? & ? & Hr & _)|(? & ? & Hr & _)]; congruence.
    - destruct (@try_push_give_back_cases W alloc isize_max T sz v l x w Hv) as [(? & ? & Hr & _)|(? & ? & Hr & _)]; congruence.
    - destruct (@try_insert_cases W alloc isize_max T sz v l i x w Hv) as [(_ & ? & ? & Hr & _)|[(_ & ? & ? & Hr & _)|(? & ? & Hr & _)]]; congruence.
    - destruct (@try_append_cases W alloc isize_max T sz v o l m w Hv Ho) as [(? & ? & ? & Hr & _)|(? & ? & Hr)]; congruence.
    - destruct (@try_append_cases W alloc isize_max T sz v o l m w Hv Ho) as [(? & ? & ? & Hr & _)|(? & ? & Hr)]; congruence.
    - destruct (@try_resize_cases W alloc isize_max T sz tdrop v l n x w Hv Hd) as [(? & ? & Hr & _)|(? & ? & Hr)]; congruence.
    - assert (Hd' : drop_returns_or_panics tdrop) by (intros y w0; left; apply Hd).
      destruct (@try_resize_with_cases W alloc isize_max T sz tdrop v l n f w Hv Hd')
        as [(_ & w1 & ? & ? & Hr & _)|[(_ & o1 & ? & ? & Hr & _ & Hdr & _)|(? & ? & Hr)]]; try congruence; [|destruct (Hdr Hd) as [-> _]; congruence].
      exfalso. rewrite Hr in H. injection H; intros; subst. clear Hr H.
      assert (Hx : forall k w0, snd (fst (calls f k w0)) <> Err e).
      { induction k; intros w0; simpl; [discriminate|].
        specialize (Hf w0). destruct (f w0) as [[y|e'| | |] w2]; simpl in *; try discriminate.
        - specialize (IHk w2). destruct (calls f k w2) as [[? ?] ?]; exact IHk.
        - destruct Hf as [[? Hf]|Hf]; discriminate. }
      eapply Hx; eauto.
    - destruct (@try_extend_from_slice_cases W alloc isize_max T sz v l xs w Hv) as [(? & ? & Hr & _)|(? & ? & Hr & _)]; congruence.
  Qed.

  (** ** C02: a successful call has the effect of the std operation *)
  Theorem C02_push : forall (v v' : rvec T) l x w w' u,
    holds v l -> try_push alloc isize_max sz x (v, w) = (Ret u, (v', w')) ->
    holds v' (l ++ [x]) /\ capacity v <= capacity v'.
  Proof.
    intros v v' l x w w' u Hv H.
    destruct (@try_push_cases W alloc isize_max T sz v l x w Hv) as [(v1 & w1 & Hr & Hh & Hc & _)|(? & ? & Hr & _)]; [|congruence].
    rewrite Hr in H. injection H; intros; subst; auto.
  Qed.

  Theorem C02_push_give_back : forall (v v' : rvec T) l x w w' u,
    holds v l -> try_push_give_back alloc isize_max sz x (v, w) = (Ret u, (v', w')) ->
    holds v' (l ++ [x]) /\ capacity v <= capacity v'.
  Proof.
    intros v v' l x w w' u Hv H.
    destruct (@try_push_give_back_cases W alloc isize_max T sz v l x w Hv) as [(v1 & w1 & Hr & Hh & Hc & _)|(? & ? & Hr & _)]; [|congruence].
    rewrite Hr in H. injection H; intros; subst; auto.
  Qed.

  (** try_insert puts the element at the index; it panics only when the index
      is past the end, and then always unless memory was refused first *)
  Theorem C02_insert : forall (v v' : rvec T) l i x w w' r,
    holds v l -> try_insert alloc isize_max sz i x (v, w) = (r, (v', w')) ->
    (forall u, r = Ret u -> i <= length l /\ holds v' (firstn i l ++ x :: skipn i l)) /\
    (r = Panic -> length l < i /\ holds v' l) /\
    (length l < i -> r = Panic \/ is_err r).
  Proof.
    intros v v' l i x w w' r Hv H.
    destruct (@try_insert_cases W alloc isize_max T sz v l i x w Hv)
      as [(Hi & v1 & w1 & Hr & Hh & _)|[(Hi & v1 & w1 & Hr & Hh)|(e & w1 & Hr & _)]];
      rewrite Hr in H; injection H; intros; subst; (split; [intros u Hu|split; intros Hu]);
      try discriminate; try lia; auto.
    right; exact I.
  Qed.

  Theorem C02_append : forall (v v' o o' : rvec T) l m w w' u,
    holds v l -> holds o m -> try_append alloc isize_max sz v o w = (Ret u, (v', o', w')) ->
    holds v' (l ++ m) /\ holds o' [].
  Proof.
    intros v v' o o' l m w w' u Hv Ho H.
    destruct (@try_append_cases W alloc isize_max T sz v o l m w Hv Ho) as [(? & ? & ? & Hr & H1 & H2 & _)|(? & ? & Hr)]; [|congruence].
    rewrite Hr in H. injection H; intros; subst; auto.
  Qed.

  Theorem C02_resize : forall (v v' : rvec T) l n x w w' u,
    holds v l -> drop_returns tdrop -> try_resize alloc isize_max sz tdrop n x (v, w) = (Ret u, (v', w')) ->
    holds v' (if length l <? n then l ++ repeat x (n - length l) else firstn n l) /\ vlen v' = n.
  Proof.
    intros v v' l n x w w' u Hv Hd H.
    destruct (@try_resize_cases W alloc isize_max T sz tdrop v l n x w Hv Hd) as [(? & ? & Hr & H1 & _)|(? & ? & Hr)]; [|congruence].
    rewrite Hr in H. injection H; intros; subst. unfold list_resize in H1. split; [exact H1|].
    destruct H1 as (-> & _). destruct (Nat.ltb_spec (length l) n).
    - rewrite app_length, repeat_length. lia.
    - rewrite firstn_length. lia.
  Qed.

  (** [fst (fst (calls f k w1))] are the values returned by the successive
      calls of the closure *)
  Theorem C02_resize_with : forall (v v' : rvec T) l n f w w' u,
    holds v l -> drop_returns tdrop -> try_resize_with alloc isize_max sz tdrop n f (v, w) = (Ret u, (v', w')) ->
    vlen v' = n /\
    (n <= length l -> holds v' (firstn n l) /\ drops tdrop (skipn n l) w = (Ret tt, w')) /\
    (length l < n -> exists w1 ys, calls f (n - length l) w1 = (ys, Ret tt, w') /\ holds v' (l ++ ys)).
  Proof.
    intros v v' l n f w w' u Hv Hd H.
    assert (Hd' : drop_returns_or_panics tdrop) by (intros y w0; left; apply Hd).
    destruct (Nat.le_gt_cases n (length l)) as [Hle|Hgt].
    - destruct (@try_resize_with_cases W alloc isize_max T sz tdrop v l n f w Hv Hd')
        as [(? & _)|[(_ & o & v1 & w1 & Hr & _ & Hdr & Hh & _)|(? & ? & Hr)]]; [lia| |congruence].
      rewrite Hr in H. injection H; intros; subst. destruct (Hdr Hd) as [_ Hdr'].
      split; [destruct Hh as (-> & _); rewrite firstn_length; lia|]. split; [auto|lia].
    - assert (Hlen : forall k w0 ys w2, calls f k w0 = (ys, Ret tt, w2) -> length ys = k).
      { induction k; simpl; intros w0 ys w2 E; [injection E; intros; subst; reflexivity|].
        destruct (f w0) as [[y|e'| | |] w3]; try discriminate.
        destruct (calls f k w3) as [[ys' o'] w4] eqn:Ec. injection E; intros; subst. simpl. f_equal; eauto. }
      rewrite try_resize_with_eq in H. pose proof Hv as (Hl & _).
      destruct (Nat.ltb_spec (vlen v) n); [|lia]. unfold bind at 1 in H.
      destruct (@try_reserve_cases W alloc isize_max T sz v l (n - vlen v) w Hv) as [(v1 & w1 & Hr & Hh1 & Hc1 & _)|(e & w1 & Hr & _)];
        rewrite Hr in H; [|discriminate].
      unfold std_resize_with in H. unfold bind at 1, get_len in H. cbn [fst] in H.
      pose proof Hh1 as (Hl1 & _). rewrite Hl1 in H. destruct (Nat.ltb_spec (length l) n); [|lia].
      unfold bind in H. rewrite reserve_noop in H by (unfold room; lia).
      destruct (@push_with_ok W isize_max T sz f (n - length l) v1 l w1 Hh1 ltac:(lia)) as (v2 & w2 & Hp & Hw & Hh2 & _).
      rewrite Hp in H. injection H; intros; subst. destruct u.
      destruct (calls f (n - length l) w1) as [[ys o] w3] eqn:Ec. simpl in *. subst o.
      pose proof (Hlen _ _ _ _ Ec) as Hy.
      split; [destruct Hh2 as (-> & _); rewrite app_length; lia|]. split; [lia|].
      intros _. exists w1, ys. auto.
  Qed.

  Theorem C02_extend_from_slice : forall (v v' : rvec T) l xs w w' u,
    holds v l -> try_extend_from_slice alloc isize_max sz xs (v, w) = (Ret u, (v', w')) -> holds v' (l ++ xs).
  Proof.
    intros v v' l xs w w' u Hv H.
    destruct (@try_extend_from_slice_cases W alloc isize_max T sz v l xs w Hv) as [(? & ? & Hr & H1 & _)|(? & ? & Hr & _)]; [|congruence].
    rewrite Hr in H. injection H; intros; subst; auto.
  Qed.

  Theorem C02_extend_from_slice_no_copy : forall (v v' : rvec T) l xs w w' u,
    holds v l -> try_extend_from_slice_no_copy alloc isize_max sz tclone xs (v, w) = (Ret u, (v', w')) ->
    exists ys, holds v' (l ++ ys) /\ Forall2 (is_clone tclone) xs ys.
  Proof.
    intros v v' l xs w w' u Hv H.
    destruct (@try_extend_no_copy_cases W alloc isize_max T sz tclone v l xs w Hv) as [(w1 & v1 & Hr & H1 & _)|(? & ? & Hr & _)]; [|congruence].
    rewrite Hr in H. injection H; intros; subst.
    destruct (clones tclone xs w1) as [[ys o] w2] eqn:Ec. simpl in *. subst o. destruct u. exists ys. split; auto.
    eapply clones_ret; eauto.
  Qed.

  Theorem C02_resize_no_copy : forall (v v' : rvec T) l n x w w' u,
    holds v l -> drop_returns tdrop ->
    try_resize_no_copy alloc isize_max sz tdrop tclone n x (v, w) = (Ret u, (v', w')) ->
    (n <= length l -> holds v' (firstn n l)) /\
    (length l < n -> exists ys, holds v' (l ++ ys ++ [x]) /\ length ys = n - length l - 1 /\
                                Forall (is_clone tclone x) ys).
  Proof.
    intros v v' l n x w w' u Hv Hd H.
    destruct (@try_resize_no_copy_cases W alloc isize_max T sz tclone tdrop v l n x w Hv Hd)
      as [(Hn & w1 & v1 & Hr & Hh & _)|[(Hn & v1 & w1 & Hr & Hh & _)|(e & w1 & Hr)]]; rewrite Hr in H.
    - split; [lia|]. intros _.
      pose proof (clones_outcome tclone (repeat x (n - length l - 1)) w1) as Ho.
      destruct (clones tclone (repeat x (n - length l - 1)) w1) as [[ys o] w2] eqn:Ec. simpl in *.
      injection H; intros; subst. exists ys. split; [exact Hh|]. rewrite repeat_length in Ho. split; [exact Ho|].
      destruct u. apply clones_ret in Ec. revert Ec. clear. generalize (n - length l - 1). intros k.
      revert ys. induction k; intros ys HF; inversion HF; subst; constructor; auto.
    - injection H; intros; subst. split; [auto|lia].
    - discriminate.
  Qed.

  Theorem C02_pop : forall (v : rvec T) l (w : W),
    holds v l -> exists v', pop isize_max sz (E:=reserve_error) (v, w) =
       (Ret (match rev l with [] => None | x :: _ => Some x end), (v', w)) /\ holds v' (removelast l).
  Proof.
    intros v l w Hv. pose proof Hv as (Hl & Hs & Hc & Hb). unfold pop, bind, get_len. cbn [fst].
    rewrite Hl. destruct l as [|y l0] using rev_ind.
    - simpl. exists v. auto.
    - clear IHl0. replace (length (l0 ++ [y])) with (S (length l0)) by (rewrite app_length; simpl; lia). cbv beta iota.
      unfold set_len, raw_take. rewrite app_length in *. simpl length in *. cbv beta iota.
      destruct (Nat.leb_spec (length l0) (capacity v)); [|lia].
      replace (length l0 - vlen v) with 0 by lia. simpl.
      rewrite Hs by lia. rewrite nth_error_app2, Nat.sub_diag by lia. simpl.
      rewrite rev_unit, removelast_last. eexists. split; [reflexivity|].
      unfold VecSpec.holds; simpl. repeat split; auto.
      intros i Hi. rewrite upd_other by lia. rewrite Hs by lia. now rewrite nth_error_app1 by lia.
  Qed.

  (** ** C03: no operation takes an infallible allocation path ([Abort]) or
      runs into undefined behaviour ([UB]); the result is a value or an error,
      or a panic that came from user code (index past the end, closure,
      destructor, clone). *)
  Theorem C03_never_aborts : forall (v o : rvec T) l m w (x : T) n i xs f,
    holds v l -> holds o m ->
    settled (fst (try_reserve alloc isize_max sz n (v, w))) /\
    settled (fst (try_push alloc isize_max sz x (v, w))) /\
    settled (fst (try_push_give_back alloc isize_max sz x (v, w))) /\
    (i <= length l -> settled (fst (try_insert alloc isize_max sz i x (v, w)))) /\
    (length l < i -> settled (fst (try_insert alloc isize_max sz i x (v, w))) \/
                     fst (try_insert alloc isize_max sz i x (v, w)) = Panic) /\
    settled (fst (try_append alloc isize_max sz v o w)) /\
    (drop_returns tdrop -> settled (fst (try_resize alloc isize_max sz tdrop n x (v, w)))) /\
    (drop_returns_or_panics tdrop -> closure_ok f ->
       settled (fst (try_resize_with alloc isize_max sz tdrop n f (v, w))) \/
       fst (try_resize_with alloc isize_max sz tdrop n f (v, w)) = Panic \/
       (* shrinking, two destructors panicked *)
       (n < length l /\ fst (drop_glue tdrop false (skipn n l) w) = Abort)) /\
    settled (fst (try_extend_from_slice alloc isize_max sz xs (v, w))) /\
    (clone_ok tclone -> settled (fst (try_extend_from_slice_no_copy alloc isize_max sz tclone xs (v, w))) \/
       fst (try_extend_from_slice_no_copy alloc isize_max sz tclone xs (v, w)) = Panic) /\
    (clone_ok tclone -> drop_returns tdrop ->
       settled (fst (try_resize_no_copy alloc isize_max sz tdrop tclone n x (v, w))) \/
       fst (try_resize_no_copy alloc isize_max sz tdrop tclone n x (v, w)) = Panic).
  Proof.
    intros v o l m w x n i xs f Hv Ho. repeat split; intros.
    - destruct (@try_reserve_cases W alloc isize_max T sz v l n w Hv) as [(? & ? & Hr & _)|(? & ? & Hr & _)]; rewrite Hr; exact I.
    - destruct (@try_push_cases W alloc isize_max T sz v l x w Hv) as [(? & ? & Hr & _)|(? & ? & Hr & _)]; rewrite Hr; exact I.
    - destruct (@try_push_give_back_cases W alloc isize_max T sz v l x w Hv) as [(? & ? & Hr & _)|(? & ? & Hr & _)]; rewrite Hr; exact I.
    - destruct (@try_insert_cases W alloc isize_max T sz v l i x w Hv) as [(_ & ? & ? & Hr & _)|[(? & _)|(? & ? & Hr & _)]]; [rewrite Hr; exact I|lia|rewrite Hr; exact I].
    - destruct (@try_insert_cases W alloc isize_max T sz v l i x w Hv) as [(? & _)|[(_ & ? & ? & Hr & _)|(? & ? & Hr & _)]]; [lia|rewrite Hr; auto|rewrite Hr; left; exact I].
    - destruct (@try_append_cases W alloc isize_max T sz v o l m w Hv Ho) as [(? & ? & ? & Hr & _)|(? & ? & Hr)]; rewrite Hr; exact I.
    - destruct (@try_resize_cases W alloc isize_max T sz tdrop v l n x w Hv H) as [(? & ? & Hr & _)|(? & ? & Hr)]; rewrite Hr; exact I.
    - destruct (@try_resize_with_cases W alloc isize_max T sz tdrop v l n f w Hv H)
        as [(_ & w1 & ? & ? & Hr & _)|[(Hn & o1 & ? & ? & Hr & Hg & _)|(? & ? & Hr)]]; rewrite Hr; simpl; auto.
      2:{ destruct (@glue_cases W T tdrop (skipn n l) H false w) as [E|[E|E]]; rewrite Hg in E |- *; cbn [fst] in E |- *; subst o1; cbn; auto.
          right; right. split; [|reflexivity]. destruct (Nat.eq_dec n (length l)) as [->|]; [|lia]. rewrite skipn_all in Hg. discriminate. }
      clear Hr. enough (settled (snd (fst (calls f (n - length l) w1))) \/ snd (fst (calls f (n - length l) w1)) = Panic) by tauto. generalize (n - length l) as k. intros k. revert w1. clear -H0. induction k; intros w1; simpl; auto.
      specialize (H0 w1). destruct (f w1) as [[y|e'| | |] w2]; simpl in *; auto; try (destruct H0 as [[? H0]|H0]; discriminate).
      specialize (IHk w2). destruct (calls f k w2) as [[? ?] ?]; exact IHk.
    - destruct (@try_extend_from_slice_cases W alloc isize_max T sz v l xs w Hv) as [(? & ? & Hr & _)|(? & ? & Hr & _)]; rewrite Hr; exact I.
    - destruct (@try_extend_no_copy_cases W alloc isize_max T sz tclone v l xs w Hv) as [(w1 & v1 & Hr & H1 & _)|(? & ? & Hr & _)]; rewrite Hr; [|left; exact I].
      cbn [fst]. destruct (clones_ok xs w1 H) as [Ha Hb]. destruct (snd (fst (clones tclone xs w1))); simpl; auto; congruence.
    - destruct (@try_resize_no_copy_cases W alloc isize_max T sz tclone tdrop v l n x w Hv H0)
        as [(Hn & w1 & v1 & Hr & Hh & _)|[(Hn & v1 & w1 & Hr & Hh & _)|(e & w1 & Hr)]]; rewrite Hr; cbn [fst]; try (left; exact I).
      destruct (clones_ok (repeat x (n - length l - 1)) w1 H) as [Ha Hb].
      destruct (snd (fst (clones tclone (repeat x (n - length l - 1)) w1))); simpl; auto; congruence.
  Qed.

  (** ** C04: the element comes back on failure *)
  Theorem C04_gives_back : forall (v v' : rvec T) l w w' x y i e,
    holds v l ->
    (try_push_give_back alloc isize_max sz x (v, w) = (Err (y, e), (v', w')) -> y = x /\ v' = v) /\
    (try_insert alloc isize_max sz i x (v, w) = (Err (y, e), (v', w')) -> y = x /\ v' = v).
  Proof.
    intros v v' l w w' x y i e Hv. split; intros H.
    - destruct (@try_push_give_back_cases W alloc isize_max T sz v l x w Hv) as [(? & ? & Hr & _)|(? & ? & Hr & _)]; [congruence|].
      rewrite Hr in H. injection H; auto.
    - destruct (@try_insert_cases W alloc isize_max T sz v l i x w Hv) as [(_ & ? & ? & Hr & _)|[(_ & ? & ? & Hr & _)|(? & ? & Hr & _)]]; [congruence|congruence|].
      rewrite Hr in H. injection H; auto.
  Qed.

  (** ** C05: cloning extensions are safe at every interruption point: whatever
      the outcome, the vector is valid and holds the old elements followed by
      clones of a prefix of the source, in order; the outcome is an error of
      the reservation (nothing appended) or that of the element clone that
      stopped the loop. *)
  Theorem C05_extend_interrupted : forall (v v' : rvec T) l xs w w' o,
    holds v l ->
    try_extend_from_slice_no_copy alloc isize_max sz tclone xs (v, w) = (o, (v', w')) ->
    (v' = v /\ is_err o) \/
    exists w1 ys, clones tclone xs w1 = (ys, o, w') /\ holds v' (l ++ ys) /\
      exists xs1 xs2, xs = xs1 ++ xs2 /\ Forall2 (is_clone tclone) xs1 ys.
  Proof.
    intros v v' l xs w w' o Hv H.
    destruct (@try_extend_no_copy_cases W alloc isize_max T sz tclone v l xs w Hv) as [(w1 & v1 & Hr & H1 & _)|(e & w1 & Hr & _)];
      rewrite Hr in H; injection H; intros; subst.
    - right. pose proof (clones_prefix tclone xs w1) as Hp.
      destruct (clones tclone xs w1) as [[ys o] w2] eqn:Ec. simpl in *. exists w1, ys. auto.
    - left. split; [reflexivity|exact I].
  Qed.

  Theorem C05_resize_interrupted : forall (v v' : rvec T) l n x w w' o,
    holds v l -> length l < n ->
    try_resize_no_copy alloc isize_max sz tdrop tclone n x (v, w) = (o, (v', w')) ->
    (v' = v /\ is_err o) \/
    exists w1 ys, clones tclone (repeat x (n - length l - 1)) w1 = (ys, o, w') /\
      holds v' (l ++ ys ++ match o with Ret _ => [x] | _ => [] end).
  Proof.
    intros v v' l n x w w' o Hv Hn H. rewrite try_resize_no_copy_eq in H. pose proof Hv as (Hl & _).
    destruct (Nat.ltb_spec (vlen v) n); [|lia].
    destruct (@try_extend_with_cases W alloc isize_max T sz tclone v l (n - vlen v) x w Hv ltac:(lia))
      as [(w1 & v1 & Hr & Hh & _)|(e & w1 & Hr & _)]; rewrite Hr in H; injection H; intros; subst.
    - right. exists w1. rewrite Hl in *. destruct (clones tclone (repeat x (n - length l - 1)) w1) as [[ys o] w2]. simpl in *.
      exists ys. auto.
    - left. split; [reflexivity|exact I].
  Qed.

  (** ** C06 (partial): when no destructor panics, shrinking drops exactly the
      removed elements, each once (last first), and keeps the others. *)
  Theorem C06_shrink_drops_once_partial : forall (v : rvec T) l n x w,
    holds v l -> drop_returns tdrop -> n <= length l ->
    exists v' w', try_resize_no_copy alloc isize_max sz tdrop tclone n x (v, w) = (Ret tt, (v', w')) /\
      holds v' (firstn n l) /\ drops tdrop (rev (skipn n l)) w = (Ret tt, w').
  Proof.
    intros v l n x w Hv Hd Hn.
    destruct (@try_resize_no_copy_cases W alloc isize_max T sz tclone tdrop v l n x w Hv Hd)
      as [(? & _)|[(_ & v1 & w1 & Hr & Hh & _ & Hdr)|(e & w1 & Hr)]]; [lia|eauto|].
    exfalso. rewrite try_resize_no_copy_eq in Hr. pose proof Hv as (Hl & _).
    destruct (Nat.ltb_spec (vlen v) n); [lia|].
    destruct (@truncate_ok W isize_max T sz tdrop v l n w Hv Hd) as (? & ? & Hr' & _). congruence.
  Qed.

  (** what happens for any destructors that return or panic.  Either all removed elements were destroyed once
      (last first), or a destructor panicked: then the elements behind it were destroyed, and the vector still owns the
      element whose destructor ran ([l1] and one dead slot), so that dropping it touches that element again (unless a
      second and a third destructor panic first and abort the process). *)
  Theorem C06_panic_exact_partial : forall (v : rvec T) l n x w o v' w',
    holds v l -> drop_returns_or_panics tdrop -> n <= length l ->
    try_resize_no_copy alloc isize_max sz tdrop tclone n x (v, w) = (o, (v', w')) ->
    (o = Ret tt /\ holds v' (firstn n l) /\ drops tdrop (rev (skipn n l)) w = (Ret tt, w')) \/
    (o = Panic /\ exists l1 y l2 w1, l = l1 ++ y :: l2 /\ n <= length l1 /\
       drops tdrop (rev l2) w = (Ret tt, w1) /\ tdrop y w1 = (Panic, w') /\
       vlen v' = length l1 + 1 /\ (forall i, i < length l1 -> vslots v' i = nth_error l1 i) /\ vslots v' (length l1) = None /\
       forall w2, fst (drop_vec tdrop (v', w2)) = UB \/ fst (drop_glue tdrop false l1 w2) = Abort).
  Proof.
    intros v l n x w o v' w' Hv Hd Hn E. rewrite try_resize_no_copy_eq in E. pose proof Hv as (Hl & _).
    destruct (Nat.ltb_spec (vlen v) n); [lia|]. unfold truncate, bind, get_len in E. cbn [fst] in E.
    destruct (@truncate_loop_any W isize_max T sz tdrop (skipn n l) v (firstn n l) w) as (o1 & v1 & w1 & Hr & Hc); auto.
    { now rewrite firstn_skipn. }
    rewrite <- app_length, firstn_skipn in Hr. rewrite skipn_length in Hr. rewrite Hl in E. rewrite Hr in E. injection E as -> -> ->.
    destruct Hc as [Hc|(-> & xs1 & y & xs2 & w2 & Es & Hdr & Hy & D1 & D2 & D3)]; [now left|right]. split; [reflexivity|].
    exists (firstn n l ++ xs1), y, xs2, w2. split; [rewrite <- app_assoc, <- Es; now rewrite firstn_skipn|].
    split; [rewrite app_length, firstn_length; lia|]. split; [exact Hdr|]. split; [exact Hy|]. split; [exact D1|]. split; [exact D2|]. split; [exact D3|].
    intros w3. unfold drop_vec, bind, get_len, drop_slice. cbn [fst]. rewrite D1. apply drop_rest_dead; auto.
  Qed.

  (** ** C07: a reservation is a promise.  [run_puts] runs pushes and inserts;
      [puts_ok] says no insertion index is past the end.  The world is
      unchanged: the allocator was never asked. *)
  Theorem C07_reservation_covers_pushes : forall (v v1 : rvec T) l n w w1 u ps,
    holds v l -> try_reserve alloc isize_max sz n (v, w) = (Ret u, (v1, w1)) ->
    length ps <= n -> puts_ok ps (length l) ->
    exists v2, run_puts alloc isize_max sz ps (v1, w1) = (Ret tt, (v2, w1)) /\
      holds v2 (fold_left (fun a p => put_list p a) ps l) /\ capacity v2 = capacity v1.
  Proof.
    intros v v1 l n w w1 u ps Hv Hr Hn Hok.
    destruct (@try_reserve_cases W alloc isize_max T sz v l n w Hv) as [(v' & w' & Hr' & Hh & Hc & _)|(? & ? & Hr' & _)]; [|congruence].
    rewrite Hr' in Hr. injection Hr; intros; subst.
    apply run_puts_ok; auto. unfold room. destruct Hh as (-> & _). lia.
  Qed.

  Theorem C07_with_capacity_covers_pushes : forall (v : rvec T) n w w1 ps,
    try_with_capacity alloc isize_max T sz n w = (Ret v, w1) ->
    length ps <= n -> puts_ok ps 0 ->
    exists v2, run_puts alloc isize_max sz ps (v, w1) = (Ret tt, (v2, w1)) /\
      holds v2 (fold_left (fun a p => put_list p a) ps []) /\ capacity v2 = capacity v.
  Proof.
    intros v n w w1 ps H Hn Hok. unfold try_with_capacity in H.
    destruct (try_reserve alloc isize_max sz n (vec_new T, w)) as [[u|e| | |] [v' w']] eqn:Er; try discriminate.
    injection H; intros; subst.
    eapply C07_reservation_covers_pushes with (l := []) (v := vec_new T); eauto. apply holds_new.
  Qed.

  Theorem C07_reserve_within_room_is_noop : forall (v : rvec T) l n w,
    holds v l -> n <= capacity v - length l ->
    try_reserve alloc isize_max sz n (v, w) = (Ret tt, (v, w)).
  Proof.
    intros v l n w (Hl & _) Hn. unfold try_reserve. rewrite Hl.
    destruct (Nat.leb_spec n (capacity v - length l)); [reflexivity|lia].
  Qed.

  (** ** C09: concat.  [checked]: with or without usize overflow checks
      (debug / release build). *)
  Theorem C09_concat : forall checked (vs : list (rvec T)) ls w r w',
    Forall2 holds vs ls ->
    concat alloc isize_max sz tclone checked vs w = (r, w') ->
    (forall v, r = Ret v -> exists ys, holds v ys /\ Forall2 (is_clone tclone) (List.concat ls) ys) /\
    (clone_settled tclone -> length (List.concat ls) <= usize_max isize_max -> settled r) /\
    (length (List.concat ls) <= usize_max isize_max ->
       (exists e, r = Err e /\ denied alloc isize_max sz (length (List.concat ls)) e w w') \/
       (exists w1 ys o, granted alloc isize_max sz (length (List.concat ls)) w w1 /\
          clones tclone (List.concat ls) w1 = (ys, o, w') /\ built isize_max sz o ys r)).
  Proof.
    intros checked vs ls w r w' HF H. pose proof (@concat_cases W alloc isize_max T sz tclone checked vs ls w HF) as Hc.
    rewrite H in Hc. split; [|split].
    - intros v ->. exact Hc.
    - intros Hs Hlen. destruct r; try exact I; destruct Hc as [[_ Hc]|(x & w1 & _ & Hc)]; try lia;
        specialize (Hs x w1); destruct (tclone x w1) as [[] ?]; simpl in *; contradiction.
    - intros Hlen. destruct (@concat_exact W alloc isize_max T sz tclone checked vs ls w HF Hlen)
        as [(e & w1 & E & D)|(w1 & ys & o & w2 & r' & E & G & Hcl & B)]; rewrite H in E; injection E as -> ->.
      + left. eauto.
      + right. exists w1, ys, o. auto.
  Qed.

  (** ** C10: collecting *)
  Section Iter.
    Variable I : Type.
    Variable next : I -> W -> outcome reserve_error (option (T * I)) * W.
    (** whatever is returned is exactly what the iterator produced, called
        once per item in the world the allocator left after the item before *)
    Theorem C10_collect_exact : forall fuel it w v w',
      try_from_iterator alloc isize_max sz next fuel it w = Some (Ret v, w') ->
      exists xs, produces next (push_granted alloc sz) 0 it w xs w' /\ holds v xs.
    Proof.
      intros fuel it w v w' H. unfold try_from_iterator in H.
      pose proof (@from_iter_loop_cases W alloc isize_max T sz I next fuel it (vec_new T) [] w (holds_new isize_max T sz)) as Hc.
      destruct (from_iter_loop alloc isize_max sz next fuel it (vec_new T, w)) as [[[u|e| | |] [v' w1]]|]; try discriminate.
      injection H; intros; subst. exact Hc.
    Qed.
    (** a finite iterator is always collected, or memory was refused, or the
        iterator panicked *)
    (** every way collecting can end *)
    Theorem C10_collect_whole : forall fuel it w r w',
      try_from_iterator alloc isize_max sz next fuel it w = Some (r, w') ->
      exists o ys, collected alloc isize_max sz next [] it w o ys w' /\ built isize_max sz o ys r.
    Proof.
      intros fuel it w r w' H. unfold try_from_iterator in H.
      destruct (from_iter_loop alloc isize_max sz next fuel it (vec_new T, w)) as [[o [v' w1]]|] eqn:E; [|discriminate].
      destruct (@collect_exact W alloc isize_max T sz I next fuel it (vec_new T) [] w o v' w1 (holds_new isize_max T sz) E) as (ys & Hc & Hh).
      exists o, ys. destruct o as [[]|e| | |]; injection H as <- <-; split; try exact Hc; try exact Logic.I; try reflexivity. exact Hh.
    Qed.

    Theorem C10_collect_total : forall n it w,
      ends_within next n it ->
      exists r w', (forall fuel, n < fuel -> try_from_iterator alloc isize_max sz next fuel it w = Some (r, w')) /\
        ((exists v xs, r = Ret v /\ holds v xs /\ length xs <= n /\ produces next (push_granted alloc sz) 0 it w xs w') \/
         is_err r \/ r = Panic /\ exists it w, fst (next it w) = Panic).
    Proof.
      intros n it w Hp.
      destruct (@from_iter_loop_total W alloc isize_max T sz I next n it Hp (vec_new T) [] w (holds_new isize_max T sz))
        as (o & v' & w' & Hf & [(xs & -> & Hh & Hn & Hx)|[[e ->]|[-> HP]]]).
      - exists (Ret v'), w'. split; [|left; eauto 6]. intros fuel Hfu. unfold try_from_iterator. now rewrite Hf.
      - exists (Err e), w'. split; [|right; left; exact Logic.I]. intros fuel Hfu. unfold try_from_iterator. now rewrite Hf.
      - exists Panic, w'. split; [|right; right; auto]. intros fuel Hfu. unfold try_from_iterator. now rewrite Hf.
    Qed.
  End Iter.

  (** ** C19: try_from_elem, generic and u8 *)
  Theorem C19_from_elem : forall (x : T) n w r w',
    drop_returns tdrop -> try_from_elem alloc isize_max sz tdrop tclone x n w = (r, w') ->
    (forall v, r = Ret v -> exists ys, holds v ys /\ length ys = n /\ Forall (fun y => y = x \/ is_clone tclone x y) ys) /\
    (clone_settled tclone -> settled r).
  Proof.
    intros x n w r w' Hd H. pose proof (@try_from_elem_cases W alloc isize_max T sz tclone tdrop x n w Hd) as Hc.
    rewrite H in Hc. split.
    - intros v ->. destruct Hc as (ys & Hh & Hl & HF). eexists. split; [exact Hh|].
      destruct n; simpl in *.
      + rewrite app_nil_r. split; [exact Hl|]. destruct ys; [constructor|discriminate].
      + rewrite app_length. simpl. split; [lia|]. apply Forall_app. split; [|repeat constructor].
        eapply Forall_impl; [|exact HF]. auto.
    - intros Hs. destruct r; try exact I; destruct Hc as (w1 & Hc); specialize (Hs x w1);
        destruct (tclone x w1) as [[] ?]; simpl in *; contradiction.
  Qed.

  (** every way it can end, for n + 1 elements: memory for them is asked for at
      most once and first; then the value is cloned n times and moved in last *)
  Theorem C19_from_elem_whole : forall (x : T) n w r w',
    try_from_elem alloc isize_max sz tdrop tclone x (S n) w = (r, w') ->
    (exists e, r = Err e /\ denied alloc isize_max sz (S n) e w w') \/
    (exists w1 ys o, granted alloc isize_max sz (S n) w w1 /\ clones tclone (repeat x n) w1 = (ys, o, w') /\
       built isize_max sz o (ys ++ [x]) r).
  Proof.
    intros x n w r w' H.
    destruct (@from_elem_exact W alloc isize_max T sz tclone tdrop x n w)
      as [(e & w1 & E & D)|(w1 & ys & o & w2 & r' & E & G & Hcl & B)]; rewrite H in E; injection E as -> ->.
    - left. eauto.
    - right. exists w1, ys, o. auto.
  Qed.

  Theorem C19_from_elem_u8 : forall (x : T) n w r w',
    try_from_elem_u8 alloc isize_max sz x n w = (r, w') ->
    (exists e, r = Err e /\ denied alloc isize_max sz n e w w') \/
    (exists v, r = Ret v /\ holds v (repeat x n) /\ granted alloc isize_max sz n w w').
  Proof.
    intros x n w r w' H. pose proof (@try_from_elem_u8_cases W alloc isize_max T sz x n w) as Hc.
    rewrite H in Hc. unfold try_from_elem_u8, build, bind in H.
    destruct (@reserve_spec W alloc isize_max T sz (vec_new T) [] n w (holds_new isize_max T sz)) as [(v1 & w1 & E & Hh1 & Hcap & G)|(e1 & w1 & E & D)]; rewrite E in H.
    - right. unfold write_bytes, set_len in H.
      destruct (n <=? VecModel.capacity isize_max sz v1); cbn in H; repeat match type of H with context [if ?b then _ else _] => destruct b end;
        injection H as <- <-; try contradiction. eauto.
    - left. injection H as <- <-. eauto.
  Qed.
End Vec.

(** ** C06: the full statement, and its refutation.  Full statement: whatever
    the destructors do (return or panic), after shrinking, dropping the vector
    never touches an element whose destructor already ran (no double drop). *)
Definition C06_full : Prop :=
  forall (W T : Type) alloc isize_max sz
         (tdrop : T -> W -> outcome reserve_error unit * W) tclone (v : rvec T) l n x w o v' w',
    holds isize_max sz v l -> drop_returns_or_panics tdrop -> n <= length l ->
    try_resize_no_copy alloc isize_max sz tdrop tclone n x (v, w) = (o, (v', w')) ->
    fst (drop_vec tdrop (v', w')) <> UB.

Theorem C06_double_drop_refuted : ~ C06_full.
Proof.
  intros H.
  specialize (H unit nat (fun _ w => (Grant 0, w)) 100 1
    (fun x w => if x =? 7 then (Panic, w) else (Ret tt, w)) (fun x w => (Ret x, w))
    (mkVec 2 2 (fun i => if i =? 0 then Some 5 else if i =? 1 then Some 7 else None)) [5; 7] 1 9 tt).
  eapply H; [| | |reflexivity|].
  - unfold holds, capacity; simpl. repeat split; try lia. intros [|[|i]] Hi; try reflexivity; lia.
  - intros x w. destruct (x =? 7); auto.
  - simpl; lia.
  - vm_compute. reflexivity.
Qed.

(** ** C08: try_clone of any nesting of primitives, Option, Box and Vec.
    [stands x p] (MiscSpec): the run-time value [x] is valid and denotes [p].
    The clone denotes the same value; with an allocator that grants what was
    asked for it never ends otherwise than in a value or an error.  (The
    source is an argument passed by shared reference: the model cannot change
    it.) *)
Theorem C08_deep_clone : forall (W : Type) (alloc : nat -> W -> answer * W) isize_max (P : Type) szof t
    (x : val P t) (p : pure P t) w r w',
  stands isize_max szof t x p ->
  clone_ty alloc isize_max P szof t x w = (r, w') ->
  (forall y, r = Ret y -> stands isize_max szof t y p) /\
  (exact_alloc alloc -> settled r) /\
  ((forall u, szof u <= isize_max) -> 0 < isize_max ->
   forall e, r = Err e -> exists n w1 w2, alloc n w1 = (Refuse e, w2)).
Proof.
  intros W alloc isize_max P szof t x p w r w' Hx H. split; [|split].
  - intros y ->. pose proof (@clone_ty_faithful W alloc isize_max P szof t x p Hx w) as Hc. now rewrite H in Hc.
  - intros Hex. pose proof (@clone_ty_settled W alloc isize_max P szof t Hex x p Hx w) as Hc. now rewrite H in Hc.
  - intros Hsz Hpos e ->. eapply clone_ty_refused; eauto.
Qed.

(** a Vec whose elements are of any type: memory for just as many elements is
    asked for at most once, before anything is cloned, and if it is not there
    that is the error; else the elements are cloned in order, the copy holds
    the clones, and the call ends otherwise only if a clone did, and so.
    ([granted], [denied]: VecHistorySpec; [clones]: VecSpec; [built]: VecExact.) *)
Theorem C08_vec_clone : forall (W : Type) (alloc : nat -> W -> answer * W) isize_max (T : Type) sz
    (tclone : T -> W -> outcome reserve_error T * W) (v : rvec T) l w r w',
  holds isize_max sz v l -> vec_try_clone alloc isize_max sz tclone v w = (r, w') ->
  (exists e, r = Err e /\ denied alloc isize_max sz (length l) e w w') \/
  (exists w1 ys o, granted alloc isize_max sz (length l) w w1 /\ clones tclone l w1 = (ys, o, w') /\
     built isize_max sz o ys r /\ (o = Ret tt -> Forall2 (is_clone tclone) l ys)).
Proof.
  intros W alloc isize_max T sz tclone v l w r w' Hv H.
  destruct (@vec_clone_exact W alloc isize_max T sz tclone v l w Hv)
    as [(e & w1 & E & D)|(w1 & ys & o & w2 & r' & E & G & Hc & B)]; rewrite H in E; injection E as -> ->.
  - left. eauto.
  - right. exists w1, ys, o. repeat (split; auto). intros ->. eapply clones_ret; eauto.
Qed.

(** *** Non-vacuity: a concrete vector of 2 elements in a block of 2, on a tiny
    machine, with an allocator that refuses the first request and grants
    the second with slack. *)
Definition ex_alloc (n : nat) (w : list answer) : answer * list answer :=
  match w with [] => (Grant 0, []) | a :: w' => (a, w') end.
Definition ex_vec : rvec nat := mkVec 2 2 (fun i => if i =? 0 then Some 10 else if i =? 1 then Some 20 else None).

Example ex_holds : holds 1000 4 ex_vec [10; 20].
Proof. unfold holds, capacity; simpl. repeat split; try lia. intros [|[|i]] Hi; try reflexivity; lia. Qed.

Example ex_push_refused :
  fst (try_push ex_alloc 1000 4 30 (ex_vec, [Refuse AllocError])) = Err AllocError.
Proof. vm_compute. reflexivity. Qed.

Example ex_push_granted : exists v,
  try_push ex_alloc 1000 4 30 (ex_vec, [Grant 1]) = (Ret tt, (v, [])) /\ as_slice v = Some [10; 20; 30] /\ vcap v = 4.
Proof. eexists. split; [vm_compute; reflexivity|]. vm_compute. auto. Qed.

Example ex_insert_middle : exists v,
  try_insert ex_alloc 1000 4 1 30 (ex_vec, [Grant 1]) = (Ret tt, (v, [])) /\ as_slice v = Some [10; 30; 20].
Proof. eexists. split; [vm_compute; reflexivity|]. vm_compute. auto. Qed.

(** clone of the second element fails: the first clone stays *)
Example ex_extend_interrupted : exists v,
  try_extend_from_slice_no_copy ex_alloc 1000 4
    (fun x w => if x =? 2 then (Err AllocError, w) else (Ret x, w)) [1; 2; 3] (ex_vec, []) =
    (Err AllocError, (v, [])) /\ as_slice v = Some [10; 20; 1].
Proof. eexists. split; [vm_compute; reflexivity|]. vm_compute. auto. Qed.

Example ex_concat : exists v,
  concat ex_alloc 1000 4 (fun x w => (Ret x, w)) true [ex_vec; ex_vec] [] = (Ret v, []) /\
  as_slice v = Some [10; 20; 10; 20].
Proof. eexists. split; [vm_compute; reflexivity|]. vm_compute. auto. Qed.

(** a clone that is refused its memory; one whose second element cannot be cloned *)
Example ex_clone_refused :
  vec_try_clone ex_alloc 1000 4 (fun x w => (Ret x, w)) ex_vec [Refuse AllocError] = (Err AllocError, []).
Proof. vm_compute. reflexivity. Qed.
Example ex_clone_interrupted :
  vec_try_clone ex_alloc 1000 4 (fun x w => if x =? 20 then (Err CapacityOverflow, w) else (Ret x, w)) ex_vec [Grant 1]
  = (Err CapacityOverflow, []).
Proof. vm_compute. reflexivity. Qed.

Example ex_from_elem : exists v,
  try_from_elem ex_alloc 1000 4 (fun _ w => (Ret tt, w)) (fun x w => (Ret x, w)) 5 3 [] = (Ret v, []) /\
  as_slice v = Some [5; 5; 5].
Proof. eexists. split; [vm_compute; reflexivity|]. vm_compute. auto. Qed.

Example ex_from_elem_u8 : exists v,
  try_from_elem_u8 ex_alloc 1000 1 5 3 [] = (Ret v, []) /\ as_slice v = Some [5; 5; 5].
Proof. eexists. split; [vm_compute; reflexivity|]. vm_compute. auto. Qed.

Example ex_collect : exists v,
  try_from_iterator ex_alloc 1000 4 (fun n w => (if n =? 3 then Ret None else Ret (Some (n, S n)), w)) 10 0 [] = Some (Ret v, []) /\
  as_slice v = Some [0; 1; 2].
Proof. eexists. split; [vm_compute; reflexivity|]. vm_compute. auto. Qed.

(** a Vec<Option<Box<u>>> value *)
Example ex_stands : stands 1000 (fun _ => 8) (TVec (TOpt (TBox TPrim)))
  (mkVec 2 2 (fun i => if i =? 0 then Some (Some 10) else if i =? 1 then Some None else None) : val nat (TVec (TOpt (TBox TPrim))))
  [Some 10; None].
Proof.
  exists [Some 10; None]. split.
  - unfold holds, capacity; simpl. repeat split; try lia. intros [|[|i]] Hi; try reflexivity; lia.
  - repeat constructor.
Qed.

Print Assumptions C01_failed_call_changes_nothing.
Print Assumptions C02_push.
Print Assumptions C02_push_give_back.
Print Assumptions C02_insert.
Print Assumptions C02_append.
Print Assumptions C02_resize.
Print Assumptions C02_resize_with.
Print Assumptions C02_extend_from_slice.
Print Assumptions C02_extend_from_slice_no_copy.
Print Assumptions C02_resize_no_copy.
Print Assumptions C02_pop.
Print Assumptions C03_never_aborts.
Print Assumptions C04_gives_back.
Print Assumptions C05_extend_interrupted.
Print Assumptions C05_resize_interrupted.
Print Assumptions C06_shrink_drops_once_partial.
Print Assumptions C06_panic_exact_partial.
Print Assumptions C06_double_drop_refuted.
Print Assumptions C07_reservation_covers_pushes.
Print Assumptions C07_with_capacity_covers_pushes.
Print Assumptions C07_reserve_within_room_is_noop.
Print Assumptions C08_deep_clone.
Print Assumptions C08_vec_clone.
Print Assumptions C09_concat.
Print Assumptions C10_collect_exact.
Print Assumptions C10_collect_total.
Print Assumptions C10_collect_whole.
Print Assumptions C19_from_elem.
Print Assumptions C19_from_elem_whole.
Print Assumptions C19_from_elem_u8.
