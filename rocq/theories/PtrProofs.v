(** * PtrProofs: the pointer programs keep their memory *)
From Coq Require Import List Arith Lia Bool.
Import ListNotations.
From Verif Require Import Base VecModel PtrModel PtrSpec.
Set Implicit Arguments.

Section HeapFacts.
  Variable T : Type.
  Implicit Types (hp : pheap T) (l : nat).
  Lemma pget_in hp l : pget hp l <> None <-> In l (map fst hp).
  Proof.
    induction hp as [|[l' b] hp IH]; cbn; [tauto|]. destruct (Nat.eqb_spec l l') as [->|N]; [intuition congruence|].
    rewrite IH. intuition congruence.
  Qed.
  Lemma pget_out hp l : pget hp l = None <-> ~ In l (map fst hp).
  Proof. rewrite <- pget_in. destruct (pget hp l); intuition congruence. Qed.
  Lemma pfree_incl hp l x : In x (map fst (pfree hp l)) -> In x (map fst hp).
  Proof. induction hp as [|[l' b] hp IH]; cbn; auto. destruct (Nat.eqb_spec l l'); cbn; tauto. Qed.
  Lemma pfree_nodup hp l : NoDup (map fst hp) -> NoDup (map fst (pfree hp l)).
  Proof.
    induction hp as [|[l' b] hp IH]; cbn; auto. intros H. inversion H; subst. destruct (Nat.eqb_spec l l'); cbn; auto.
    constructor; auto. intros Hi. now apply pfree_incl in Hi.
  Qed.
  Lemma pget_pfree_same hp l : NoDup (map fst hp) -> pget (pfree hp l) l = None.
  Proof.
    induction hp as [|[l' b] hp IH]; cbn; auto. intros H. inversion H; subst. destruct (Nat.eqb_spec l l') as [->|N]; cbn.
    - now apply pget_out.
    - destruct (Nat.eqb_spec l l'); [congruence|auto].
  Qed.
  Lemma pget_pfree_other hp l l' : l' <> l -> pget (pfree hp l) l' = pget hp l'.
  Proof.
    intros N. induction hp as [|[l1 b] hp IH]; cbn; auto. destruct (Nat.eqb_spec l l1) as [->|N1]; cbn.
    - destruct (Nat.eqb_spec l' l1); congruence.
    - destruct (Nat.eqb_spec l' l1); auto.
  Qed.
  Lemma pput_fst hp l b : map fst (pput hp l b) = map fst hp.
  Proof. induction hp as [|[l' b'] hp IH]; cbn; auto. destruct (Nat.eqb_spec l l'); cbn; congruence. Qed.
  Lemma pget_pput_same hp l b : pget hp l <> None -> pget (pput hp l b) l = Some b.
  Proof.
    induction hp as [|[l' b'] hp IH]; cbn; [congruence|]. destruct (Nat.eqb_spec l l') as [->|N]; cbn.
    - now rewrite Nat.eqb_refl.
    - destruct (Nat.eqb_spec l l'); [congruence|auto].
  Qed.
  Lemma pget_pput_other hp l l' b : l' <> l -> pget (pput hp l b) l' = pget hp l'.
  Proof.
    intros N. induction hp as [|[l1 b1] hp IH]; cbn; auto. destruct (Nat.eqb_spec l l1) as [->|N1]; cbn.
    - destruct (Nat.eqb_spec l' l1); congruence.
    - destruct (Nat.eqb_spec l' l1); auto.
  Qed.
  (** weights of the values in memory *)
  Variable wt : T -> nat.
  Definition bw (b : block T) : nat := match pval b with Some x => wt x | None => 0 end.
  Fixpoint hw hp : nat := match hp with [] => 0 | (_, b) :: hp' => bw b + hw hp' end.
  Lemma hw_pfree hp l b : pget hp l = Some b -> hw hp = bw b + hw (pfree hp l).
  Proof.
    induction hp as [|[l' b'] hp IH]; cbn; [discriminate|]. destruct (Nat.eqb_spec l l') as [->|N]; cbn; [congruence|].
    intros H. rewrite (IH H). lia.
  Qed.
  Lemma hw_pput hp l b b' : pget hp l = Some b -> hw (pput hp l b') + bw b = hw hp + bw b'.
  Proof.
    induction hp as [|[l' b1] hp IH]; cbn; [discriminate|]. destruct (Nat.eqb_spec l l') as [->|N]; cbn.
    - intros [= ->]. lia.
    - intros H. specialize (IH H). lia.
  Qed.
End HeapFacts.

Section Sums.
  Variable T : Type.
  Implicit Types (g : nat -> slot T) (f : slot T -> nat).
  Fixpoint total f g (n : nat) : nat := match n with 0 => 0 | S n' => total f g n' + f (g n') end.
  Lemma total_ext f g g' n : (forall r, r < n -> f (g r) = f (g' r)) -> total f g n = total f g' n.
  Proof. induction n; cbn; intros H; auto. rewrite IHn, (H n); auto. Qed.
  Lemma total_upd f g n r a : r < n -> total f (upd g r a) n + f (g r) = total f g n + f a.
  Proof.
    induction n; [lia|]. intros H. cbn. destruct (Nat.eq_dec r n) as [->|N].
    - rewrite upd_same. rewrite (@total_ext f (upd g n a) g n); [lia|]. intros r Hr. rewrite upd_other; auto. lia.
    - rewrite upd_other; [|auto]. specialize (IHn ltac:(lia)). lia.
  Qed.
  Lemma total_grow f g n m : n <= m -> (forall r, n <= r -> f (g r) = 0) -> total f g m = total f g n.
  Proof. intros L H. induction L as [|m L IH]; auto. cbn. rewrite IH, (H m); auto. Qed.
  Lemma total_le f g n r : r < n -> f (g r) <= total f g n.
  Proof. induction n; [lia|]. intros H. cbn. destruct (Nat.eq_dec r n) as [->|N]; [lia|]. specialize (IHn ltac:(lia)). lia. Qed.
  Lemma total_le2 f g n r r' : f Void = 0 -> r < n -> r' < n -> r <> r' -> f (g r) + f (g r') <= total f g n.
  Proof.
    intros HV H H' N. pose proof (@total_upd f g n r Void H). pose proof (@total_le f (upd g r Void) n r' H').
    rewrite upd_other in H1 by auto. lia.
  Qed.
  Lemma total_ex f g n : 1 <= total f g n -> exists r, r < n /\ 1 <= f (g r).
  Proof. induction n; cbn; [lia|]. intros H. destruct (le_lt_dec 1 (f (g n))); [exists n; lia|]. destruct IHn as (r & ? & ?); [lia|]. exists r. lia. Qed.
  Definition b2n (b : bool) : nat := if b then 1 else 0.
  Lemma refs_total (p : slot T -> bool) g n : refs p g n = total (fun a => b2n (p a)) g n.
  Proof.
    unfold refs. induction n; auto. rewrite seq_S, filter_app, app_length, IHn. cbn. destruct (p (g n)); reflexivity.
  Qed.
End Sums.

Section Ptr.
  Variables (T W : Type) (alloc : nat -> W -> answer * W) (place : pheap T -> W -> nat).
  Variables (isize_max usize_bytes sz : nat) (tclone : T -> W -> outcome reserve_error T * W) (tdrop : T -> W -> W).
  Variable wt : T -> nat.
  Hypothesis place_fresh : forall hp w, pget hp (place hp w) = None.
  Notation stores := (stores sz). Notation holds_ := (holds_ usize_bytes sz).
  Implicit Types (S : owns T) (v : pvars T) (hp : pheap T) (ps : list (slot T)) (hs : list (handle T)).

  Definition plen {A} (p : A -> bool) (l : list A) : nat := length (filter p l).
  Definition nb (l : nat) v ps n := total (fun a => b2n (is_box l a)) (regs v) n + plen (is_raw l) (raws v) + plen (is_box l) ps.
  Definition nc (l : nat) v ps n := total (fun a => b2n (is_counted l a)) (regs v) n + plen (is_counted l) ps.
  (** the invariant, with pointers [ps] on their way *)
  Record inv S v hp ps hs n : Prop := {
    i_regs : forall r, holds_ hp (regs v r) (vars S r);
    i_raws : Forall2 (stores hp) (raws v) (raw_values S);
    i_pend : Forall2 (holds_ hp) ps hs;
    i_nodup : NoDup (map fst hp);
    i_void : forall r, n <= r -> regs v r = Void;
    i_count : forall l, match pget hp l with
                        | None => nb l v ps n = 0 /\ nc l v ps n = 0
                        | Some b => (nb l v ps n = 1 /\ nc l v ps n = 0) \/ (nb l v ps n = 0 /\ 1 <= nc l v ps n /\ pcount b = nc l v ps n)
                        end }.
  Lemma inv_memory S v hp : pmemory usize_bytes sz S v hp <-> exists n, inv S v hp [] [] n.
  Proof.
    split.
    - intros (H1 & H2 & H3 & n & H4 & H5). exists n. constructor; auto. intros l. specialize (H5 l). cbn zeta in H5.
      rewrite !refs_total in H5. unfold nb, nc, plen in *. cbn. rewrite !Nat.add_0_r. exact H5.
    - intros (n & [H1 H2 _ H3 H4 H5]). split; [auto|]. split; [auto|]. split; [auto|]. exists n. split; [auto|].
      intros l. specialize (H5 l). cbn zeta. rewrite !refs_total. unfold nb, nc, plen in *. cbn in H5. rewrite !Nat.add_0_r in H5. exact H5.
  Qed.
  Lemma inv_grow S v hp ps hs n m : n <= m -> inv S v hp ps hs n -> inv S v hp ps hs m.
  Proof.
    intros L [H1 H2 H3 H4 H5 H6]. constructor; auto. intros r Hr. apply H5. lia.
    intros l. specialize (H6 l). unfold nb, nc in *.
    rewrite (@total_grow T (fun a => b2n (is_box l a)) (regs v) n m L), (@total_grow T (fun a => b2n (is_counted l a)) (regs v) n m L); auto;
      intros r Hr; rewrite H5; auto.
  Qed.
  Lemma plen_cons {A} (p : A -> bool) x l : plen p (x :: l) = b2n (p x) + plen p l.
  Proof. unfold plen. cbn. destruct (p x); reflexivity. Qed.
  Lemma plen_app {A} (p : A -> bool) l l' : plen p (l ++ l') = plen p l + plen p l'.
  Proof. unfold plen. now rewrite filter_app, app_length. Qed.
  Lemma plen_in {A} (p : A -> bool) x l : In x l -> p x = true -> 1 <= plen p l.
  Proof. intros H Hp. induction l; [contradiction|]. rewrite plen_cons. destruct H as [->|H]; [rewrite Hp; cbn; lia|]. specialize (IHl H). lia. Qed.

  (** a pointer on its way and a variable change places *)
  Lemma inv_swap S v hp a h ps hs n r : r < n -> inv S v hp (a :: ps) (h :: hs) n ->
    inv (Owns (upd (vars S) r h) (raw_values S)) (pset_ v r a) hp (regs v r :: ps) (vars S r :: hs) n.
  Proof.
    intros L [H1 H2 H3 H4 H5 H6]. inversion H3; subst. constructor; cbn; auto.
    - intros r'. unfold upd. destruct (Nat.eqb_spec r' r); auto.
    - intros r' Hr. rewrite upd_other; [auto|lia].
    - intros l. specialize (H6 l). unfold nb, nc in *. rewrite !plen_cons in *. cbn [regs raws pset_].
      pose proof (@total_upd T (fun a => b2n (is_box l a)) (regs v) n r a L). pose proof (@total_upd T (fun a => b2n (is_counted l a)) (regs v) n r a L).
      cbn beta in *. destruct (pget hp l); lia.
  Qed.
  (** adding or taking away nothing *)
  Lemma inv_void S v hp ps hs n : inv S v hp ps hs n <-> inv S v hp (Void :: ps) (HNone :: hs) n.
  Proof.
    split; intros [H1 H2 H3 H4 H5 H6]; constructor; auto.
    - constructor; [exact I|auto].
    - now inversion H3.
  Qed.

  (** nothing but the pointer on its way knows a box's block *)
  Lemma frame_box S v hp l h ps hs n hp' : inv S v hp (Boxed (At l) :: ps) (h :: hs) n ->
    (forall l', l' <> l -> pget hp' l' = pget hp l') ->
    (forall r, holds_ hp' (regs v r) (vars S r)) /\ Forall2 (stores hp') (raws v) (raw_values S) /\ Forall2 (holds_ hp') ps hs.
  Proof.
    intros [H1 H2 H3 H4 H5 H6] F. specialize (H6 l). unfold nb, nc in H6. rewrite !plen_cons in H6. cbn [is_box is_counted b2n] in H6. rewrite Nat.eqb_refl in H6. cbn [b2n] in H6.
    assert (forall a, (is_box l a = false) -> is_counted l a = false -> forall h, holds_ hp a h -> holds_ hp' a h) as X.
    { intros a B1 B2 h0. destruct h0, a as [|[]|]; cbn in *; auto; try (destruct (Nat.eqb_spec l l0); [discriminate|]); rewrite ?F; auto. }
    assert (total (fun a => b2n (is_box l a)) (regs v) n + plen (is_raw l) (raws v) + plen (is_box l) ps = 0 /\
            total (fun a => b2n (is_counted l a)) (regs v) n + plen (is_counted l) ps = 0) as [Z1 Z2] by (destruct (pget hp l); lia).
    split; [|split].
    - intros r. destruct (le_lt_dec n r) as [L|L].
      + apply X; auto; rewrite H5; auto.
      + apply X; auto.
        * pose proof (@total_le T (fun a => b2n (is_box l a)) (regs v) n r L). cbn beta in *. destruct (is_box l (regs v r)); auto. cbn [b2n] in *. lia.
        * pose proof (@total_le T (fun a => b2n (is_counted l a)) (regs v) n r L). cbn beta in *. destruct (is_counted l (regs v r)); auto. cbn [b2n] in *. lia.
    - assert (plen (is_raw l) (raws v) = 0) as Z by lia. clear - H2 Z F. induction H2 as [|p x ps xs Hp H IH]; constructor; rewrite plen_cons in Z.
      + destruct p; cbn in *; auto. destruct (Nat.eqb_spec l l0); [cbn in Z; lia|]. now rewrite F by auto.
      + apply IH. lia.
    - inversion H3 as [|? ? ? ? Ha Hps]; subst. assert (plen (is_box l) ps = 0 /\ plen (is_counted l) ps = 0) as [Z3 Z4] by lia.
      clear - Hps Z3 Z4 X. induction Hps as [|p x ps xs Hp H IH]; constructor; rewrite plen_cons in *.
      + apply X; auto; [destruct (is_box l p)|destruct (is_counted l p)]; auto; cbn in *; lia.
      + apply IH; lia.
  Qed.
  Lemma box_block S v hp l x ps hs n : inv S v hp (Boxed (At l) :: ps) (HBox x :: hs) n -> sz <> 0 /\ pget hp l = Some (Block sz (Some x) 0).
  Proof. intros [_ _ H3 _ _ _]. inversion H3 as [|? ? ? ? Ha Hps]; subst. exact Ha. Qed.
  Lemma others S v hp a h ps hs n l : inv S v hp (a :: ps) (h :: hs) n -> is_box l a = false -> is_counted l a = false ->
    nb l v (a :: ps) n = nb l v ps n /\ nc l v (a :: ps) n = nc l v ps n.
  Proof. intros _ E1 E2. unfold nb, nc. rewrite !plen_cons, E1, E2. cbn [b2n]. lia. Qed.
  Lemma box_free S v hp l x ps hs n : inv S v hp (Boxed (At l) :: ps) (HBox x :: hs) n -> inv S v (pfree hp l) ps hs n.
  Proof.
    intros I. destruct (box_block I) as [Z B]. destruct (@frame_box _ _ _ _ _ _ _ _ (pfree hp l) I) as (F1 & F2 & F3);
      [intros; now apply pget_pfree_other|]. destruct I as [H1 H2 H3 H4 H5 H6]. constructor; auto using pfree_nodup.
    intros l'. specialize (H6 l'). unfold nb, nc in *. rewrite !plen_cons in H6. cbn [is_box is_counted b2n] in H6. destruct (Nat.eq_dec l' l) as [->|N].
    - rewrite pget_pfree_same by auto. rewrite B, Nat.eqb_refl in H6. cbn [b2n] in H6. lia.
    - rewrite pget_pfree_other by auto. apply Nat.eqb_neq in N. rewrite N in H6. exact H6.
  Qed.
  Lemma box_write S v hp l x t ps hs n : inv S v hp (Boxed (At l) :: ps) (HBox x :: hs) n ->
    inv S v (pput hp l (Block sz (Some t) 0)) (Boxed (At l) :: ps) (HBox t :: hs) n.
  Proof.
    intros I. destruct (box_block I) as [Z B]. destruct (@frame_box _ _ _ _ _ _ _ _ (pput hp l (Block sz (Some t) 0)) I) as (F1 & F2 & F3);
      [intros; now apply pget_pput_other|]. destruct I as [H1 H2 H3 H4 H5 H6]. constructor; auto.
    - constructor; auto. split; auto. apply pget_pput_same. congruence.
    - now rewrite pput_fst.
    - intros l'. specialize (H6 l'). destruct (Nat.eq_dec l' l) as [->|N].
      + rewrite pget_pput_same by congruence. rewrite B in H6. exact H6.
      + now rewrite pget_pput_other by auto.
  Qed.
  Lemma holds_mono hp hp' : (forall l b, pget hp l = Some b -> pget hp' l = Some b) -> forall a h, holds_ hp a h -> holds_ hp' a h.
  Proof. intros F a h. destruct h, a as [|[]|]; cbn; auto; [intros [? ?]; auto|intros (? & c & ?); eauto]. Qed.
  Lemma stores_mono hp hp' : (forall l b, pget hp l = Some b -> pget hp' l = Some b) -> forall a h, stores hp a h -> stores hp' a h.
  Proof. intros F a h. destruct a; cbn; auto. intros [? ?]; auto. Qed.
  Lemma Forall2_tail A B (P : A -> B -> Prop) x y l l' : Forall2 P (x :: l) (y :: l') -> Forall2 P l l'.
  Proof. intros H. now inversion H. Qed.
  Lemma Forall2_mono A B (P P' : A -> B -> Prop) l l' : (forall a b, P a b -> P' a b) -> Forall2 P l l' -> Forall2 P' l l'.
  Proof. intros F H. induction H; constructor; auto. Qed.
  Lemma new_frame S v hp ps hs n l b : pget hp l = None -> inv S v hp ps hs n ->
    (forall r, holds_ ((l, b) :: hp) (regs v r) (vars S r)) /\ Forall2 (stores ((l, b) :: hp)) (raws v) (raw_values S) /\
    Forall2 (holds_ ((l, b) :: hp)) ps hs /\ NoDup (map fst ((l, b) :: hp)).
  Proof.
    intros F [H1 H2 H3 H4 H5 H6]. assert (forall l0 b0, pget hp l0 = Some b0 -> pget ((l, b) :: hp) l0 = Some b0) as X.
    { intros l0 b0 E. cbn. destruct (Nat.eqb_spec l0 l); congruence. }
    repeat split.
    - intros r. eapply holds_mono; eauto.
    - eapply Forall2_mono; [|exact H2]. intros. eapply stores_mono; eauto.
    - eapply Forall2_mono; [|exact H3]. intros. eapply holds_mono; eauto.
    - cbn. constructor; auto. now apply pget_out.
  Qed.
  Lemma box_new S v hp ps hs n l t : sz <> 0 -> pget hp l = None -> inv S v hp ps hs n ->
    inv S v ((l, Block sz (Some t) 0) :: hp) (Boxed (At l) :: ps) (HBox t :: hs) n.
  Proof.
    intros Z F I. destruct (new_frame l (Block sz (Some t) 0) F I) as (F1 & F2 & F3 & F4). destruct I as [H1 H2 H3 H4 H5 H6]. constructor; auto.
    - constructor; auto. split; auto. cbn. now rewrite Nat.eqb_refl.
    - intros l'. specialize (H6 l'). unfold nb, nc in *. rewrite !plen_cons. cbn [is_box is_counted b2n pget]. destruct (Nat.eqb_spec l' l) as [->|N]; [|exact H6].
      rewrite F in H6. cbn [b2n]. left. lia.
  Qed.
  Lemma counted_new S v hp ps hs n l t : pget hp l = None -> inv S v hp ps hs n ->
    inv S v ((l, Block (counted_size usize_bytes sz) (Some t) 1) :: hp) (Counted l :: ps) (HShared l t :: hs) n.
  Proof.
    intros F I. destruct (new_frame l (Block (counted_size usize_bytes sz) (Some t) 1) F I) as (F1 & F2 & F3 & F4). destruct I as [H1 H2 H3 H4 H5 H6]. constructor; auto.
    - constructor; auto. split; auto. exists 1. cbn. now rewrite Nat.eqb_refl.
    - intros l'. specialize (H6 l'). unfold nb, nc in *. rewrite !plen_cons. cbn [is_box is_counted b2n pget]. destruct (Nat.eqb_spec l' l) as [->|N]; [|exact H6].
      rewrite F in H6. cbn [b2n pcount]. right. lia.
  Qed.
  (** a counted block with another count *)
  Lemma recount S v hp ps hs n l x c c' : inv S v hp ps hs n -> pget hp l = Some (Block (counted_size usize_bytes sz) (Some x) c) -> nb l v ps n = 0 ->
    (forall r, holds_ (pput hp l (Block (counted_size usize_bytes sz) (Some x) c')) (regs v r) (vars S r)) /\
    Forall2 (stores (pput hp l (Block (counted_size usize_bytes sz) (Some x) c'))) (raws v) (raw_values S) /\
    Forall2 (holds_ (pput hp l (Block (counted_size usize_bytes sz) (Some x) c'))) ps hs /\
    NoDup (map fst (pput hp l (Block (counted_size usize_bytes sz) (Some x) c'))).
  Proof.
    intros [H1 H2 H3 H4 H5 H6] B Z. set (hp' := pput hp l (Block (counted_size usize_bytes sz) (Some x) c')).
    assert (forall l', l' <> l -> pget hp' l' = pget hp l') as F by (intros; now apply pget_pput_other).
    assert (pget hp' l = Some (Block (counted_size usize_bytes sz) (Some x) c')) as G by (apply pget_pput_same; congruence).
    assert (forall a, is_box l a = false -> forall h, holds_ hp a h -> holds_ hp' a h) as X.
    { intros a E h. destruct h, a as [|[]|]; cbn in *; auto.
      - destruct (Nat.eqb_spec l l0); [discriminate|]. now rewrite F by auto.
      - intros [-> (c0 & E0)]. split; auto. destruct (Nat.eq_dec l0 l) as [->|N]; [|exists c0; now rewrite F by auto].
        exists c'. rewrite G. unfold counted_size in *. congruence. }
    unfold nb in Z. split; [|split; [|split]].
    - intros r. apply X; auto. destruct (le_lt_dec n r) as [L|L]; [rewrite H5; auto|].
      pose proof (@total_le T (fun a => b2n (is_box l a)) (regs v) n r L). cbn beta in *. destruct (is_box l (regs v r)); auto. cbn [b2n] in *. lia.
    - assert (plen (is_raw l) (raws v) = 0) as Z1 by lia. clear - H2 Z1 F. induction H2 as [|p y ps xs Hp H IH]; constructor; rewrite plen_cons in Z1.
      + destruct p; cbn in *; auto. destruct (Nat.eqb_spec l l0); [cbn in Z1; lia|]. now rewrite F by auto.
      + apply IH. lia.
    - assert (plen (is_box l) ps = 0) as Z1 by lia. clear - H3 Z1 X. induction H3 as [|p y ps xs Hp H IH]; constructor; rewrite plen_cons in Z1.
      + apply X; auto. destruct (is_box l p); auto. cbn in Z1. lia.
      + apply IH; lia.
    - unfold hp'. now rewrite pput_fst.
  Qed.
  (** a pointer on its way that is counted: its block, and how often it is counted *)
  Lemma counted_block S v hp l h ps hs n : inv S v hp (Counted l :: ps) (h :: hs) n ->
    exists x c, h = HShared l x /\ pget hp l = Some (Block (counted_size usize_bytes sz) (Some x) c) /\
      nb l v ps n = 0 /\ c = Datatypes.S (nc l v ps n).
  Proof.
    intros [_ _ H3 _ _ H6]. inversion H3 as [|? ? ? ? Ha Hps]; subst. destruct h; cbn in Ha; try contradiction. destruct Ha as (-> & c & E).
    exists x, c. repeat split; auto; specialize (H6 l); rewrite E in H6; unfold nb, nc in *; rewrite !plen_cons in H6;
      cbn [is_box is_counted] in H6; rewrite Nat.eqb_refl in H6; cbn [b2n pcount] in H6; lia.
  Qed.
  Lemma counted_more S v hp l x ps hs n c : inv S v hp ps hs n -> pget hp l = Some (Block (counted_size usize_bytes sz) (Some x) c) -> 1 <= nc l v ps n ->
    inv S v (pput hp l (Block (counted_size usize_bytes sz) (Some x) (Datatypes.S c))) (Counted l :: ps) (HShared l x :: hs) n.
  Proof.
    intros I B N. assert (nb l v ps n = 0 /\ c = nc l v ps n) as [Z C].
    { pose proof (i_count I l) as Hc. rewrite B in Hc. cbn [pcount] in Hc. lia. }
    destruct (recount l (Datatypes.S c) I B Z) as (F1 & F2 & F3 & F4). destruct I as [H1 H2 H3 H4 H5 H6]. constructor; auto.
    - constructor; auto. split; auto. eexists. apply pget_pput_same. congruence.
    - intros l'. specialize (H6 l'). unfold nb, nc in *. rewrite !plen_cons. cbn [is_box is_counted b2n]. destruct (Nat.eqb_spec l' l) as [->|N'].
      + rewrite pget_pput_same by congruence. cbn [pcount b2n]. right. lia.
      + rewrite pget_pput_other by auto. exact H6.
  Qed.
  Lemma counted_less S v hp l x ps hs n c : inv S v hp (Counted l :: ps) (HShared l x :: hs) n ->
    pget hp l = Some (Block (counted_size usize_bytes sz) (Some x) (Datatypes.S c)) -> 1 <= c ->
    inv S v (pput hp l (Block (counted_size usize_bytes sz) (Some x) c)) ps hs n.
  Proof.
    intros I B C. destruct (counted_block I) as (x' & c' & _ & B' & Z & E). assert (c = nc l v ps n) as E' by congruence.
    assert (nb l v (Counted l :: ps) n = 0) as Z'. { unfold nb in *. rewrite plen_cons. cbn [is_box b2n]. lia. }
    destruct (recount l c I B Z') as (F1 & F2 & F3 & F4). destruct I as [H1 H2 H3 H4 H5 H6]. apply Forall2_tail in F3. constructor; auto.
    intros l'. specialize (H6 l'). unfold nb, nc in *. rewrite !plen_cons in H6. cbn [is_box is_counted b2n] in H6. destruct (Nat.eqb_spec l' l) as [Q|N']; [subst l'|].
    - rewrite pget_pput_same by congruence. cbn [pcount]. right. lia.
    - rewrite pget_pput_other by auto. exact H6.
  Qed.
  Lemma counted_last S v hp l x ps hs n : inv S v hp (Counted l :: ps) (HShared l x :: hs) n ->
    pget hp l = Some (Block (counted_size usize_bytes sz) (Some x) 1) -> inv S v (pfree hp l) ps hs n.
  Proof.
    intros I B. destruct (counted_block I) as (x' & c' & _ & B' & Z & E). assert (nc l v ps n = 0) as Z2 by congruence.
    destruct I as [H1 H2 H3 H4 H5 H6]. inversion H3 as [|? ? ? ? Ha Hps]; subst.
    assert (forall l', l' <> l -> pget (pfree hp l) l' = pget hp l') as F by (intros; now apply pget_pfree_other).
    assert (forall a, (is_box l a = false) -> is_counted l a = false -> forall h, holds_ hp a h -> holds_ (pfree hp l) a h) as X.
    { intros a B1 B2 h0. destruct h0, a as [|[]|]; cbn in *; auto; try (destruct (Nat.eqb_spec l l0); [discriminate|]); rewrite ?F; auto. }
    unfold nb, nc in Z, Z2. constructor; auto using pfree_nodup.
    - intros r. destruct (le_lt_dec n r) as [L|L]; [apply X; auto; rewrite H5; auto|]. apply X; auto.
      + pose proof (@total_le T (fun a => b2n (is_box l a)) (regs v) n r L). cbn beta in *. destruct (is_box l (regs v r)); auto. cbn [b2n] in *. lia.
      + pose proof (@total_le T (fun a => b2n (is_counted l a)) (regs v) n r L). cbn beta in *. destruct (is_counted l (regs v r)); auto. cbn [b2n] in *. lia.
    - assert (plen (is_raw l) (raws v) = 0) as Z1 by lia. clear - H2 Z1 F. induction H2 as [|p y ps xs Hp H IH]; constructor; rewrite plen_cons in Z1.
      + destruct p; cbn in *; auto. destruct (Nat.eqb_spec l l0); [cbn in Z1; lia|]. now rewrite F by auto.
      + apply IH. lia.
    - assert (plen (is_box l) ps = 0 /\ plen (is_counted l) ps = 0) as [Z3 Z4] by lia.
      clear - Hps Z3 Z4 X. induction Hps as [|p y ps xs Hp H IH]; constructor; rewrite plen_cons in *.
      + apply X; auto; [destruct (is_box l p)|destruct (is_counted l p)]; auto; cbn in *; lia.
      + apply IH; lia.
    - intros l'. specialize (H6 l'). unfold nb, nc in *. rewrite !plen_cons in H6. cbn [is_box is_counted b2n] in H6. destruct (Nat.eqb_spec l' l) as [Q|N]; [subst l'|].
      + rewrite pget_pfree_same by auto. lia.
      + rewrite F by auto. exact H6.
  Qed.
End Ptr.
