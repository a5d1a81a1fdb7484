(** * VecExact: the calls that build a vector, with every way they can end

    Said about plain lists, the allocator and the user's own code: which
    memory is asked for, in which order the elements are cloned or produced,
    and that nothing else can make the call fail. *)
From Coq Require Import List Arith Lia Bool.
Import ListNotations.
From Verif Require Import Base VecModel VecSpec VecProofs VecProofs2 VecHistoryModel VecHistorySpec VecHistoryProofs
  MiscModel MiscSpec MiscProofs.
Set Implicit Arguments.

(** ** Specification *)
Section Spec.
  Variables (W : Type) (alloc : nat -> W -> answer * W) (isize_max : nat) (T : Type) (sz : nat).

  (** The call that builds a vector ended in [r]; what it did to fill the
      vector produced [ys] and came to the end [o]: a vector of [ys], or the
      same failure. *)
  Definition built (o : outcome reserve_error unit) (ys : list T) (r : outcome reserve_error (rvec T)) : Prop :=
    match o, r with
    | Ret _, Ret v => holds isize_max sz v ys
    | Err e, Err e' => e' = e
    | Panic, Panic | Abort, Abort | UB, UB => True
    | _, _ => False
    end.

  (** Collecting what [it] still produces behind the elements [l]: each item
      gets room of its own before the next one is asked for. *)
  Section Collect.
    Variable I : Type.
    Variable next : I -> W -> outcome reserve_error (option (T * I)) * W.
    Inductive collected : list T -> I -> W -> outcome reserve_error unit -> list T -> W -> Prop :=
    | collected_end l it w w' : next it w = (Ret None, w') -> collected l it w (Ret tt) l w'
    | collected_next l it w x it' w1 w2 o ys w' :
        next it w = (Ret (Some (x, it')), w1) -> granted alloc isize_max sz (length l + 1) w1 w2 ->
        collected (l ++ [x]) it' w2 o ys w' -> collected l it w o ys w'
    | collected_full l it w x it' w1 e w' :
        next it w = (Ret (Some (x, it')), w1) -> denied alloc isize_max sz (length l + 1) e w1 w' ->
        collected l it w (Err e) l w'
    | collected_error l it w e w' : next it w = (Err e, w') -> collected l it w (Err e) l w'
    | collected_panic l it w w' : next it w = (Panic, w') -> collected l it w Panic l w'
    | collected_abort l it w w' : next it w = (Abort, w') -> collected l it w Abort l w'
    | collected_ub l it w w' : next it w = (UB, w') -> collected l it w UB l w'.
  End Collect.
End Spec.

(** ** Proofs *)
Section P.
  Variables (W : Type) (alloc : nat -> W -> answer * W) (isize_max : nat) (T : Type) (sz : nat).
  Variable tclone : T -> W -> outcome reserve_error T * W.
  Notation holds := (holds isize_max sz).
  Notation capacity := (capacity isize_max sz).
  Notation usize_max := (usize_max isize_max).
  Notation granted := (granted alloc isize_max sz).
  Notation denied := (denied alloc isize_max sz).
  Notation built := (built isize_max sz).
  Implicit Types (w : W) (v : rvec T).

  Lemma built_build (m : VM W T reserve_error unit) w o v' w' ys :
    m (vec_new T, w) = (o, (v', w')) -> holds v' ys -> built o ys (fst (build m w)) /\ snd (build m w) = w'.
  Proof.
    intros H Hh. unfold build. rewrite H. destruct o as [[]|e| | |]; split; try reflexivity; try exact I. exact Hh.
  Qed.

  (** extending without room to spare: one reservation, then the clones *)
  Lemma extend_exact xs v l w : holds v l ->
    (exists e w', try_extend_from_slice_no_copy alloc isize_max sz tclone xs (v, w) = (Err e, (v, w')) /\
        denied (length l + length xs) e w w') \/
    (exists w1 v', try_extend_from_slice_no_copy alloc isize_max sz tclone xs (v, w) =
           (snd (fst (clones tclone xs w1)), (v', snd (clones tclone xs w1))) /\
        holds v' (l ++ fst (fst (clones tclone xs w1))) /\ granted (length l + length xs) w w1).
  Proof.
    intros Hh. rewrite try_extend_no_copy_eq. unfold bind at 1 3.
    destruct (@grow_spec W alloc isize_max T sz v l (length xs) w Hh) as [(v1 & w1 & -> & Hh1 & Hcap & G)|(e & w' & -> & D)].
    - right. pose proof Hh1 as (Hl1 & _). unfold bind at 1, get_len. cbn [fst]. rewrite Hl1.
      destruct (@extend_loop_ok W isize_max T sz tclone xs v1 l w1 Hh1 Hcap) as (v' & E & Hh' & _).
      exists w1, v'. auto.
    - left. exists e, w'. auto.
  Qed.

  Lemma vec_clone_exact v l w : holds v l ->
    (exists e w', vec_try_clone alloc isize_max sz tclone v w = (Err e, w') /\ denied (length l) e w w') \/
    (exists w1 ys o w' r, vec_try_clone alloc isize_max sz tclone v w = (r, w') /\
        granted (length l) w w1 /\ clones tclone l w1 = (ys, o, w') /\ built o ys r).
  Proof.
    intros Hh. unfold vec_try_clone. rewrite (@as_slice_holds isize_max T sz v l Hh).
    destruct (@extend_exact l (vec_new T) [] w (holds_new isize_max T sz)) as [(e & w' & E & D)|(w1 & v' & E & Hh' & G)].
    - left. exists e, w'. unfold build. rewrite E. auto.
    - right. destruct (clones tclone l w1) as [[ys o] w'] eqn:Ec. cbn [fst snd] in *.
      destruct (@built_build _ _ _ _ _ _ E Hh') as [B <-].
      exists w1, ys, o, (snd (build (try_extend_from_slice_no_copy alloc isize_max sz tclone l) w)),
        (fst (build (try_extend_from_slice_no_copy alloc isize_max sz tclone l) w)).
      split; [apply surjective_pairing|]. auto.
  Qed.

  (** nothing is asked for when there is room *)
  Lemma extend_room xs v l w : holds v l -> length l + length xs <= capacity v ->
    exists v', try_extend_from_slice_no_copy alloc isize_max sz tclone xs (v, w) =
           (snd (fst (clones tclone xs w)), (v', snd (clones tclone xs w))) /\
        holds v' (l ++ fst (fst (clones tclone xs w))) /\ capacity v' = capacity v.
  Proof.
    intros Hh Hc. pose proof Hh as (Hl & _). rewrite try_extend_no_copy_eq. unfold bind at 1, grow, VecProofs.grow.
    replace (needs_to_grow isize_max sz v (length xs)) with false.
    2:{ symmetry. unfold needs_to_grow. assert (capacity v <= usize_max) as Hu by (eapply capacity_le_usize; eauto).
        destruct (Nat.ltb_spec usize_max (vlen v + length xs)); [lia|]. apply Nat.ltb_ge. lia. }
    unfold ret. unfold bind at 1, get_len. cbn [fst]. rewrite Hl.
    destruct (@extend_loop_ok W isize_max T sz tclone xs v l w Hh Hc) as (v' & E & Hh' & Hc'). eauto.
  Qed.

  Lemma clones_app xs ys w :
    clones tclone (xs ++ ys) w =
      (let '(a, o, w1) := clones tclone xs w in
       match o with Ret _ => let '(b, o', w2) := clones tclone ys w1 in (a ++ b, o', w2) | _ => (a, o, w1) end).
  Proof.
    revert w. induction xs as [|x xs IH]; intros w; cbn [clones app].
    - destruct (clones tclone ys w) as [[b o'] w2]. reflexivity.
    - destruct (tclone x w) as [[y|e| | |] w1]; try reflexivity. rewrite IH.
      destruct (clones tclone xs w1) as [[a [u|e| | |]] w2]; try reflexivity.
      destruct (clones tclone ys w2) as [[b o'] w3]. reflexivity.
  Qed.

  Lemma concat_loop_room vs ls : Forall2 holds vs ls -> forall v l w, holds v l ->
    length l + length (List.concat ls) <= capacity v ->
    exists v', concat_loop alloc isize_max sz tclone vs (v, w) =
        (snd (fst (clones tclone (List.concat ls) w)), (v', snd (clones tclone (List.concat ls) w))) /\
      holds v' (l ++ fst (fst (clones tclone (List.concat ls) w))).
  Proof.
    induction 1 as [|u m vs ls Hu _ IH]; intros v l w Hh Hc; cbn [concat_loop List.concat].
    - exists v. cbn. rewrite app_nil_r. auto.
    - cbn [List.concat] in Hc. rewrite app_length in Hc. rewrite (as_slice_holds Hu). unfold bind.
      destruct (@extend_room m v l w Hh ltac:(lia)) as (v1 & E & Hh1 & Hc1). rewrite E, clones_app.
      pose proof (clones_outcome tclone m w) as Ho.
      destruct (clones tclone m w) as [[a o] w1] eqn:Ec. cbn [fst snd] in *.
      destruct o as [[]|e| | |]; try (exists v1; auto; fail).
      destruct (IH v1 (l ++ a) w1 Hh1 ltac:(rewrite app_length; lia)) as (v2 & E2 & Hh2). rewrite E2.
      destruct (clones tclone (List.concat ls) w1) as [[b o] w2]. cbn [fst snd] in *. exists v2. rewrite app_assoc. auto.
  Qed.

  Lemma concat_exact checked vs ls w : Forall2 holds vs ls -> length (List.concat ls) <= usize_max ->
    (exists e w', concat alloc isize_max sz tclone checked vs w = (Err e, w') /\ denied (length (List.concat ls)) e w w') \/
    (exists w1 ys o w' r, concat alloc isize_max sz tclone checked vs w = (r, w') /\
        granted (length (List.concat ls)) w w1 /\ clones tclone (List.concat ls) w1 = (ys, o, w') /\ built o ys r).
  Proof.
    intros HF Hn. unfold concat, usize_sum. rewrite (sum_lens HF).
    destruct (Nat.ltb_spec usize_max (length (List.concat ls))); [lia|].
    set (m := _ ;;; _).
    destruct (@reserve_spec W alloc isize_max T sz (vec_new T) [] (length (List.concat ls)) w (holds_new isize_max T sz))
      as [(v1 & w1 & E & Hh1 & Hcap & G)|(e & w' & E & D)].
    - right. destruct (concat_loop_room HF w1 Hh1 Hcap) as (v2 & E2 & Hh2).
      destruct (clones tclone (List.concat ls) w1) as [[ys o] w'] eqn:Ec. cbn [fst snd] in *.
      assert (Em : m (vec_new T, w) = (o, (v2, w'))) by (unfold m, bind; now rewrite E).
      destruct (@built_build _ _ _ _ _ _ Em Hh2) as [B <-].
      exists w1, ys, o, (snd (build m w)), (fst (build m w)). split; [apply surjective_pairing|]. auto.
    - left. exists e, w'. unfold m, build, bind. rewrite E. auto.
  Qed.

  (** n + 1 copies: one reservation, n clones, then the value itself *)
  Lemma from_elem_exact tdrop x n w :
    (exists e w', try_from_elem alloc isize_max sz tdrop tclone x (S n) w = (Err e, w') /\ denied (S n) e w w') \/
    (exists w1 ys o w' r, try_from_elem alloc isize_max sz tdrop tclone x (S n) w = (r, w') /\
        granted (S n) w w1 /\ clones tclone (repeat x n) w1 = (ys, o, w') /\ built o (ys ++ [x]) r).
  Proof.
    unfold try_from_elem. set (m := try_resize_no_copy _ _ _ _ _ _ _).
    assert (E0 : m (vec_new T, w) = try_extend_with alloc isize_max sz tclone (S n) x (vec_new T, w)).
    { unfold m. rewrite try_resize_no_copy_eq. reflexivity. }
    rewrite try_extend_with_eq in E0. unfold bind at 1 in E0.
    destruct (@grow_spec W alloc isize_max T sz (vec_new T) [] (S n) w (holds_new isize_max T sz)) as [(v1 & w1 & E & Hh1 & Hcap & G)|(e & w' & E & D)].
    - right. rewrite E in E0. pose proof Hh1 as (Hl1 & _). unfold bind at 1, get_len in E0. cbn [fst] in E0. rewrite Hl1 in E0. unfold bind at 1 in E0.
      cbn [Nat.sub] in E0. rewrite Nat.sub_0_r in E0.
      destruct (@extend_with_loop_ok W isize_max T sz tclone x n v1 [] w1 Hh1) as (v2 & E2 & Hh2 & Hc2).
      { cbn [length] in *. lia. }
      rewrite E2 in E0. clear E2. cbn [length plus app] in *.
      pose proof (@clones_outcome W T reserve_error tclone (repeat x n) w1) as Hout.
      destruct (clones tclone (repeat x n) w1) as [[ys o] w2] eqn:Ec. cbn [fst snd] in *.
      destruct o as [[]|e| | |].
      + rewrite repeat_length in Hout. cbn [Nat.ltb Nat.leb] in E0.
        destruct (@write_end W isize_max T sz reserve_error v2 ys x w2 Hh2) as (v3 & Hw3 & Hh3 & _); [lia|].
        rewrite Hout in Hw3. cbn [fst snd] in E0. rewrite Hw3 in E0.
        destruct (@built_build _ _ _ _ _ _ E0 Hh3) as [B <-].
        exists w1, ys, (Ret tt), (snd (build m w)), (fst (build m w)). split; [apply surjective_pairing|]. auto.
      + exists w1, ys, (Err e), w2, (Err e). unfold build. rewrite E0. cbn. auto.
      + exists w1, ys, Panic, w2, Panic. unfold build. rewrite E0. cbn. auto.
      + exists w1, ys, Abort, w2, Abort. unfold build. rewrite E0. cbn. auto.
      + exists w1, ys, UB, w2, UB. unfold build. rewrite E0. cbn. auto.
    - left. rewrite E in E0. exists e, w'. unfold build. rewrite E0. auto.
  Qed.

  (** collecting *)
  Section Iter.
    Variable I : Type.
    Variable next : I -> W -> outcome reserve_error (option (T * I)) * W.
    Notation collected := (collected alloc isize_max sz next).

    Lemma collect_exact fuel : forall it v l w o v' w', holds v l ->
      from_iter_loop alloc isize_max sz next fuel it (v, w) = Some (o, (v', w')) ->
      exists ys, collected l it w o ys w' /\ holds v' ys.
    Proof.
      induction fuel as [|fuel IH]; intros it v l w o v' w' Hh H; cbn [from_iter_loop] in H; [discriminate|].
      unfold lift in H. destruct (next it w) as [[[[x it']|]|e| | |] w1] eqn:En.
      - destruct (@push_spec W alloc isize_max T sz v l x w1 Hh) as [(v1 & w2 & E & Hh1 & G)|(e & w2 & E & D)]; rewrite E in H.
        + destruct (IH it' v1 (l ++ [x]) w2 o v' w' Hh1 H) as (ys & Hc & Hy). exists ys. split; [|exact Hy].
          eapply collected_next; eauto.
        + injection H as <- <- <-. exists l. split; [|exact Hh]. eapply collected_full; eauto.
      - injection H as <- <- <-. exists l. split; [|exact Hh]. now apply collected_end.
      - injection H as <- <- <-. exists l. split; [|exact Hh]. now apply collected_error.
      - injection H as <- <- <-. exists l. split; [|exact Hh]. now apply collected_panic.
      - injection H as <- <- <-. exists l. split; [|exact Hh]. now apply collected_abort.
      - injection H as <- <- <-. exists l. split; [|exact Hh]. now apply collected_ub.
    Qed.
  End Iter.
End P.

(** ** Nested clones *)
Section Deep.
  Variables (W : Type) (alloc : nat -> W -> answer * W) (isize_max : nat) (P : Type) (szof : ty -> nat).
  Notation clone := (clone_ty alloc isize_max P szof).
  Notation stands := (stands isize_max (P:=P) szof).

  Lemma box_refused (T : Type) sz (t : T) w e w' :
    box_try_new alloc isize_max sz t w = (Err e, w') -> denied alloc isize_max sz 1 e w w'.
  Proof.
    unfold box_try_new, try_reserve_exact, bind. intros H.
    pose proof (holds_new isize_max T sz) as Hnew.
    destruct (@reserve_spec W alloc isize_max T sz (vec_new T) [] 1 w Hnew) as [(v1 & w1 & E & Hh1 & Hcap & G)|(e1 & w1 & E & D)]; rewrite E in H.
    - exfalso. destruct (@std_push_noalloc W alloc isize_max T sz reserve_error v1 [] t w1 Hh1) as (v2 & Hp & Hh2 & _); [cbn in *; lia|].
      rewrite Hp in H. unfold into_boxed_slice in H.
      destruct (negb (sz =? 0) && (vlen v2 <? vcap v2)).
      + destruct (alloc (vlen v2 * sz) w1) as [[x|[]] w2]; try discriminate. destruct (vslots _ 0); discriminate.
      + destruct (vslots v2 0); discriminate.
    - injection H as <- <-. exact D.
  Qed.

  Lemma clones_err (T : Type) (tclone : T -> W -> outcome reserve_error T * W) l : forall w ys e w',
    clones tclone l w = (ys, Err e, w') -> exists x w1 w2, In x l /\ tclone x w1 = (Err e, w2).
  Proof.
    induction l as [|x l IH]; intros w ys e w' H; cbn [clones] in H; [discriminate|].
    destruct (tclone x w) as [[y|e1| | |] w1] eqn:Ex; try discriminate.
    - destruct (clones tclone l w1) as [[zs o] w2] eqn:El. injection H as <- -> <-.
      destruct (IH _ _ _ _ El) as (z & w3 & w4 & Hin & Hz). exists z, w3, w4. split; [now right|exact Hz].
    - injection H as <- <- <-. exists x, w, w1. split; [now left|exact Ex].
  Qed.

  (** an error is the allocator's *)
  Lemma clone_ty_refused t : (forall u, szof u <= isize_max) -> 0 < isize_max ->
    forall x p, stands t x p -> forall w e w', clone t x w = (Err e, w') ->
    exists n w1 w2, alloc n w1 = (Refuse e, w2).
  Proof.
    intros Hsz Hpos. induction t as [|t IH|t IH|t IH]; intros x p Hx w e w' H.
    - discriminate.
    - cbn [clone_ty] in H. unfold clone_option in H. destruct x as [x|]; [|discriminate].
      destruct p as [p|]; [|contradiction]. cbn in Hx.
      destruct (clone t x w) as [[y|e1| | |] w1] eqn:Ex; try discriminate. injection H as <- <-. eauto.
    - cbn [clone_ty] in H. unfold clone_box in H.
      destruct (clone t x w) as [[y|e1| | |] w1] eqn:Ex; try discriminate; [|injection H as <- <-; eauto].
      destruct (@box_refused _ _ _ _ _ _ H) as [(F & _)|(_ & Ha)]; [|eauto].
      exfalso. apply F. unfold fits, usize_max. pose proof (Hsz t). lia.
    - destruct Hx as (l & Hh & HF). cbn [clone_ty] in H.
      destruct (@vec_clone_exact W alloc isize_max (val P t) (szof t) (clone t) x l w Hh)
        as [(e1 & w1 & E & D)|(w1 & ys & o & w2 & r & E & _ & Hc & B)]; rewrite H in E.
      + injection E as <- <-. destruct D as [(F & _)|(_ & Ha)]; [|eauto]. exfalso. apply F.
        pose proof (@capacity_le_usize _ _ _ _ _ Hh) as Hu. destruct Hh as (Hl & Hs & Hcap & Hb). split; [exact (Nat.le_trans _ _ _ Hcap Hu)|].
        destruct (Nat.eq_dec (szof t) 0) as [Hz|Hz]; [rewrite Hz; lia|]. specialize (Hb Hz).
        unfold capacity in Hcap. destruct (Nat.eqb_spec (szof t) 0); [contradiction|].
        eapply Nat.le_trans; [|exact Hb]. apply Nat.mul_le_mono_r. exact Hcap.
      + injection E as <- <-. destruct o as [u|e1| | |]; try contradiction. cbn in B. subst e1.
        destruct (@clones_err _ _ _ _ _ _ _ Hc) as (z & w3 & w4 & Hin & Hz).
        assert (Hq : exists q, stands t z q).
        { clear -HF Hin. induction HF as [|a q l p Ha HF IHF]; [destruct Hin|]. destruct Hin as [->|Hin]; eauto. }
        destruct Hq as (q & Hq). eapply IH; eauto.
  Qed.
End Deep.
