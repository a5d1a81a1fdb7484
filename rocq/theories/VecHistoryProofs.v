(** * VecHistoryProofs: programs over vectors do what VecHistorySpec says *)
From Coq Require Import List Arith Lia Bool.
Import ListNotations.
From Verif Require Import Base VecModel VecSpec VecProofs VecProofs2 VecHistoryModel VecHistorySpec.
Set Implicit Arguments.

Section P.
  Variable W : Type.
  Variable alloc : nat -> W -> answer * W.
  Variable isize_max : nat.
  Variable T : Type.
  Variable sz : nat.
  Variable tdrop : T -> W -> outcome reserve_error unit * W.
  Variable tclone : T -> W -> outcome reserve_error T * W.
  Hypothesis Hdrop : drop_returns_or_panics tdrop.
  Hypothesis Hclone : clone_ok tclone.
  Notation holds := (holds isize_max sz).
  Notation capacity := (capacity isize_max sz).
  Notation room := (room isize_max sz).
  Notation usize_max := (usize_max isize_max).
  Notation fits := (fits isize_max sz).
  Notation granted := (granted alloc isize_max sz).
  Notation denied := (denied alloc isize_max sz).
  Notation ending := (ending tdrop).
  Notation action := (action W T).
  Implicit Types (w : W) (v : rvec T).

  (** *** reservations *)
  Lemma cap_fits v l k : holds v l -> k <= capacity v -> fits k \/ sz = 0 /\ fits k.
  Proof.
    intros (_ & _ & _ & Hb) Hk. left. unfold VecHistorySpec.fits, VecModel.usize_max.
    unfold VecModel.capacity, VecModel.usize_max in Hk. destruct (Nat.eqb_spec sz 0) as [Hz|Hz].
    - split; [lia|]. rewrite Hz. lia.
    - specialize (Hb Hz). split; nia.
  Qed.

  Lemma reserve_spec v l n w : holds v l ->
    (exists v' w', try_reserve alloc isize_max sz n (v, w) = (Ret tt, (v', w')) /\
        holds v' l /\ length l + n <= capacity v' /\ granted (length l + n) w w')
    \/ (exists e w', try_reserve alloc isize_max sz n (v, w) = (Err e, (v, w')) /\ denied (length l + n) e w w').
  Proof.
    intros Hh. pose proof Hh as (Hl & Hs & Hc & Hb).
    destruct (try_reserve_cases alloc n w Hh) as [(v' & w' & Hr & Hh' & Hcap & _ & _)|(e & w' & Hr & Hroom)].
    - left. exists v', w'. split; [exact Hr|]. split; [exact Hh'|]. split; [exact Hcap|]. split.
      + destruct (@cap_fits v' l (length l + n) Hh' Hcap) as [F|[_ F]]; exact F.
      + unfold try_reserve in Hr. rewrite <- Hl.
        destruct (n <=? capacity v - vlen v); [inversion Hr; auto|].
        destruct (sz =? 0); [discriminate|]. destruct (usize_max <? vlen v + n); [discriminate|].
        destruct (isize_max <? (vlen v + n) * sz); [discriminate|].
        destruct (alloc ((vlen v + n) * sz) w) as [[x|e] w1]; [|discriminate]. inversion Hr; subst. right. now exists x.
    - right. exists e, w'. split; [exact Hr|]. unfold try_reserve in Hr. unfold VecHistorySpec.denied. rewrite <- Hl. unfold VecSpec.room in Hroom.
      destruct (Nat.leb_spec n (capacity v - vlen v)) as [H|H]; [lia|].
      unfold VecHistorySpec.fits.
      destruct (Nat.eqb_spec sz 0) as [Hz|Hz].
      { inversion Hr; subst e w'. left. split; [|auto]. intros [F _]. unfold VecModel.capacity in H. rewrite Hz, Nat.eqb_refl in H.
        unfold VecModel.capacity in Hc. rewrite Hz, Nat.eqb_refl in Hc. lia. }
      destruct (Nat.ltb_spec usize_max (vlen v + n)) as [H1|H1]; [inversion Hr; subst e w'; left; split; [lia|auto]|].
      destruct (Nat.ltb_spec isize_max ((vlen v + n) * sz)) as [H2|H2]; [inversion Hr; subst e w'; left; split; [lia|auto]|].
      destruct (alloc ((vlen v + n) * sz) w) as [[x|e'] w1] eqn:Ea; [discriminate|]. inversion Hr; subst. right. auto.
  Qed.

  (** one more element when the vector may be full *)
  Lemma reserve_one v l w : holds v l ->
    (exists v' w', ((if vlen v =? capacity v then try_reserve alloc isize_max sz 1 else ret tt) : M (rvec T * W) reserve_error unit) (v, w) = (Ret tt, (v', w')) /\
        holds v' l /\ length l < capacity v' /\ granted (length l + 1) w w')
    \/ (exists e w', ((if vlen v =? capacity v then try_reserve alloc isize_max sz 1 else ret tt) : M (rvec T * W) reserve_error unit) (v, w) = (Err e, (v, w')) /\
        denied (length l + 1) e w w' /\ (vlen v =? capacity v) = true).
  Proof.
    intros Hh. pose proof Hh as (Hl & Hs & Hc & Hb). destruct (Nat.eqb_spec (vlen v) (capacity v)) as [He|He].
    - destruct (@reserve_spec v l 1 w Hh) as [(v' & w' & Hr & Hh' & Hcap & G)|(e & w' & Hr & D)].
      + left. exists v', w'. split; [exact Hr|]. split; [exact Hh'|]. split; [lia|exact G].
      + right. exists e, w'. auto.
    - left. exists v, w. split; [reflexivity|]. split; [exact Hh|]. split; [lia|]. split; [|auto].
      destruct (@cap_fits v l (length l + 1) Hh ltac:(lia)) as [F|[_ F]]; exact F.
  Qed.

  Lemma grow_spec v l n w : holds v l ->
    (exists v' w', grow alloc isize_max sz v n (v, w) = (Ret tt, (v', w')) /\
        holds v' l /\ length l + n <= capacity v' /\ granted (length l + n) w w')
    \/ (exists e w', grow alloc isize_max sz v n (v, w) = (Err e, (v, w')) /\ denied (length l + n) e w w').
  Proof.
    intros Hh. unfold grow. destruct (needs_to_grow isize_max sz v n) eqn:Eg; [apply (@reserve_spec v l n w Hh)|].
    left. exists v, w. split; [reflexivity|]. split; [exact Hh|].
    pose proof (@needs_to_grow_false _ _ _ v l n Hh Eg) as Hn. unfold VecSpec.room in Hn. pose proof Hh as (Hl & _ & Hc & _).
    assert (Hcap : length l + n <= capacity v) by lia. split; [exact Hcap|]. split; [|auto].
    destruct (@cap_fits v l (length l + n) Hh Hcap) as [F|[_ F]]; exact F.
  Qed.

  (** *** destructors *)
  Lemma drop_one_glue b x v w :
    drop_one tdrop b x (v, w) = (fst (drop_glue tdrop b [x] w), (v, snd (drop_glue tdrop b [x] w))).
  Proof.
    unfold drop_one, lift. cbn [drop_glue]. destruct (tdrop x w) as [[[]|e| | |] w']; try reflexivity. destruct b; reflexivity.
  Qed.

  Lemma drop_rest_glue xs : forall b v i w,
    (forall j, j < length xs -> vslots v (i + j) = nth_error xs j) ->
    exists v', drop_rest tdrop b i (length xs) (v, w) = (fst (drop_glue tdrop b xs w), (v', snd (drop_glue tdrop b xs w))).
  Proof.
    induction xs as [|x xs IH]; intros b v i w Hs; cbn [length drop_rest drop_glue].
    - exists v. destruct b; reflexivity.
    - unfold drop_slot, bind. pose proof (Hs 0 ltac:(simpl; lia)) as H0. rewrite Nat.add_0_r in H0. simpl in H0.
      rewrite (@raw_take_last W T reserve_error v i x w H0). unfold lift.
      set (v1 := mkVec (vcap v) (vlen v) (upd (vslots v) i None)).
      assert (Hs1 : forall j, j < length xs -> vslots v1 (S i + j) = nth_error xs j).
      { intros j Hj. unfold v1; simpl. rewrite upd_other by lia. replace (S (i + j)) with (i + S j) by lia. apply (Hs (S j)). simpl; lia. }
      destruct (tdrop x w) as [[[]|e| | |] w1]; try (eexists; reflexivity).
      + exact (IH b v1 (S i) w1 Hs1).
      + destruct b; [eexists; reflexivity|]. exact (IH true v1 (S i) w1 Hs1).
  Qed.

  Lemma drop_all_glue b v l w : holds v l ->
    exists v', drop_all tdrop b (v, w) = (fst (drop_glue tdrop b l w), (v', snd (drop_glue tdrop b l w))).
  Proof.
    intros (Hl & Hs & _). unfold drop_all, bind, get_len. cbn [fst]. rewrite Hl. apply drop_rest_glue. exact Hs.
  Qed.

  Lemma glue_ends xs b w : 
    fst (drop_glue tdrop b xs w) = (if b then Panic else Ret tt) \/ fst (drop_glue tdrop b xs w) = Panic \/ fst (drop_glue tdrop b xs w) = Abort.
  Proof.
    revert b w. induction xs as [|x xs IH]; intros b w; cbn [drop_glue]; [destruct b; cbn; auto|].
    pose proof (Hdrop x w) as Hx. destruct (tdrop x w) as [o w1]. cbn [fst] in Hx. destruct Hx; subst o; [apply IH|].
    destruct b; [cbn; auto|]. destruct (IH true w1) as [H|[H|H]]; rewrite H; auto.
  Qed.

  (** leaving a scope, from what its body did and what its drop glue does *)
  Lemma leaving_ending E A (d : bool -> VM W T reserve_error unit) (m : VM W T E A) s o v1 w1 xs :
    m s = (o, (v1, w1)) -> o <> Abort -> o <> UB ->
    (forall b, exists v2, d b (v1, w1) = (fst (drop_glue tdrop b xs w1), (v2, snd (drop_glue tdrop b xs w1)))) ->
    exists v2, leaving d m s = (fst (ending o xs w1), (v2, snd (ending o xs w1))).
  Proof.
    intros Hm Ha Hu Hd. unfold leaving. rewrite Hm. unfold VecHistorySpec.ending.
    destruct o as [a|e| | |]; try congruence.
    - destruct (Hd false) as (v2 & ->). exists v2. pose proof (glue_ends xs false w1) as G.
      destruct (drop_glue tdrop false xs w1) as [[[]|e'| | |] w2]; cbn [fst snd] in *; try reflexivity; destruct G as [G|[G|G]]; discriminate G.
    - destruct (Hd false) as (v2 & ->). exists v2. pose proof (glue_ends xs false w1) as G.
      destruct (drop_glue tdrop false xs w1) as [[[]|e'| | |] w2]; cbn [fst snd] in *; try reflexivity; destruct G as [G|[G|G]]; discriminate G.
    - destruct (Hd true) as (v2 & ->). exists v2. pose proof (glue_ends xs true w1) as G.
      destruct (drop_glue tdrop true xs w1) as [[[]|e'| | |] w2]; cbn [fst snd] in *; try reflexivity; destruct G as [G|[G|G]]; discriminate G.
  Qed.
  (** the same when the thing dropped is outside the vector *)
  Lemma leaving_one E A (m : VM W T E A) s o v1 w1 x :
    m s = (o, (v1, w1)) -> o <> Abort -> o <> UB ->
    leaving (fun b => drop_one tdrop b x) m s = (fst (ending o [x] w1), (v1, snd (ending o [x] w1))).
  Proof.
    intros Hm Ha Hu. unfold leaving. rewrite Hm. unfold VecHistorySpec.ending.
    destruct o as [a|e| | |]; try congruence; rewrite drop_one_glue.
    - pose proof (glue_ends [x] false w1) as G.
      destruct (drop_glue tdrop false [x] w1) as [[[]|e'| | |] w2]; cbn [fst snd] in *; try reflexivity; destruct G as [G|[G|G]]; discriminate G.
    - pose proof (glue_ends [x] false w1) as G.
      destruct (drop_glue tdrop false [x] w1) as [[[]|e'| | |] w2]; cbn [fst snd] in *; try reflexivity; destruct G as [G|[G|G]]; discriminate G.
    - pose proof (glue_ends [x] true w1) as G.
      destruct (drop_glue tdrop true [x] w1) as [[[]|e'| | |] w2]; cbn [fst snd] in *; try reflexivity; destruct G as [G|[G|G]]; discriminate G.
  Qed.

  Lemma ending_ret A (a : A) xs w : ending (Ret a : outcome reserve_error A) xs w =
     (match fst (drop_glue tdrop false xs w) with Ret _ => Ret a | Panic => Panic | _ => Abort end, snd (drop_glue tdrop false xs w)).
  Proof. unfold VecHistorySpec.ending. destruct (drop_glue tdrop false xs w) as [[[]|e'| | |] w2]; reflexivity. Qed.

  (** *** actions *)
  Definition does_at (m : VM W T reserve_error unit) (a : action) v l w : Prop :=
    exists o v' w' l', m (v, w) = (o, (v', w')) /\ holds v' l' /\ a l w o l' w' /\ o <> UB.
  Definition does (m : VM W T reserve_error unit) (a : action) : Prop :=
    forall v l w, holds v l -> does_at m a v l w.

  Lemma ending_not_ub E A (o : outcome E A) xs w : o <> UB -> fst (ending o xs w) <> UB.
  Proof.
    intros H. unfold VecHistorySpec.ending. destruct o; try congruence.
    - destruct (drop_glue tdrop false xs w) as [[[]|e'| | |] w2]; cbn; congruence.
    - destruct (drop_glue tdrop false xs w) as [[[]|e'| | |] w2]; cbn; congruence.
    - destruct (drop_glue tdrop true xs w) as [[[]|e'| | |] w2]; cbn; congruence.
    - cbn. discriminate.
  Qed.

  Lemma does_reserve n : does (try_reserve alloc isize_max sz n) (a_reserve alloc isize_max sz n).
  Proof.
    intros v l w Hh. destruct (@reserve_spec v l n w Hh) as [(v' & w' & Hr & Hh' & _ & G)|(e & w' & Hr & D)].
    - exists (Ret tt), v', w', l. split; [exact Hr|]. split; [exact Hh'|]. split; [now constructor|discriminate].
    - exists (Err e), v, w', l. split; [exact Hr|]. split; [exact Hh|]. split; [now constructor|discriminate].
  Qed.

  Lemma push_spec v l x w : holds v l ->
    (exists v' w', try_push alloc isize_max sz x (v, w) = (Ret tt, (v', w')) /\ holds v' (l ++ [x]) /\ granted (length l + 1) w w')
    \/ (exists e w', try_push alloc isize_max sz x (v, w) = (Err e, (v, w')) /\ denied (length l + 1) e w w').
  Proof.
    intros Hh. rewrite try_push_eq.
    destruct (@reserve_one v l w Hh) as [(v1 & w1 & Hr & Hh1 & Hc1 & G)|(e & w1 & Hr & D & _)];
      [left|right; exists e, w1; split; [unfold bind at 1; now rewrite Hr|exact D]].
    unfold bind at 1. rewrite Hr. destruct (@std_push_noalloc W alloc isize_max T sz reserve_error v1 l x w1 Hh1 Hc1) as (v' & -> & Hh' & _). eauto.
  Qed.

  Lemma does_push x : does (h_push alloc isize_max sz tdrop x) (a_push alloc isize_max sz tdrop x).
  Proof.
    intros v l w Hh. unfold does_at, h_push, leaving_unless.
    destruct (@push_spec v l x w Hh) as [(v' & w' & Hr & Hh' & G)|(e & w' & Hr & D)]; rewrite Hr.
    - exists (Ret tt), v', w', (l ++ [x]). split; [reflexivity|]. split; [exact Hh'|]. split; [now constructor|discriminate].
    - rewrite (@leaving_one reserve_error unit (fun _ => (Err e, (v, w'))) (v, w) (Err e) v w' x eq_refl ltac:(discriminate) ltac:(discriminate)).
      destruct (ending (Err e : outcome reserve_error unit) [x] w') as [o w''] eqn:Ee. cbn [fst snd].
      exists o, v, w'', l. split; [reflexivity|]. split; [exact Hh|]. split; [now apply push_no with e w'|].
      intros ->. pose proof (@ending_not_ub reserve_error unit (Err e) [x] w' ltac:(discriminate)) as Hn. rewrite Ee in Hn. now apply Hn.
  Qed.

  Lemma calls_not_bad f n : closure_ok f -> forall w, snd (fst (calls f n w)) = Ret tt \/ snd (fst (calls (E := reserve_error) (T := T) f n w)) = Panic.
  Proof.
    intros Hf. induction n as [|n IH]; intros w; cbn [calls]; [auto|]. pose proof (Hf w) as Hw.
    destruct (f w) as [o w1]. cbn [fst] in Hw. destruct Hw as [[x ->]| ->]; [|cbn; auto].
    specialize (IH w1). destruct (calls f n w1) as [[ys o] w2]. exact IH.
  Qed.

  Lemma does_resize_with n f : closure_ok f ->
    does (try_resize_with alloc isize_max sz tdrop n f) (a_resize_with alloc isize_max sz tdrop n f).
  Proof.
    intros Hf v l w Hh. pose proof Hh as (Hl & Hs & Hc & Hb). unfold does_at. rewrite try_resize_with_eq.
    destruct (Nat.ltb_spec (vlen v) n) as [H|H].
    - unfold bind at 1. destruct (@reserve_spec v l (n - vlen v) w Hh) as [(v1 & w1 & -> & Hh1 & Hcap & G)|(e & w' & -> & D)].
      2:{ exists (Err e), v, w', l. split; [reflexivity|]. split; [exact Hh|]. split; [|discriminate].
          replace (length l + (n - vlen v)) with n in D by lia. now apply resize_with_no; [lia|]. }
      unfold std_resize_with. pose proof Hh1 as (Hl1 & _). unfold bind at 1, get_len. cbn [fst]. rewrite Hl1.
      destruct (Nat.ltb_spec (length l) n); [|lia]. unfold bind at 1. rewrite reserve_noop by (unfold VecSpec.room; lia).
      destruct (@push_with_ok W isize_max T sz f (n - length l) v1 l w1 Hh1 ltac:(lia)) as (v' & w' & -> & Hw & Hh' & _).
      pose proof (calls_not_bad (n - length l) Hf w1) as Hb'.
      destruct (calls f (n - length l) w1) as [[ys o] w2] eqn:Ec. cbn [fst snd] in *. subst w2.
      exists o, v', w', (l ++ ys). split; [reflexivity|]. split; [exact Hh'|]. split.
      + apply resize_with_yes with w1; [lia| |exact Ec]. now replace (length l + (n - vlen v)) with n in G by lia.
      + destruct Hb'; subst o; discriminate.
    - unfold bind at 1, ret. unfold std_resize_with. unfold bind at 1, get_len. cbn [fst].
      destruct (Nat.ltb_spec (vlen v) n); [lia|].
      destruct (@std_truncate_ok W isize_max T sz tdrop v l n w Hh Hdrop) as (v' & w' & -> & Hw & Hh' & _).
      pose proof (glue_ends (skipn n l) false w) as Hg.
      assert (He : ending (Ret tt) (skipn n l) w = (fst (drop_glue tdrop false (skipn n l) w), w')).
      { rewrite ending_ret, Hw. f_equal. destruct Hg as [-> | [-> | ->]]; reflexivity. }
      eexists _, v', w', (firstn n l). split; [reflexivity|]. split; [exact Hh'|]. split.
      + apply resize_with_cut; [lia|exact He].
      + destruct Hg as [-> | [-> | ->]]; discriminate.
  Qed.

  Lemma does_resize n x :
    does (try_resize alloc isize_max sz tdrop n x) (a_resize alloc isize_max sz tdrop n x).
  Proof.
    intros v l w Hh. pose proof Hh as (Hl & Hs & Hc & Hb). unfold does_at. rewrite try_resize_eq.
    destruct (Nat.ltb_spec (vlen v) n) as [H|H].
    - unfold bind at 1. destruct (@reserve_spec v l (n - vlen v) w Hh) as [(v1 & w1 & -> & Hh1 & Hcap & G)|(e & w' & -> & D)].
      2:{ exists (Err e), v, w', l. split; [reflexivity|]. split; [exact Hh|]. split; [|discriminate].
          replace (length l + (n - vlen v)) with n in D by lia. now apply resize_no; [lia|]. }
      unfold std_resize. pose proof Hh1 as (Hl1 & _). unfold bind at 1, get_len. cbn [fst]. rewrite Hl1.
      destruct (Nat.ltb_spec (length l) n); [|lia]. unfold bind at 1. rewrite reserve_noop by (unfold VecSpec.room; lia).
      destruct (@push_all_ok W isize_max T sz reserve_error (repeat x (n - length l)) v1 l w1 Hh1) as (v' & -> & Hh' & _).
      { rewrite repeat_length. lia. }
      exists (Ret tt), v', w1, (l ++ repeat x (n - length l)). split; [reflexivity|]. split; [exact Hh'|]. split; [|discriminate].
      apply resize_grow; [lia|]. now replace (length l + (n - vlen v)) with n in G by lia.
    - unfold bind at 1, ret. unfold std_resize. unfold bind at 1, get_len. cbn [fst].
      destruct (Nat.ltb_spec (vlen v) n); [lia|].
      destruct (@std_truncate_ok W isize_max T sz tdrop v l n w Hh Hdrop) as (v' & w' & -> & Hw & Hh' & _).
      pose proof (glue_ends (skipn n l) false w) as Hg.
      assert (He : ending (Ret tt) (skipn n l) w = (fst (drop_glue tdrop false (skipn n l) w), w')).
      { rewrite ending_ret, Hw. f_equal. destruct Hg as [-> | [-> | ->]]; reflexivity. }
      eexists _, v', w', (firstn n l). split; [reflexivity|]. split; [exact Hh'|]. split.
      + apply resize_cut; [lia|exact He].
      + destruct Hg as [-> | [-> | ->]]; discriminate.
  Qed.

  Lemma does_clear : does (clear isize_max sz tdrop) (a_clear tdrop).
  Proof.
    intros v l w Hh. unfold does_at, clear.
    destruct (@std_truncate_ok W isize_max T sz tdrop v l 0 w Hh Hdrop) as (v' & w' & -> & Hw & Hh' & _).
    cbn [skipn firstn] in *. pose proof (glue_ends l false w) as Hg.
    assert (He : ending (Ret tt) l w = (fst (drop_glue tdrop false l w), w')).
    { rewrite ending_ret, Hw. f_equal. destruct Hg as [-> | [-> | ->]]; reflexivity. }
    eexists _, v', w', []. split; [reflexivity|]. split; [exact Hh'|]. split; [now constructor|].
    destruct Hg as [-> | [-> | ->]]; discriminate.
  Qed.

  Lemma does_extend xs : does (try_extend_from_slice alloc isize_max sz xs) (a_extend alloc isize_max sz xs).
  Proof.
    intros v l w Hh. unfold does_at. rewrite try_extend_from_slice_eq. unfold bind at 1.
    destruct (@grow_spec v l (length xs) w Hh) as [(v1 & w1 & -> & Hh1 & Hcap & G)|(e & w' & -> & D)].
    - unfold std_extend_from_slice. pose proof Hh1 as (Hl1 & _). unfold bind at 1. rewrite reserve_noop by (unfold VecSpec.room; lia).
      destruct (@push_all_ok W isize_max T sz reserve_error xs v1 l w1 Hh1 Hcap) as (v' & -> & Hh' & _).
      exists (Ret tt), v', w1, (l ++ xs). split; [reflexivity|]. split; [exact Hh'|]. split; [now constructor|discriminate].
    - exists (Err e), v, w', l. split; [reflexivity|]. split; [exact Hh|]. split; [now constructor|discriminate].
  Qed.

  Lemma does_extend_no_copy xs :
    does (try_extend_from_slice_no_copy alloc isize_max sz tclone xs) (a_extend_no_copy alloc isize_max sz tclone xs).
  Proof.
    intros v l w Hh. unfold does_at. rewrite try_extend_no_copy_eq. unfold bind at 1.
    destruct (@grow_spec v l (length xs) w Hh) as [(v1 & w1 & -> & Hh1 & Hcap & G)|(e & w' & -> & D)].
    - pose proof Hh1 as (Hl1 & _). unfold bind at 1, get_len. cbn [fst]. rewrite Hl1.
      destruct (@extend_loop_ok W isize_max T sz tclone xs v1 l w1 Hh1 Hcap) as (v' & -> & Hh' & _).
      pose proof (@clones_ok W T reserve_error tclone xs w1 Hclone) as [_ Hu].
      destruct (clones tclone xs w1) as [[ys o] w'] eqn:Ec. cbn [fst snd] in *.
      exists o, v', w', (l ++ ys). split; [reflexivity|]. split; [exact Hh'|]. split; [|exact Hu].
      now apply extend_no_copy_yes with w1.
    - exists (Err e), v, w', l. split; [reflexivity|]. split; [exact Hh|]. split; [now constructor|discriminate].
  Qed.

  (** try_resize_no_copy, unless it breaks *)
  Lemma does_resize_no_copy n x v l w : holds v l ->
    does_at (h_resize_no_copy alloc isize_max sz tdrop tclone n x) (a_resize_no_copy alloc isize_max sz tdrop tclone n x) v l w \/
    (n <= length l /\ fst (drops tdrop (rev (skipn n l)) w) = Panic).
  Proof.
    intros Hh. pose proof Hh as (Hl & Hs & Hc & Hb). unfold does_at, h_resize_no_copy. cbn [fst].
    destruct (Nat.ltb_spec (vlen v) n) as [H|H].
    - left. unfold leaving_unless. rewrite try_resize_no_copy_eq. destruct (Nat.ltb_spec (vlen v) n) as [H'|]; [|lia].
      rewrite try_extend_with_eq. unfold bind at 1.
      destruct (@grow_spec v l (n - vlen v) w Hh) as [(v1 & w1 & -> & Hh1 & Hcap & G)|(e & w1 & -> & D)].
      + replace (length l + (n - vlen v)) with n in G by lia.
        pose proof Hh1 as (Hl1 & _). unfold bind at 1, get_len. cbn [fst]. rewrite Hl1. unfold bind at 1.
        destruct (@extend_with_loop_ok W isize_max T sz tclone x (n - vlen v - 1) v1 l w1 Hh1 ltac:(lia)) as (v2 & -> & Hh2 & Hc2).
        rewrite Hl in Hh2 |- *. rewrite Hl in Hcap.
        pose proof (@clones_ok W T reserve_error tclone (repeat x (n - length l - 1)) w1 Hclone) as [Ha Hu].
        pose proof (@clones_outcome W T reserve_error tclone (repeat x (n - length l - 1)) w1) as Hout.
        destruct (clones tclone (repeat x (n - length l - 1)) w1) as [[ys o] w2] eqn:Ec. cbn [fst snd] in *.
        destruct o as [[]|e| | |]; try congruence.
        * destruct (Nat.ltb_spec 0 (n - length l)); [|lia]. rewrite repeat_length in Hout.
          destruct (@write_end W isize_max T sz reserve_error v2 (l ++ ys) x w2 Hh2) as (v3 & Hw3 & Hh3 & _).
          { rewrite app_length, Hc2. lia. }
          replace (length l + (n - length l - 1)) with (length (l ++ ys)) by (rewrite app_length; lia). cbn [fst snd]. rewrite Hw3.
          exists (Ret tt), v3, w2, (l ++ ys ++ [x]). split; [reflexivity|]. split; [now rewrite app_assoc|]. split; [|discriminate].
          now apply resize_no_copy_yes with w1; [lia| |].
        * rewrite (@leaving_one reserve_error unit (fun _ => (Err e, (v2, w2))) (v, w) (Err e) v2 w2 x eq_refl ltac:(discriminate) ltac:(discriminate)).
          destruct (ending (Err e : outcome reserve_error unit) [x] w2) as [o w''] eqn:Ee. cbn [fst snd].
          exists o, v2, w'', (l ++ ys). split; [reflexivity|]. split; [exact Hh2|]. split.
          { apply resize_no_copy_stop with w1 (Err e) w2; [lia|exact G|exact Ec|discriminate|exact Ee]. }
          intros ->. pose proof (@ending_not_ub reserve_error unit (Err e) [x] w2 ltac:(discriminate)) as Hn. rewrite Ee in Hn. now apply Hn.
        * rewrite (@leaving_one reserve_error unit (fun _ => (Panic, (v2, w2))) (v, w) Panic v2 w2 x eq_refl ltac:(discriminate) ltac:(discriminate)).
          destruct (ending (Panic : outcome reserve_error unit) [x] w2) as [o w''] eqn:Ee. cbn [fst snd].
          exists o, v2, w'', (l ++ ys). split; [reflexivity|]. split; [exact Hh2|]. split.
          { apply resize_no_copy_stop with w1 Panic w2; [lia|exact G|exact Ec|discriminate|exact Ee]. }
          intros ->. pose proof (@ending_not_ub reserve_error unit Panic [x] w2 ltac:(discriminate)) as Hn. rewrite Ee in Hn. now apply Hn.
      + replace (length l + (n - vlen v)) with n in D by lia.
        rewrite (@leaving_one reserve_error unit (fun _ => (Err e, (v, w1))) (v, w) (Err e) v w1 x eq_refl ltac:(discriminate) ltac:(discriminate)).
        destruct (ending (Err e : outcome reserve_error unit) [x] w1) as [o w''] eqn:Ee. cbn [fst snd].
        exists o, v, w'', l. split; [reflexivity|]. split; [exact Hh|]. split.
        { apply resize_no_copy_no with e w1; [lia|exact D|exact Ee]. }
        intros ->. pose proof (@ending_not_ub reserve_error unit (Err e) [x] w1 ltac:(discriminate)) as Hn. rewrite Ee in Hn. now apply Hn.
    - assert (Hhn : holds v (firstn n l ++ skipn n l)) by now rewrite firstn_skipn.
      destruct (@truncate_loop_any W isize_max T sz tdrop (skipn n l) v (firstn n l) w Hhn Hdrop) as (o & v1 & w1 & Hr & Hcs).
      rewrite <- app_length, firstn_skipn, skipn_length in Hr.
      assert (Ht : try_resize_no_copy alloc isize_max sz tdrop tclone n x (v, w) = (o, (v1, w1))).
      { rewrite try_resize_no_copy_eq. destruct (Nat.ltb_spec (vlen v) n); [lia|]. unfold truncate, bind, get_len. cbn [fst]. rewrite Hl. exact Hr. }
      destruct Hcs as [(-> & Hh1 & Hdr)|(-> & xs1 & y & xs2 & w2 & Hx & Hdr & Hy & _)].
      + left. rewrite (@leaving_one _ _ _ _ _ _ _ x Ht ltac:(discriminate) ltac:(discriminate)).
        destruct (ending (Ret tt : outcome reserve_error unit) [x] w1) as [o w''] eqn:Ee. cbn [fst snd].
        exists o, v1, w'', (firstn n l). split; [reflexivity|]. split; [exact Hh1|]. split.
        { apply resize_no_copy_cut with w1; [lia|exact Hdr|exact Ee]. }
        intros ->. pose proof (@ending_not_ub reserve_error unit (Ret tt) [x] w1 ltac:(discriminate)) as Hn. rewrite Ee in Hn. now apply Hn.
      + right. split; [lia|]. rewrite Hx, rev_app_distr. cbn [rev]. rewrite <- app_assoc.
        assert (Happ : forall a b w0 w3, drops tdrop a w0 = (Ret tt, w3) -> drops tdrop (a ++ b) w0 = drops tdrop b w3).
        { clear. induction a as [|z a IH]; cbn [drops app]; intros b w0 w3 E; [now injection E as ->|].
          destruct (tdrop z w0) as [[[]|e| | |] w4]; try discriminate. now apply IH. }
        rewrite (Happ _ _ _ _ Hdr). cbn [drops app]. now rewrite Hy.
  Qed.

  Lemma does_collect f : closure_ok f -> forall n, does (collect_loop alloc isize_max sz tdrop n f) (a_collect alloc isize_max sz tdrop f n).
  Proof.
    intros Hf. induction n as [|n IH]; intros v l w Hh; unfold does_at; cbn [collect_loop].
    - exists (Ret tt), v, w, l. split; [reflexivity|]. split; [exact Hh|]. split; [constructor|discriminate].
    - unfold bind at 1, lift. pose proof (Hf w) as Hw. destruct (f w) as [of w1] eqn:Ef. cbn [fst] in Hw.
      destruct Hw as [[[x|] ->]| ->].
      2:{ exists (Ret tt), v, w1, l. split; [reflexivity|]. split; [exact Hh|]. split; [now apply collect_end|discriminate]. }
      2:{ exists Panic, v, w1, l. split; [reflexivity|]. split; [exact Hh|]. split; [now apply collect_panic|discriminate]. }
      unfold bind. destruct (does_push x w1 Hh) as (o & v1 & w2 & l1 & -> & Hh1 & Hp & Ho).
      destruct o as [[]|e| | |].
      + destruct (IH v1 l1 w2 Hh1) as (o & v' & w' & l' & -> & Hh' & Hc & Ho').
        exists o, v', w', l'. split; [reflexivity|]. split; [exact Hh'|]. split; [|exact Ho'].
        now apply collect_next with x w1 l1 w2.
      + exists (Err e), v1, w2, l1. split; [reflexivity|]. split; [exact Hh1|]. split; [|exact Ho]. now apply collect_stop with x w1.
      + exists Panic, v1, w2, l1. split; [reflexivity|]. split; [exact Hh1|]. split; [|exact Ho]. now apply collect_stop with x w1.
      + exists Abort, v1, w2, l1. split; [reflexivity|]. split; [exact Hh1|]. split; [|exact Ho]. now apply collect_stop with x w1.
      + congruence.
  Qed.

  Lemma does_extends vs ls : Forall2 holds vs ls ->
    does (concat_loop alloc isize_max sz tclone vs) (a_extends alloc isize_max sz tclone ls).
  Proof.
    induction 1 as [|u m vs ls Hu _ IH]; intros v l w Hh; unfold does_at; cbn [concat_loop].
    - exists (Ret tt), v, w, l. split; [reflexivity|]. split; [exact Hh|]. split; [constructor|discriminate].
    - rewrite (as_slice_holds Hu). unfold bind. destruct (does_extend_no_copy m w Hh) as (o & v1 & w1 & l1 & -> & Hh1 & Hp & Ho).
      destruct o as [[]|e| | |].
      + destruct (IH v1 l1 w1 Hh1) as (o & v' & w' & l' & -> & Hh' & Hc & Ho').
        exists o, v', w', l'. split; [reflexivity|]. split; [exact Hh'|]. split; [|exact Ho']. now apply extends_next with l1 w1.
      + exists (Err e), v1, w1, l1. split; [reflexivity|]. split; [exact Hh1|]. split; [|exact Ho]. now apply extends_stop.
      + exists Panic, v1, w1, l1. split; [reflexivity|]. split; [exact Hh1|]. split; [|exact Ho]. now apply extends_stop.
      + exists Abort, v1, w1, l1. split; [reflexivity|]. split; [exact Hh1|]. split; [|exact Ho]. now apply extends_stop.
      + congruence.
  Qed.
  Lemma does_concat checked vs ls : Forall2 holds vs ls ->
    does (h_concat alloc isize_max sz tclone checked vs) (a_concat alloc isize_max sz tclone checked ls).
  Proof.
    intros HF v l w Hh. unfold does_at, h_concat, usize_sum. rewrite (sum_lens HF).
    assert (forall n, (length (List.concat ls) <= usize_max -> n = length (List.concat ls)) ->
      (checked = true -> length (List.concat ls) <= usize_max) ->
      does_at (try_reserve alloc isize_max sz n ;;; concat_loop alloc isize_max sz tclone vs) (a_concat alloc isize_max sz tclone checked ls) v l w) as K.
    { intros n Hn Hk. unfold does_at, bind. destruct (does_reserve n w Hh) as (o & v1 & w1 & l1 & -> & Hh1 & Hp & Ho). destruct o as [[]|e| | |].
      - destruct (does_extends HF w1 Hh1) as (o & v' & w' & l' & -> & Hh' & Hc & Ho').
        exists o, v', w', l'. split; [reflexivity|]. split; [exact Hh'|]. split; [|exact Ho']. now apply concat_yes with n l1 w1.
      - exists (Err e), v1, w1, l1. split; [reflexivity|]. split; [exact Hh1|]. split; [|exact Ho]. now apply concat_no with n.
      - inversion Hp.
      - inversion Hp.
      - inversion Hp. }
    destruct (Nat.ltb_spec usize_max (length (List.concat ls))) as [H|H]; [destruct checked|]; try (apply K; [lia|first [discriminate|auto]]).
    exists Panic, v, w, l. split; [reflexivity|]. split; [exact Hh|]. split; [now apply concat_overflow|discriminate].
  Qed.

  Lemma does_set i x : does (h_set tdrop i x) (a_set tdrop i x).
  Proof.
    intros v l w Hh. pose proof Hh as (Hl & Hs & Hc & Hb). unfold does_at, h_set.
    destruct (Nat.ltb_spec (vlen v) (S i)) as [H|H].
    - assert (vlen v <= i) by lia. destruct (Nat.ltb_spec i (vlen v)); [lia|].
      rewrite (@leaving_one reserve_error unit panic (v, w) Panic v w x eq_refl ltac:(discriminate) ltac:(discriminate)).
      destruct (ending (Panic : outcome reserve_error unit) [x] w) as [o w''] eqn:Ee. cbn [fst snd].
      exists o, v, w'', l. split; [reflexivity|]. split; [exact Hh|]. split; [now apply set_out; [lia|]|].
      intros ->. pose proof (@ending_not_ub reserve_error unit Panic [x] w ltac:(discriminate)) as Hn. rewrite Ee in Hn. now apply Hn.
    - destruct (Nat.ltb_spec i (vlen v)); [|lia]. rewrite Hs by lia.
      destruct (nth_error l i) as [y|] eqn:Ey; [|apply nth_error_None in Ey; lia].
      destruct (nth_error_split l i Ey) as (l1 & l2 & -> & Hi).
      rewrite drop_one_glue. pose proof (glue_ends [y] false w) as Hg.
      assert (He : ending (Ret tt) [y] w = (fst (drop_glue tdrop false [y] w), snd (drop_glue tdrop false [y] w))).
      { rewrite ending_ret. f_equal. destruct Hg as [-> | [-> | ->]]; reflexivity. }
      eexists _, _, _, (l1 ++ x :: l2). split; [reflexivity|]. split; [|split; [now apply set_in|destruct Hg as [-> | [-> | ->]]; discriminate]].
      unfold VecSpec.holds. cbn [vlen vslots vcap]. rewrite app_length in *. cbn [length] in *. repeat split; auto; try lia.
      intros j Hj. destruct (Nat.eq_dec j i) as [->|Hne].
      + rewrite upd_same. rewrite nth_error_app2 by lia. replace (i - length l1) with 0 by lia. reflexivity.
      + rewrite upd_other by exact Hne. rewrite Hs by lia. destruct (Nat.lt_ge_cases j (length l1)).
        * now rewrite !nth_error_app1.
        * rewrite !nth_error_app2 by lia. destruct (j - length l1) eqn:Ej; [lia|]. reflexivity.
  Qed.

  (** *** one call *)
  Notation vspec := (vspec alloc isize_max sz tdrop tclone).
  Notation vstep := (vstep alloc isize_max sz tdrop tclone).
  Notation vrun := (vrun alloc isize_max sz tdrop tclone).
  Definition table (g : nat -> rvec T) (S : nat -> list T) : Prop := forall r, holds (g r) (S r).

  Lemma table_upd g S r v l : table g S -> holds v l -> table (upd g r v) (upd S r l).
  Proof. intros H Hv j. unfold upd. destruct (j =? r); auto. Qed.
  Lemma table_same g S r v : table g S -> holds v (S r) -> table (upd g r v) S.
  Proof. intros H Hv j. unfold upd. destruct (Nat.eqb_spec j r) as [->|]; auto. Qed.

  Definition fine (c : vop W T) (g : vregs T) S w : Prop :=
    exists o (g' : vregs T) w' S', vstep c (g, w) = (o, (g', w')) /\ vspec c S w o S' w' /\ table g' S' /\ o <> UB.

  Lemma res_told m s (o : outcome reserve_error unit) (s' : (nat -> rvec T) * W) :
    m s = (o, s') -> res (runit T) (@plain T) m s = (told T o, s').
  Proof. intros E. unfold res, bind, map_err, ret, runit, plain. rewrite E. destruct o as [[]|e| | |]; reflexivity. Qed.

  Lemma fine_on c r m a g S w :
    acts alloc isize_max sz tdrop tclone c = Some (r, a) ->
    vstep c = res (runit T) (@plain T) (on r m) -> table g S -> does_at m a (g r) (S r) w -> fine c g S w.
  Proof.
    intros Ha Hc Ht (o & v' & w' & l' & Hm & Hh & Hs & Hu).
    exists (told T o), (upd g r v'), w', (upd S r l'). split; [|split; [now apply on_vector with a|split; [now apply table_upd|]]].
    - rewrite Hc. apply res_told. unfold on. now rewrite Hm.
    - destruct o; cbn; congruence.
  Qed.

  Lemma build_fine m a w : does_at m a (vec_new T) [] w ->
    (exists v l' w1, h_build tdrop m w = (Ret v, w1) /\ holds v l' /\ a [] w (Ret tt) l' w1) \/
    (exists o1 l' w1 o w', a [] w o1 l' w1 /\ o1 <> Ret tt /\ o1 <> UB /\ ending o1 l' w1 = (o, w') /\
        (forall x, o <> Ret x) /\
        h_build tdrop m w = (match o with Ret _ => UB | Err e => Err e | Panic => Panic | Abort => Abort | UB => UB end, w')).
  Proof.
    intros (o & v' & w1 & l' & Hm & Hh & Hs & Hu). unfold h_build, leaving_unless. rewrite Hm.
    destruct o as [[]|e| | |]; try congruence.
    - left. exists v', l', w1. auto.
    - right. exists (Err e), l', w1.
      destruct (@leaving_ending reserve_error unit (drop_all tdrop) (fun _ => (Err e, (v', w1))) (vec_new T, w) (Err e) v' w1 l' eq_refl ltac:(discriminate) ltac:(discriminate)) as (v2 & ->).
      { intros b. now apply drop_all_glue. }
      destruct (ending (Err e : outcome reserve_error unit) l' w1) as [o w'] eqn:Ee. exists o, w'.
      split; [exact Hs|]. split; [discriminate|]. split; [discriminate|]. split; [reflexivity|]. cbn [fst snd].
      assert (Hn : forall x, o <> Ret x). { intros x ->. unfold VecHistorySpec.ending in Ee. destruct (drop_glue tdrop false l' w1) as [[[]|e'| | |] w2]; discriminate. }
      split; [exact Hn|]. destruct o; try reflexivity. now destruct (Hn a0).
    - right. exists Panic, l', w1.
      destruct (@leaving_ending reserve_error unit (drop_all tdrop) (fun _ => (Panic, (v', w1))) (vec_new T, w) Panic v' w1 l' eq_refl ltac:(discriminate) ltac:(discriminate)) as (v2 & ->).
      { intros b. now apply drop_all_glue. }
      destruct (ending (Panic : outcome reserve_error unit) l' w1) as [o w'] eqn:Ee. exists o, w'.
      split; [exact Hs|]. split; [discriminate|]. split; [discriminate|]. split; [reflexivity|]. cbn [fst snd].
      assert (Hn : forall x, o <> Ret x). { intros x ->. unfold VecHistorySpec.ending in Ee. destruct (drop_glue tdrop true l' w1) as [[[]|e'| | |] w2]; discriminate. }
      split; [exact Hn|]. destruct o; try reflexivity. now destruct (Hn a0).
    - right. exists Abort, l', w1, Abort, w1. split; [exact Hs|]. split; [discriminate|]. split; [discriminate|]. split; [reflexivity|].
      split; [discriminate|]. reflexivity.
  Qed.

  Lemma told_ending o1 l w : o1 <> Ret tt -> o1 <> UB ->
    ending (told T o1) l w = (told T (fst (ending o1 l w)), snd (ending o1 l w)).
  Proof.
    intros H Hu. unfold VecHistorySpec.ending. destruct o1 as [[]|e| | |]; try congruence; cbn [told].
    - destruct (drop_glue tdrop false l w) as [[[]|e'| | |] w2]; reflexivity.
    - destruct (drop_glue tdrop true l w) as [[[]|e'| | |] w2]; reflexivity.
    - reflexivity.
  Qed.

  Lemma assign_fine r v g w S l : table g S -> holds v l ->
    exists o w', assign tdrop r v (g, w) = (o, (upd g r v, w')) /\ ending (Ret RUnit : outcome (verr T) (vres T)) (S r) w = (told T o, w') /\ o <> UB.
  Proof.
    intros Ht Hv. unfold assign. destruct (@drop_all_glue false (g r) (S r) w (Ht r)) as (v' & ->).
    pose proof (glue_ends (S r) false w) as Hg. unfold VecHistorySpec.ending.
    destruct (drop_glue tdrop false (S r) w) as [o w']. cbn [fst snd] in *. exists o, w'. split; [reflexivity|].
    destruct Hg as [-> | [-> | ->]]; split; try reflexivity; discriminate.
  Qed.

  Lemma fine_built c r m a g S w :
    makes alloc isize_max sz tdrop tclone c S = Some (r, a) ->
    vstep c (g, w) = res (runit T) (@plain T) (assign_built tdrop r (h_build tdrop m)) (g, w) ->
    table g S -> does_at m a (vec_new T) [] w -> fine c g S w.
  Proof.
    intros Ha Hc Ht Hd. unfold fine. rewrite Hc.
    destruct (build_fine Hd) as [(v & l' & w1 & Hb & Hh & Hs)|(o1 & l' & w1 & o & w' & Hs & Hr & Hu & He & Hn & Hb)].
    - destruct (@assign_fine r v g w1 S l' Ht Hh) as (o & w' & Has & He & Hu).
      exists (told T o), (upd g r v), w', (upd S r l'). split; [|split; [now apply made with a w1|split; [now apply table_upd|]]].
      + apply res_told. unfold assign_built. now rewrite Hb.
      + destruct o; cbn; congruence.
    - exists (told T o), g, w', S. split; [|split; [|split; [exact Ht|]]].
      + apply res_told. unfold assign_built. rewrite Hb. destruct o; try reflexivity. now destruct (Hn a0).
      + apply not_made with r a o1 l' w1; auto. rewrite told_ending by auto. now rewrite He.
      + pose proof (@ending_not_ub _ _ o1 l' w1 Hu) as H. rewrite He in H. cbn in H. destruct o; cbn; congruence.
  Qed.

  Lemma pop_spec v l w : holds v l ->
    (l = [] /\ pop isize_max sz (E := reserve_error) (v, w) = (Ret None, (v, w))) \/
    (exists l0 x v', l = l0 ++ [x] /\ pop isize_max sz (E := reserve_error) (v, w) = (Ret (Some x), (v', w)) /\ holds v' l0).
  Proof.
    intros Hh. pose proof Hh as (Hl & Hs & Hc & Hb). destruct (vlen v) as [|n] eqn:En.
    - left. unfold pop, bind, get_len. cbn [fst]. rewrite En. split; [destruct l; [reflexivity|discriminate]|reflexivity].
    - right. destruct l as [|x0 l0] using rev_ind; [discriminate|]. clear IHl0. exists l0, x0.
      rewrite app_length in Hl. cbn [length] in Hl. assert (Hn : n = length l0) by lia. subst n.
      rewrite app_length in Hc. cbn [length] in Hc.
      assert (Hx : vslots v (length l0) = Some x0).
      { rewrite Hs by (rewrite app_length; cbn; lia). rewrite nth_error_app2 by lia. now rewrite Nat.sub_diag. }
      unfold pop, bind, get_len, set_len. cbn [fst]. rewrite En. replace (length l0 - vlen v) with 0 by lia.
      replace (length l0 <=? capacity v) with true by (symmetry; apply Nat.leb_le; lia).
      cbn [all_init seq forallb andb]. unfold raw_take. cbn [vslots]. rewrite Hx. eexists. split; [reflexivity|]. split; [reflexivity|].
      unfold VecSpec.holds. cbn [vlen vslots vcap]. split; [reflexivity|]. split; [|split; [|exact Hb]].
      + intros i Hi. rewrite upd_other by lia. rewrite Hs by (rewrite app_length; cbn; lia). now rewrite nth_error_app1 by lia.
      + unfold VecModel.capacity in *. cbn [vcap]. lia.
  Qed.

  Theorem step_fine c g S w : vop_ok c -> table g S ->
    fine c g S w \/ breaks tdrop c S w.
  Proof.
    intros Hok Ht. destruct c as [r|r n|r n|r x|r x|r i x|r t|r n f|r n x|r xs|r|r|r x n|r t|r n f|r ck ts|r|r i x|r n x|r xs]; cbn [vop_ok] in Hok.
    - (* new *) left. destruct (@assign_fine r (vec_new T) g w S [] Ht (holds_new _ _ _)) as (o & w' & Has & He & Hu).
      exists (told T o), (upd g r (vec_new T)), w', (upd S r []). split; [|split; [|split]].
      + unfold VecHistoryModel.vstep. now apply res_told.
      + eapply made; [reflexivity|cbn; eauto|exact He].
      + apply table_upd; [exact Ht|apply holds_new].
      + destruct o; cbn; congruence.
    - left. eapply fine_built; [reflexivity|reflexivity|exact Ht|]. apply does_reserve, holds_new.
    - left. eapply fine_on; [reflexivity|reflexivity|exact Ht|]. apply does_reserve, Ht.
    - left. eapply fine_on; [reflexivity|reflexivity|exact Ht|]. apply does_push, Ht.
    - (* push_give_back *) left. unfold fine. unfold VecHistoryModel.vstep, res, on, bind, map_err.
      assert (Hp : (exists v' w', try_push_give_back alloc isize_max sz x (g r, w) = (Ret tt, (v', w')) /\ holds v' (S r ++ [x]) /\ granted (length (S r) + 1) w w')
        \/ (exists e w', try_push_give_back alloc isize_max sz x (g r, w) = (Err (x, e), (g r, w')) /\ denied (length (S r) + 1) e w w')).
      { rewrite try_push_give_back_eq.
        destruct (@reserve_one (g r) (S r) w (Ht r)) as [(v1 & w1 & Hr & Hh1 & Hc1 & G)|(e & w1 & Hr & D & Hfull)].
        - left. unfold bind at 1.
          destruct (@std_push_noalloc W alloc isize_max T sz (T * reserve_error) v1 (S r) x w1 Hh1 Hc1) as (v' & Hp & Hh' & _).
          exists v', w1. split; [|auto]. destruct (vlen (g r) =? capacity (g r)).
          + unfold map_err. rewrite Hr. exact Hp.
          + unfold ret in *. inversion Hr; subst. exact Hp.
        - right. exists e, w1. split; [|exact D]. unfold bind at 1. rewrite Hfull in *. unfold map_err. now rewrite Hr. }
      destruct Hp as [(v' & w' & -> & Hh' & G)|(e & w' & -> & D)].
      + eexists _, _, _, _. split; [reflexivity|]. split; [now apply give_back_yes|]. split; [now apply table_upd|discriminate].
      + eexists _, _, _, _. split; [reflexivity|]. split; [now apply give_back_no|]. split; [apply table_same; [exact Ht|apply Ht]|discriminate].
    - (* insert *) left. unfold fine. unfold VecHistoryModel.vstep, res, on, bind, map_err, h_insert.
      assert (Hp : (i <= length (S r) /\ exists v' w', try_insert alloc isize_max sz i x (g r, w) = (Ret tt, (v', w')) /\ holds v' (list_insert i x (S r)) /\ granted (length (S r) + 1) w w')
        \/ (length (S r) < i /\ exists v' w', try_insert alloc isize_max sz i x (g r, w) = (Panic, (v', w')) /\ holds v' (S r) /\ granted (length (S r) + 1) w w')
        \/ (exists e w', try_insert alloc isize_max sz i x (g r, w) = (Err (x, e), (g r, w')) /\ denied (length (S r) + 1) e w w')).
      { rewrite try_insert_eq.
        destruct (@reserve_one (g r) (S r) w (Ht r)) as [(v1 & w1 & Hr & Hh1 & Hc1 & G)|(e & w1 & Hr & D & Hfull)].
        - assert (Heq : forall k, ((if vlen (g r) =? capacity (g r) then map_err (fun e => (x, e)) (try_reserve alloc isize_max sz 1) else ret tt) ;;; k) (g r, w) = (k : VM W T (T * reserve_error) unit) (v1, w1)).
          { intros k. unfold bind. destruct (vlen (g r) =? capacity (g r)).
            + unfold map_err. now rewrite Hr.
            + unfold ret in *. now inversion Hr; subst. }
          rewrite Heq. destruct (Nat.le_gt_cases i (length (S r))) as [Hi|Hi].
          + left. split; [exact Hi|]. destruct (@std_insert_noalloc W alloc isize_max T sz (T * reserve_error) v1 (S r) i x w1 Hh1 Hc1 Hi) as (v' & Hp & Hh' & _).
            exists v', w1. auto.
          + right. left. split; [exact Hi|]. exists v1, w1. split; [|auto]. pose proof Hh1 as (Hl1 & _).
            unfold std_insert, bind, get_len, get_cap. cbn [fst]. rewrite Hl1. destruct (Nat.ltb_spec (length (S r)) i); [reflexivity|lia].
        - right. right. exists e, w1. split; [|exact D]. unfold bind at 1. rewrite Hfull in *. unfold map_err. now rewrite Hr. }
      destruct Hp as [(Hi & v' & w' & -> & Hh' & G)|[(Hi & v' & w' & -> & Hh' & G)|(e & w' & -> & D)]].
      + eexists _, _, _, _. split; [reflexivity|]. split; [now apply insert_yes|]. split; [now apply table_upd|discriminate].
      + rewrite (@leaving_one (T * reserve_error) unit (fun _ => (Panic, (v', w'))) (g r, w) Panic v' w' x eq_refl ltac:(discriminate) ltac:(discriminate)).
        assert (He : ending (Panic : outcome (verr T) (vres T)) [x] w' =
            (match fst (ending (Panic : outcome (T * reserve_error) unit) [x] w') with Panic => Panic | _ => Abort end, snd (ending (Panic : outcome (T * reserve_error) unit) [x] w'))).
        { unfold VecHistorySpec.ending. destruct (drop_glue tdrop true [x] w') as [[[]|e'| | |] w2]; reflexivity. }
        assert (Hcs : fst (ending (Panic : outcome (T * reserve_error) unit) [x] w') = Panic \/ fst (ending (Panic : outcome (T * reserve_error) unit) [x] w') = Abort).
        { unfold VecHistorySpec.ending. destruct (drop_glue tdrop true [x] w') as [[[]|e'| | |] w2]; cbn; auto. }
        destruct (ending (Panic : outcome (T * reserve_error) unit) [x] w') as [o w'']. cbn [fst snd] in *.
        destruct Hcs as [-> | ->]; (eexists _, (upd g r v'), w'', S; split; [reflexivity|]; split; [now apply insert_out with w'|split; [now apply table_same|discriminate]]).
      + eexists _, _, _, _. split; [reflexivity|]. split; [now apply insert_no|]. split; [apply table_same; [exact Ht|apply Ht]|discriminate].
    - (* append *) left. destruct (Nat.eq_dec r t) as [<-|Hne].
      { exists (Ret RUnit), g, w, S. split; [|split; [constructor|split; [exact Ht|discriminate]]].
        unfold VecHistoryModel.vstep, h_append, res, bind, map_err. now rewrite Nat.eqb_refl. }
      assert (Hp : (exists v' o' w', try_append alloc isize_max sz (g r) (g t) w = (Ret tt, (v', o', w')) /\
          holds v' (S r ++ S t) /\ holds o' [] /\ granted (length (S r) + length (S t)) w w')
          \/ (exists e w', try_append alloc isize_max sz (g r) (g t) w = (Err e, (g r, g t, w')) /\ denied (length (S r) + length (S t)) e w w')).
      { destruct (try_append_cases alloc w (Ht r) (Ht t)) as [(v' & o' & w' & Ha & Hh1 & Hh2 & _)|(e & w' & Ha)].
        - left. exists v', o', w'. split; [exact Ha|]. split; [exact Hh1|]. split; [exact Hh2|].
          unfold try_append in Ha. pose proof (Ht t) as (Hlt & _). rewrite Hlt in Ha.
          destruct (@reserve_spec (g r) (S r) (length (S t)) w (Ht r)) as [(v1 & w1 & Hr & Hh & Hcap & G)|(e & w1 & Hr & D)]; rewrite Hr in Ha; [|discriminate].
          unfold std_append in Ha. rewrite Hlt in Ha. pose proof Hh as (Hl1 & _).
          rewrite reserve_noop in Ha by (unfold VecSpec.room; lia).
          destruct ((vlen v1 + length (S t) <=? capacity v1) && all_init (vslots (g t)) 0 (length (S t))); inversion Ha; subst. exact G.
        - right. exists e, w'. split; [exact Ha|]. unfold try_append in Ha. pose proof (Ht t) as (Hlt & _). rewrite Hlt in Ha.
          destruct (@reserve_spec (g r) (S r) (length (S t)) w (Ht r)) as [(v1 & w1 & Hr & Hh & Hcap & G)|(e' & w1 & Hr & D)]; rewrite Hr in Ha.
          + unfold std_append in Ha. rewrite Hlt in Ha. pose proof Hh as (Hl1 & _).
            rewrite reserve_noop in Ha by (unfold VecSpec.room; lia).
            destruct ((vlen v1 + length (S t) <=? capacity v1) && all_init (vslots (g t)) 0 (length (S t))); discriminate.
          + inversion Ha; subst. exact D. }
      unfold fine. unfold VecHistoryModel.vstep, h_append, res, bind, map_err. destruct (Nat.eqb_spec r t); [contradiction|].
      destruct Hp as [(v' & o' & w' & -> & Hh1 & Hh2 & G)|(e & w' & -> & D)].
      + eexists _, _, _, _. split; [reflexivity|]. split; [now apply append_yes|]. split; [|discriminate].
        apply table_upd; [now apply table_upd|exact Hh2].
      + eexists _, _, _, S. split; [reflexivity|]. split; [now apply append_no|]. split; [|discriminate].
        apply table_same; [|apply Ht]. apply table_same; [exact Ht|apply Ht].
    - left. eapply fine_on; [reflexivity|reflexivity|exact Ht|]. apply does_resize_with; [exact Hok|apply Ht].
    - destruct (@does_resize_no_copy n x (g r) (S r) w (Ht r)) as [H|H]; [left|now right].
      eapply fine_on; [reflexivity|reflexivity|exact Ht|exact H].
    - left. eapply fine_on; [reflexivity|reflexivity|exact Ht|]. apply does_extend_no_copy, Ht.
    - (* pop *) left. unfold fine. unfold VecHistoryModel.vstep, res, on, bind, map_err.
      destruct (@pop_spec (g r) (S r) w (Ht r)) as [(Hl & ->)|(l0 & x & v' & Hl & -> & Hh)].
      + eexists _, _, _, _. split; [reflexivity|]. split; [apply pop_none; exact Hl|]. split; [apply table_same; [exact Ht|apply Ht]|discriminate].
      + eexists _, _, _, _. split; [reflexivity|]. split; [eapply pop_some; exact Hl|]. split; [now apply table_upd|discriminate].
    - left. eapply fine_on; [reflexivity|reflexivity|exact Ht|]. apply does_clear, Ht.
    - (* from_elem *) left. destruct (@does_resize_no_copy n x (vec_new T) [] w (holds_new _ _ _)) as [H|[H1 H2]].
      + eapply fine_built; [reflexivity|reflexivity|exact Ht|exact H].
      + exfalso. destruct n; [|cbn in H1; lia]. cbn in H2. discriminate.
    - (* try_clone *) left. assert (Hv : vstep (VTryClone r t) (g, w) =
        res (runit T) (@plain T) (assign_built tdrop r (h_build tdrop (try_extend_from_slice_no_copy alloc isize_max sz tclone (S t)))) (g, w)).
      { unfold VecHistoryModel.vstep. now rewrite (@as_slice_holds isize_max T sz (g t) (S t) (Ht t)). }
      eapply fine_built; [reflexivity|exact Hv|exact Ht|]. apply does_extend_no_copy, holds_new.
    - left. eapply fine_built; [reflexivity|reflexivity|exact Ht|]. apply does_collect; [exact Hok|apply holds_new].
    - left. eapply fine_built; [reflexivity|reflexivity|exact Ht|]. apply does_concat; [|apply holds_new].
      clear - Ht. induction ts; cbn; constructor; auto.
    - (* slice *) left. unfold fine. unfold VecHistoryModel.vstep, res, on, bind, map_err, h_slice. cbn [fst].
      rewrite (@as_slice_holds isize_max T sz (g r) (S r) (Ht r)).
      eexists _, _, _, _. split; [reflexivity|]. split; [apply slice|]. split; [apply table_same; [exact Ht|apply Ht]|discriminate].
    - left. eapply fine_on; [reflexivity|reflexivity|exact Ht|]. apply does_set, Ht.
    - left. eapply fine_on; [reflexivity|reflexivity|exact Ht|]. apply does_resize, Ht.
    - left. eapply fine_on; [reflexivity|reflexivity|exact Ht|]. apply does_extend, Ht.
  Qed.

  Theorem run_fine cs : Forall (@vop_ok W T) cs -> forall (g : vregs T) S w, table g S ->
    exists os (g' : vregs T) w' R, vrun cs (g, w) = (os, (g', w')) /\
      vhistory alloc isize_max sz tdrop tclone cs S w os R w' /\
      (forall S', R = Some S' -> table g' S' /\ Forall (fun o => o <> UB /\ o <> Abort) os).
  Proof.
    induction cs as [|c cs IH]; intros Hok g S w Ht; cbn [VecHistoryModel.vrun].
    - exists [], g, w, (Some S). split; [reflexivity|]. split; [constructor|]. intros S' E. inversion E; subst. auto.
    - inversion Hok as [|? ? Hc Hcs]; subst.
      destruct (@step_fine c g S w Hc Ht) as [(o & g1 & w1 & S1 & Hs & Hv & Ht1 & Hu)|Hb].
      + rewrite Hs. destruct (IH Hcs g1 S1 w1 Ht1) as (os & g' & w' & R & Hr & Hh & HR).
        assert (Hcase : o = Abort \/ o <> Abort) by (destruct o; auto; right; discriminate).
        destruct Hcase as [->|Ha].
        * exists [Abort], g1, w1, None. split; [reflexivity|]. split; [now apply v_abort with S1|]. discriminate.
        * exists (o :: os), g', w', R. split; [destruct o; try congruence; now rewrite Hr|]. split; [now apply v_step with S1 w1|].
          intros S' E. destruct (HR S' E) as [H1 H2]. auto.
      + remember (match vstep c (g, w) with
          | (Abort, s') => ([Abort], s') | (UB, s') => ([UB], s')
          | (o, s') => let '(os, s'') := vrun cs s' in (o :: os, s'') end) as q eqn:Eq.
        destruct q as [os [g' w']]. exists os, g', w', None. split; [now rewrite Eq|]. split; [now apply v_break|discriminate].
  Qed.
End P.
