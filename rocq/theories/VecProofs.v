(** * VecProofs: lemmas about VecModel. *)
From Coq Require Import List Arith Lia Bool.
Import ListNotations.
From Verif Require Import Base VecModel VecSpec.
Set Implicit Arguments.

Ltac nb :=
  repeat match goal with
  | H : context [?a <=? ?b] |- _ => destruct (Nat.leb_spec a b)
  | H : context [?a <? ?b] |- _ => destruct (Nat.ltb_spec a b)
  | H : context [?a =? ?b] |- _ => destruct (Nat.eqb_spec a b)
  | |- context [?a <=? ?b] => destruct (Nat.leb_spec a b)
  | |- context [?a <? ?b] => destruct (Nat.ltb_spec a b)
  | |- context [?a =? ?b] => destruct (Nat.eqb_spec a b)
  end.

Lemma slots_list_ok T (f : nat -> option T) (l : list T) : forall i,
  (forall j, j < length l -> f (i + j) = nth_error l j) ->
  slots_list f i (length l) = Some l.
Proof.
  induction l as [|x l IH]; simpl; intros i H; [reflexivity|].
  pose proof (H 0 ltac:(lia)) as H0. rewrite Nat.add_0_r in H0. simpl in H0. rewrite H0.
  rewrite IH; [reflexivity|].
  intros j Hj. specialize (H (S j) ltac:(lia)). simpl in H.
  now rewrite <- plus_n_Sm in H.
Qed.

Section P.
  Variable W : Type.
  Variable alloc : nat -> W -> answer * W.
  Variable isize_max : nat.
  Variable T : Type.
  Variable sz : nat.
  Notation holds := (holds isize_max sz).
  Notation capacity := (capacity isize_max sz).
  Notation room := (room isize_max sz).
  Notation usize_max := (usize_max isize_max).
  Implicit Types (w : W) (v : rvec T).

  Lemma holds_new : holds (vec_new T) [].
  Proof.
    unfold holds; simpl. repeat split; try lia.
  Qed.

  Lemma as_slice_holds (v : rvec T) l : holds v l -> as_slice v = Some l.
  Proof.
    intros (Hl & Hs & _). unfold as_slice. rewrite Hl.
    apply slots_list_ok. intros; apply Hs; lia.
  Qed.

  Lemma holds_inj (v : rvec T) l l' : holds v l -> holds v l' -> l = l'.
  Proof.
    intros H H'. apply as_slice_holds in H. apply as_slice_holds in H'. congruence.
  Qed.

  Lemma capacity_le_usize (v : rvec T) l : holds v l -> capacity v <= usize_max.
  Proof.
    intros (_ & _ & _ & H). unfold VecModel.capacity, VecModel.usize_max in *. nb; [lia|].
    specialize (H n). nia.
  Qed.

  Lemma try_reserve_cases (v : rvec T) l n w :
    holds v l ->
    (exists v' w', try_reserve alloc isize_max sz n (v, w) = (Ret tt, (v', w')) /\
        holds v' l /\ length l + n <= capacity v' /\ capacity v <= capacity v' /\
        (n <= room v -> v' = v /\ w' = w))
    \/ (exists e w', try_reserve alloc isize_max sz n (v, w) = (Err e, (v, w')) /\ room v < n).
  Proof.
    intros Hh. pose proof Hh as (Hl & Hs & Hc & Hb).
    unfold try_reserve. unfold VecSpec.room in *.
    destruct (Nat.leb_spec n (capacity v - vlen v)) as [H|H].
    { left. exists v, w. repeat split; auto; lia. }
    destruct (Nat.eqb_spec sz 0) as [Hz|Hz].
    { right. eauto. }
    destruct (Nat.ltb_spec usize_max (vlen v + n)) as [H1|H1]; [right; eauto|].
    destruct (Nat.ltb_spec isize_max ((vlen v + n) * sz)) as [H2|H2]; [right; eauto|].
    destruct (alloc ((vlen v + n) * sz) w) as [[extra|e] w'] eqn:E; [|right; eauto].
    left. eexists _, w'. split; [reflexivity|].
    assert (Hcap : capacity (grown isize_max sz v (vlen v + n) extra) >= vlen v + n).
    { unfold VecModel.capacity, grown; simpl. nb; lia. }
    assert (Hcap0 : capacity v < vlen v + n) by lia.
    repeat split.
    - exact Hl.
    - intros i Hi. unfold grown; simpl. destruct (Nat.ltb_spec i (vlen v)); [now apply Hs|lia].
    - lia.
    - intros _. unfold grown; simpl. nb; lia.
    - lia.
    - lia.
    - lia.
    - lia.
  Qed.

  Lemma reserve_noop E (v : rvec T) n w :
    n <= room v -> reserve alloc isize_max sz (E:=E) n (v, w) = (Ret tt, (v, w)).
  Proof.
    intros H. unfold reserve, try_reserve. unfold VecSpec.room in H.
    destruct (Nat.leb_spec n (capacity v - vlen v)); [reflexivity|lia].
  Qed.

  Lemma all_init_one (f : nat -> option T) i x : f i = Some x -> all_init f i 1 = true.
  Proof. intros H. unfold all_init. simpl. now rewrite H. Qed.

  (** one element written at the end *)
  Lemma write_end E (v : rvec T) l x w :
    holds v l -> length l < capacity v ->
    exists v', (raw_write isize_max sz (E:=E) (length l) x ;;; set_len isize_max sz (S (length l))) (v, w)
               = (Ret tt, (v', w)) /\
      holds v' (l ++ [x]) /\ vcap v' = vcap v /\ capacity v' = capacity v.
  Proof.
    intros Hh Hlt. pose proof Hh as (Hl & Hs & Hc & Hb).
    unfold bind, raw_write.
    destruct (Nat.ltb_spec (length l) (capacity v)) as [H|H]; [|lia].
    unfold set_len. simpl vlen. simpl vcap. simpl vslots.
    replace (S (length l) - vlen v) with 1 by lia.
    assert (Hcap : capacity (mkVec (vcap v) (vlen v) (upd (vslots v) (length l) (Some x))) = capacity v)
      by reflexivity.
    rewrite Hcap.
    destruct (Nat.leb_spec (S (length l)) (capacity v)) as [H1|H1]; [|lia].
    rewrite Hl, all_init_one with (x := x) by apply upd_same. simpl.
    eexists; split; [reflexivity|]. split; [|split; reflexivity].
    repeat split; simpl.
    - rewrite app_length; simpl; lia.
    - intros i Hi. rewrite app_length in Hi; simpl in Hi.
      destruct (Nat.eq_dec i (length l)) as [->|Hne].
      + rewrite upd_same. rewrite nth_error_app2, Nat.sub_diag by lia. reflexivity.
      + rewrite upd_other by lia. rewrite nth_error_app1 by lia. apply Hs; lia.
    - rewrite app_length; simpl. unfold VecModel.capacity in *; simpl; lia.
    - exact Hb.
  Qed.

  Lemma std_push_noalloc E (v : rvec T) l x w :
    holds v l -> length l < capacity v ->
    exists v', std_push alloc isize_max sz (E:=E) x (v, w) = (Ret tt, (v', w)) /\
      holds v' (l ++ [x]) /\ capacity v' = capacity v.
  Proof.
    intros Hh Hlt. pose proof Hh as (Hl & _).
    unfold std_push, get_len, get_cap. unfold bind at 1 2. cbn [fst].
    rewrite Hl. destruct (Nat.eqb_spec (length l) (capacity v)) as [H|H]; [lia|].
    destruct (@write_end E v l x w Hh Hlt) as (v' & Hr & Hh' & _ & Hc').
    exists v'. split; [|auto]. unfold bind at 1, ret. exact Hr.
  Qed.

  Definition grow v n : VM W T reserve_error unit :=
    if needs_to_grow isize_max sz v n then try_reserve alloc isize_max sz n else ret tt.

  Lemma try_push_eq v w x : try_push alloc isize_max sz x (v, w) =
    ((if vlen v =? capacity v then try_reserve alloc isize_max sz 1 else ret tt) ;;;
     std_push alloc isize_max sz x) (v, w).
  Proof. reflexivity. Qed.
  Lemma try_push_give_back_eq v w x : try_push_give_back alloc isize_max sz x (v, w) =
    ((if vlen v =? capacity v then map_err (fun e => (x, e)) (try_reserve alloc isize_max sz 1) else ret tt) ;;;
     std_push alloc isize_max sz x) (v, w).
  Proof. reflexivity. Qed.
  Lemma try_insert_eq v w i x : try_insert alloc isize_max sz i x (v, w) =
    ((if vlen v =? capacity v then map_err (fun e => (x, e)) (try_reserve alloc isize_max sz 1) else ret tt) ;;;
     std_insert alloc isize_max sz i x) (v, w).
  Proof. reflexivity. Qed.
  Lemma try_resize_eq tdrop v w n x : try_resize alloc isize_max sz tdrop n x (v, w) =
    ((if vlen v <? n then try_reserve alloc isize_max sz (n - vlen v) else ret tt) ;;;
     std_resize alloc isize_max sz tdrop n x) (v, w).
  Proof. reflexivity. Qed.
  Lemma try_resize_with_eq tdrop v w n f : try_resize_with alloc isize_max sz tdrop n f (v, w) =
    ((if vlen v <? n then try_reserve alloc isize_max sz (n - vlen v) else ret tt) ;;;
     std_resize_with alloc isize_max sz tdrop n f) (v, w).
  Proof. reflexivity. Qed.
  Lemma try_extend_from_slice_eq v w xs : try_extend_from_slice alloc isize_max sz xs (v, w) =
    (grow v (length xs) ;;;
     std_extend_from_slice alloc isize_max sz xs) (v, w).
  Proof. reflexivity. Qed.
  Lemma try_extend_no_copy_eq tclone v w xs : try_extend_from_slice_no_copy alloc isize_max sz tclone xs (v, w) =
    (grow v (length xs) ;;;
     len <- @get_len W T reserve_error ;; extend_loop isize_max sz tclone xs len) (v, w).
  Proof. reflexivity. Qed.
  Lemma try_extend_with_eq tclone v w n x : try_extend_with alloc isize_max sz tclone n x (v, w) =
    (grow v n ;;;
     len <- @get_len W T reserve_error ;;
     p <- extend_with_loop isize_max sz tclone (n - 1) x len len ;;
     (if 0 <? n then raw_write isize_max sz (fst p) x ;;; set_len isize_max sz (S (snd p)) else ret tt)) (v, w).
  Proof. reflexivity. Qed.

  (** [try_push] *)
  Lemma try_push_cases (v : rvec T) l x w :
    holds v l ->
    (exists v' w', try_push alloc isize_max sz x (v, w) = (Ret tt, (v', w')) /\
        holds v' (l ++ [x]) /\ capacity v <= capacity v' /\ (0 < room v -> w' = w /\ capacity v' = capacity v))
    \/ (exists e w', try_push alloc isize_max sz x (v, w) = (Err e, (v, w')) /\ room v = 0).
  Proof.
    intros Hh. pose proof Hh as (Hl & _ & Hc & _).
    rewrite try_push_eq.
    destruct (Nat.eqb_spec (vlen v) (capacity v)) as [H|H].
    - destruct (try_reserve_cases 1 w Hh) as [(v' & w' & Hr & Hh' & Hcap & Hcc & _)|(e & w' & Hr & Hrm)].
      + left. unfold bind at 1. rewrite Hr.
        destruct (@std_push_noalloc reserve_error v' l x w' Hh' ltac:(lia)) as (v'' & Hp & Hh'' & Hc'').
        exists v'', w'. split; [exact Hp|]. split; [exact Hh''|]. split; [lia|].
        unfold VecSpec.room; lia.
      + right. exists e, w'. unfold bind at 1. rewrite Hr. split; [reflexivity|lia].
    - left. unfold bind at 1, ret.
      destruct (@std_push_noalloc reserve_error v l x w Hh ltac:(lia)) as (v'' & Hp & Hh'' & Hc'').
      exists v'', w. split; [exact Hp|]. split; [exact Hh''|]. split; [lia|]. auto.
  Qed.

  Lemma try_push_give_back_cases (v : rvec T) l x w :
    holds v l ->
    (exists v' w', try_push_give_back alloc isize_max sz x (v, w) = (Ret tt, (v', w')) /\
        holds v' (l ++ [x]) /\ capacity v <= capacity v' /\ (0 < room v -> w' = w /\ capacity v' = capacity v))
    \/ (exists e w', try_push_give_back alloc isize_max sz x (v, w) = (Err (x, e), (v, w')) /\ room v = 0).
  Proof.
    intros Hh. pose proof Hh as (Hl & _ & Hc & _).
    rewrite try_push_give_back_eq.
    destruct (Nat.eqb_spec (vlen v) (capacity v)) as [H|H].
    - destruct (try_reserve_cases 1 w Hh) as [(v' & w' & Hr & Hh' & Hcap & Hcc & _)|(e & w' & Hr & Hrm)].
      + left. unfold bind at 1, map_err. rewrite Hr.
        destruct (@std_push_noalloc (T*reserve_error) v' l x w' Hh' ltac:(lia)) as (v'' & Hp & Hh'' & Hc'').
        exists v'', w'. split; [exact Hp|]. split; [exact Hh''|]. split; [lia|].
        unfold VecSpec.room; lia.
      + right. exists e, w'. unfold bind at 1, map_err. rewrite Hr. split; [reflexivity|lia].
    - left. unfold bind at 1, ret.
      destruct (@std_push_noalloc (T*reserve_error) v l x w Hh ltac:(lia)) as (v'' & Hp & Hh'' & Hc'').
      exists v'', w. split; [exact Hp|]. split; [exact Hh''|]. split; [lia|]. auto.
  Qed.

  (** [try_insert] *)
  Lemma length_list_insert i (x : T) l : i <= length l -> length (list_insert i x l) = S (length l).
  Proof.
    intros H. unfold list_insert. rewrite app_length. simpl.
    rewrite firstn_length, skipn_length. lia.
  Qed.

  Lemma nth_error_skipn' (l : list T) i j : nth_error (skipn i l) j = nth_error l (i + j).
  Proof.
    revert l; induction i; intros l; simpl; [reflexivity|].
    destruct l; simpl; [destruct j; reflexivity|]. apply IHi.
  Qed.

  Lemma nth_error_firstn' (l : list T) i j : j < i -> nth_error (firstn i l) j = nth_error l j.
  Proof.
    revert l j; induction i; intros l j H; [lia|].
    destruct l; simpl; [destruct j; reflexivity|]. destruct j; simpl; [reflexivity|].
    apply IHi; lia.
  Qed.

  Lemma nth_error_list_insert i (x : T) l j : i <= length l ->
    nth_error (list_insert i x l) j =
      if j <? i then nth_error l j else if j =? i then Some x else nth_error l (j - 1).
  Proof.
    intros H. unfold list_insert.
    assert (Hf : length (firstn i l) = i) by (rewrite firstn_length; lia).
    nb.
    - rewrite nth_error_app1 by lia. now apply nth_error_firstn'.
    - subst j. rewrite nth_error_app2 by lia. rewrite Hf, Nat.sub_diag. reflexivity.
    - rewrite nth_error_app2 by lia. rewrite Hf.
      destruct (j - i) eqn:E; [lia|]. simpl. rewrite nth_error_skipn'. f_equal; lia.
  Qed.

  Lemma std_insert_noalloc E (v : rvec T) l i x w :
    holds v l -> length l < capacity v -> i <= length l ->
    exists v', std_insert alloc isize_max sz (E:=E) i x (v, w) = (Ret tt, (v', w)) /\
      holds v' (list_insert i x l) /\ capacity v' = capacity v.
  Proof.
    intros Hh Hlt Hi. pose proof Hh as (Hl & Hs & Hc & Hb).
    unfold std_insert, get_len, get_cap. unfold bind at 1 2. cbn [fst].
    rewrite Hl.
    destruct (Nat.ltb_spec (length l) i) as [H|H]; [lia|].
    destruct (Nat.eqb_spec (length l) (capacity v)) as [H0|H0]; [lia|].
    unfold bind, ret, shift_up, raw_write, set_len. simpl vlen. simpl vcap. simpl vslots.
    unfold VecModel.capacity in *. simpl vlen in *. simpl vcap in *. rewrite Hl.
    set (C := if sz =? 0 then usize_max else vcap v) in *.
    destruct (Nat.ltb_spec (length l) C) as [H1|H1]; [|lia].
    simpl vcap. simpl vslots. simpl vlen. fold C.
    destruct (Nat.ltb_spec i C) as [H2|H2]; [|lia].
    simpl vcap. simpl vslots. simpl vlen. fold C.
    destruct (Nat.leb_spec (S (length l)) C) as [H3|H3]; [|lia].
    replace (S (length l) - length l) with 1 by lia.
    assert (Hslots : forall j, j < S (length l) ->
       upd (fun i0 => if (i <? i0) && (i0 <=? length l) then vslots v (i0 - 1) else vslots v i0) i (Some x) j
       = nth_error (list_insert i x l) j).
    { intros j Hj. rewrite nth_error_list_insert by lia. unfold upd.
      nb; simpl; try lia; try reflexivity; apply Hs; lia. }
    destruct (nth_error (list_insert i x l) (length l)) eqn:En.
    2:{ apply nth_error_None in En. rewrite length_list_insert in En; lia. }
    erewrite all_init_one by (rewrite Hslots by lia; exact En). simpl.
    eexists; split; [reflexivity|]. split; [|reflexivity].
    unfold VecSpec.holds. rewrite length_list_insert by lia. simpl.
    repeat split; auto. 
  Qed.

  Lemma try_insert_cases (v : rvec T) l i x w :
    holds v l ->
    (i <= length l /\ exists v' w', try_insert alloc isize_max sz i x (v, w) = (Ret tt, (v', w')) /\
        holds v' (list_insert i x l) /\ capacity v <= capacity v' /\ (0 < room v -> w' = w /\ capacity v' = capacity v))
    \/ (length l < i /\ exists v' w', try_insert alloc isize_max sz i x (v, w) = (Panic, (v', w')) /\ holds v' l)
    \/ (exists e w', try_insert alloc isize_max sz i x (v, w) = (Err (x, e), (v, w')) /\ room v = 0).
  Proof.
    intros Hh. pose proof Hh as (Hl & _ & Hc & _).
    assert (Hpan : forall v' w', holds v' l -> length l < i ->
       std_insert alloc isize_max sz (E:=T*reserve_error) i x (v', w') = (Panic, (v', w'))).
    { intros v' w' Hh' Hi. unfold std_insert, get_len, get_cap. unfold bind at 1 2. cbn [fst].
      destruct Hh' as (Hl' & _). rewrite Hl'. destruct (Nat.ltb_spec (length l) i); [reflexivity|lia]. }
    rewrite try_insert_eq.
    destruct (Nat.eqb_spec (vlen v) (capacity v)) as [H|H].
    - destruct (try_reserve_cases 1 w Hh) as [(v' & w' & Hr & Hh' & Hcap & Hcc & _)|(e & w' & Hr & Hrm)].
      + unfold bind at 1 2 3, map_err. rewrite Hr.
        destruct (Nat.le_gt_cases i (length l)) as [Hi|Hi].
        * left. split; [exact Hi|].
          destruct (@std_insert_noalloc (T*reserve_error) v' l i x w' Hh' ltac:(lia) Hi) as (v'' & Hp & Hh'' & Hc'').
          exists v'', w'. split; [exact Hp|]. split; [exact Hh''|]. split; [lia|].
          unfold VecSpec.room; lia.
        * right; left. split; [exact Hi|]. exists v', w'. rewrite Hpan; auto.
      + right; right. exists e, w'. unfold bind at 1, map_err. rewrite Hr. split; [reflexivity|lia].
    - unfold bind at 1 2 3, ret.
      destruct (Nat.le_gt_cases i (length l)) as [Hi|Hi].
      + left. split; [exact Hi|].
        destruct (@std_insert_noalloc (T*reserve_error) v l i x w Hh ltac:(lia) Hi) as (v'' & Hp & Hh'' & Hc'').
        exists v'', w. split; [exact Hp|]. split; [exact Hh''|]. split; [lia|]. auto.
      + right; left. split; [exact Hi|]. exists v, w. rewrite Hpan; auto.
  Qed.

  Lemma all_init_holds (v : rvec T) l : holds v l -> forall a n, a + n <= length l -> all_init (vslots v) a n = true.
  Proof.
    intros (_ & Hs & _) a n H. unfold all_init. apply forallb_forall. intros i Hi.
    apply in_seq in Hi. rewrite Hs by lia.
    destruct (nth_error l i) eqn:E; [reflexivity|]. apply nth_error_None in E; lia.
  Qed.

  (** [try_append] *)
  Lemma try_append_cases (v o : rvec T) l m w :
    holds v l -> holds o m ->
    (exists v' o' w', try_append alloc isize_max sz v o w = (Ret tt, (v', o', w')) /\
        holds v' (l ++ m) /\ holds o' [] /\ capacity o' = capacity o /\ capacity v <= capacity v' /\
        (length m <= room v -> w' = w))
    \/ (exists e w', try_append alloc isize_max sz v o w = (Err e, (v, o, w'))).
  Proof.
    intros Hv Ho. pose proof Ho as (Hol & Hos & Hoc & Hob).
    unfold try_append.
    destruct (try_reserve_cases (vlen o) w Hv) as [(v' & w' & Hr & Hh' & Hcap & Hcc & Hno)|(e & w' & Hr & Hrm)].
    2:{ right. exists e, w'. now rewrite Hr. }
    left. rewrite Hr. pose proof Hh' as (Hl' & Hs' & Hc' & Hb').
    unfold std_append. rewrite reserve_noop by (unfold VecSpec.room; lia).
    destruct (Nat.leb_spec (vlen v' + vlen o) (capacity v')); [|lia].
    rewrite (@all_init_holds o m Ho 0 (vlen o)) by lia. simpl.
    eexists _, _, w'. split; [reflexivity|].
    split; [|split; [|split; [|split]]].
    - unfold VecSpec.holds; simpl. rewrite app_length. repeat split.
      + lia.
      + intros i Hi. destruct (Nat.ltb_spec i (vlen v')).
        * rewrite nth_error_app1 by lia. apply Hs'; lia.
        * destruct (Nat.ltb_spec i (vlen v' + vlen o)); [|lia].
          rewrite nth_error_app2 by lia. rewrite Hl'. apply Hos; lia.
      + unfold VecModel.capacity in *; simpl. lia.
      + exact Hb'.
    - unfold VecSpec.holds; simpl. repeat split; auto; try lia.
    - reflexivity.
    - unfold VecModel.capacity in *; simpl. lia.
    - intros Hm. rewrite Hol in Hno. destruct (Hno Hm); auto.
  Qed.

  (** pushing many elements within the capacity *)
  Lemma push_all_ok E (xs : list T) : forall (v : rvec T) l w,
    holds v l -> length l + length xs <= capacity v ->
    exists v', push_all isize_max sz (E:=E) xs (v, w) = (Ret tt, (v', w)) /\
      holds v' (l ++ xs) /\ capacity v' = capacity v.
  Proof.
    induction xs as [|x xs IH]; intros v l w Hh Hc.
    - exists v. rewrite app_nil_r. simpl. unfold ret. auto.
    - simpl in Hc. pose proof Hh as (Hl & _).
      destruct (@write_end E v l x w Hh ltac:(lia)) as (v' & Hr & Hh' & _ & Hc').
      destruct (IH v' (l ++ [x]) w Hh') as (v'' & Hr' & Hh'' & Hc'').
      { rewrite app_length; simpl; lia. }
      exists v''. rewrite <- app_assoc in Hh''. split; [|split; [exact Hh''|lia]].
      simpl. unfold get_len. unfold bind at 1. cbn [fst]. rewrite Hl.
      revert Hr. unfold bind. 
      destruct (raw_write isize_max sz (length l) x (v, w)) as [[] s1]; try discriminate.
      intros Hr. rewrite Hr. exact Hr'.
  Qed.

  Section Drop.
  Variable tdrop : T -> W -> outcome reserve_error unit * W.

  Lemma raw_take_last E (v : rvec T) i x w : vslots v i = Some x ->
    raw_take (E:=E) i (v, w) = (Ret x, (mkVec (vcap v) (vlen v) (upd (vslots v) i None), w)).
  Proof. intros H. unfold raw_take. now rewrite H. Qed.

  Lemma glue_returns xs : drop_returns tdrop -> forall w, exists w', drop_glue tdrop false xs w = (Ret tt, w') /\ drops tdrop xs w = (Ret tt, w').
  Proof.
    intros Hd. induction xs as [|x xs IH]; intros w; cbn [drop_glue drops]; [eauto|]. pose proof (Hd x w) as Hx.
    destruct (tdrop x w) as [o w1]. cbn [fst] in Hx. subst o. apply IH.
  Qed.
  Lemma glue_cases xs : drop_returns_or_panics tdrop -> forall b w,
    fst (drop_glue tdrop b xs w) = Ret tt \/ fst (drop_glue tdrop b xs w) = Panic \/ fst (drop_glue tdrop b xs w) = Abort.
  Proof.
    intros Hd. induction xs as [|x xs IH]; intros b w; cbn [drop_glue]; [destruct b; cbn; auto|]. pose proof (Hd x w) as Hx.
    destruct (tdrop x w) as [o w1]. cbn [fst] in Hx. destruct Hx; subst o; [apply IH|]. destruct b; [cbn; auto|apply IH].
  Qed.

  (** drop_slice on slots above the length *)
  Lemma drop_slice_ok xs : drop_returns_or_panics tdrop -> forall b (v : rvec T) l i w,
    holds v l -> length l <= i ->
    (forall j, j < length xs -> vslots v (i + j) = nth_error xs j) ->
    exists v' w', drop_rest tdrop b i (length xs) (v, w) = (fst (drop_glue tdrop b xs w), (v', w')) /\ snd (drop_glue tdrop b xs w) = w' /\
       holds v' l /\ capacity v' = capacity v.
  Proof.
    intros Hd. induction xs as [|x xs IH]; intros b v l i w Hh Hi Hsl.
    - cbn [length drop_rest drop_glue]. exists v, w. destruct b; cbn; auto.
    - cbn [length drop_rest drop_glue]. unfold drop_slot, bind.
      pose proof (Hsl 0 ltac:(simpl; lia)) as H0. rewrite Nat.add_0_r in H0. simpl in H0.
      rewrite (@raw_take_last reserve_error v i x w H0). unfold lift.
      set (v1 := mkVec (vcap v) (vlen v) (upd (vslots v) i None)).
      assert (Hh1 : holds v1 l).
      { destruct Hh as (Hl & Hs & Hc & Hb). unfold v1, VecSpec.holds; simpl. repeat split; auto.
        intros j Hj. rewrite upd_other by lia. auto. }
      assert (Hs1 : forall j, j < length xs -> vslots v1 (S i + j) = nth_error xs j).
      { intros j Hj. unfold v1; simpl. rewrite upd_other by lia.
        replace (S (i + j)) with (i + S j) by lia. apply (Hsl (S j)). simpl; lia. }
      pose proof (Hd x w) as Hod. destruct (tdrop x w) as [od w1]. cbn [fst] in Hod. destruct Hod as [->| ->].
      + exact (IH b v1 l (S i) w1 Hh1 ltac:(lia) Hs1).
      + destruct b.
        * exists v1, w1. cbn [fst snd]. auto.
        * exact (IH true v1 l (S i) w1 Hh1 ltac:(lia) Hs1).
  Qed.

  Lemma holds_firstn (v : rvec T) l n : holds v l -> n <= length l ->
    holds (mkVec (vcap v) n (vslots v)) (firstn n l).
  Proof.
    intros (Hl & Hs & Hc & Hb) Hn. unfold VecSpec.holds; simpl.
    assert (Hf : length (firstn n l) = n) by (rewrite firstn_length; lia).
    rewrite Hf. repeat split; auto.
    - intros i Hi. rewrite nth_error_firstn' by lia. apply Hs; lia.
    - unfold VecModel.capacity in *; simpl in *; lia.
  Qed.

  Lemma std_truncate_ok (v : rvec T) l n w :
    holds v l -> drop_returns_or_panics tdrop ->
    exists v' w', std_truncate isize_max sz tdrop n (v, w) = (fst (drop_glue tdrop false (skipn n l) w), (v', w')) /\
      snd (drop_glue tdrop false (skipn n l) w) = w' /\ holds v' (firstn n l) /\ capacity v' = capacity v.
  Proof.
    intros Hh Hd. pose proof Hh as (Hl & Hs & Hc & Hb).
    unfold std_truncate. unfold bind at 1, get_len. cbn [fst].
    destruct (Nat.leb_spec (vlen v) n) as [H|H].
    - exists v, w. unfold ret. rewrite firstn_all2, skipn_all2 by lia. cbn [drop_glue fst snd]. auto.
    - unfold bind, set_len.
      replace (n - vlen v) with 0 by lia. 
      destruct (Nat.leb_spec n (capacity v)); [|lia]. simpl.
      pose proof (@holds_firstn v l n Hh ltac:(lia)) as Hh1.
      replace (vlen v - n) with (length (skipn n l)) by (rewrite skipn_length; lia).
      destruct (@drop_slice_ok (skipn n l) Hd false _ _ n w Hh1) as (v' & w' & Hr & Ho & Hh' & Hc').
      + rewrite firstn_length; lia.
      + intros j Hj. simpl. rewrite nth_error_skipn'. rewrite skipn_length in Hj. apply Hs; lia.
      + exists v', w'. auto.
  Qed.

  Lemma try_resize_cases (v : rvec T) l n x w :
    holds v l -> drop_returns tdrop ->
    (exists v' w', try_resize alloc isize_max sz tdrop n x (v, w) = (Ret tt, (v', w')) /\
        holds v' (list_resize n x l) /\ capacity v <= capacity v')
    \/ (exists e w', try_resize alloc isize_max sz tdrop n x (v, w) = (Err e, (v, w'))).
  Proof.
    intros Hh Hd. pose proof Hh as (Hl & Hs & Hc & Hb).
    rewrite try_resize_eq. unfold list_resize. rewrite <- Hl.
    destruct (Nat.ltb_spec (vlen v) n) as [H|H].
    - destruct (try_reserve_cases (n - vlen v) w Hh) as [(v' & w' & Hr & Hh' & Hcap & Hcc & _)|(e & w' & Hr & _)].
      2:{ right. exists e, w'. unfold bind at 1. now rewrite Hr. }
      left. unfold bind at 1. rewrite Hr. pose proof Hh' as (Hl' & _).
      unfold std_resize. unfold bind at 1, get_len; cbn [fst]. rewrite Hl', <- Hl.
      destruct (Nat.ltb_spec (vlen v) n); [|lia].
      unfold bind at 1. rewrite reserve_noop by (unfold VecSpec.room; lia).
      destruct (@push_all_ok reserve_error (repeat x (n - vlen v)) v' l w' Hh') as (v'' & Hp & Hh'' & Hc'').
      { rewrite repeat_length; lia. }
      exists v'', w'. split; [exact Hp|]. split; [exact Hh''|lia].
    - left. unfold bind at 1, ret.
      unfold std_resize. unfold bind at 1, get_len; cbn [fst].
      destruct (Nat.ltb_spec (vlen v) n); [lia|].
      destruct (@std_truncate_ok v l n w Hh) as (v' & w' & Hr & Ho & Hh' & Hc').
      { intros y w0. left. apply Hd. }
      destruct (glue_returns (skipn n l) Hd w) as (w2 & E1 & _). rewrite E1 in Hr. cbn [fst] in Hr.
      exists v', w'. repeat split; auto; try apply Hh'. lia.
  Qed.

  Lemma push_with_ok f n : forall (v : rvec T) l w,
    holds v l -> length l + n <= capacity v ->
    exists v' w', 
      push_with isize_max sz n f (v, w) = (snd (fst (calls f n w)), (v', w')) /\
      w' = snd (calls f n w) /\
      holds v' (l ++ fst (fst (calls f n w))) /\ capacity v' = capacity v.
  Proof.
    induction n as [|n IH]; intros v l w Hh Hc.
    - simpl. exists v, w. rewrite app_nil_r. unfold ret. auto.
    - simpl. pose proof Hh as (Hl & _). unfold bind at 1, lift.
      destruct (f w) as [[y|e| | |] w1] eqn:Ef;
        try (simpl; exists v, w1; rewrite app_nil_r; auto; fail).
      unfold bind at 1, get_len. cbn [fst]. rewrite Hl.
      destruct (@write_end reserve_error v l y w1 Hh ltac:(lia)) as (v' & Hr & Hh' & _ & Hc').
      destruct (IH v' (l ++ [y]) w1 Hh') as (v'' & w'' & Hr' & Hw'' & Hh'' & Hc'').
      { rewrite app_length; simpl; lia. }
      destruct (calls f n w1) as [[ys o] w2] eqn:Ec. simpl in *.
      exists v'', w''. rewrite <- app_assoc in Hh''. simpl in Hh''.
      split; [|split; [exact Hw''|split; [exact Hh''|lia]]].
      revert Hr. unfold bind.
      destruct (raw_write isize_max sz (length l) y (v, w1)) as [[] s1]; try discriminate.
      intros Hr. rewrite Hr. exact Hr'.
  Qed.

  Lemma try_resize_with_cases (v : rvec T) l n f w :
    holds v l -> drop_returns_or_panics tdrop ->
    (length l < n /\ exists w1 v' w', 
        try_resize_with alloc isize_max sz tdrop n f (v, w) = (snd (fst (calls f (n - length l) w1)), (v', w')) /\
        holds v' (l ++ fst (fst (calls f (n - length l) w1))) /\ capacity v <= capacity v')
    \/ (n <= length l /\ exists o v' w', 
        try_resize_with alloc isize_max sz tdrop n f (v, w) = (o, (v', w')) /\
        drop_glue tdrop false (skipn n l) w = (o, w') /\ (drop_returns tdrop -> o = Ret tt /\ drops tdrop (skipn n l) w = (Ret tt, w')) /\
        holds v' (firstn n l) /\ capacity v <= capacity v')
    \/ (exists e w', try_resize_with alloc isize_max sz tdrop n f (v, w) = (Err e, (v, w'))).
  Proof.
    intros Hh Hd. pose proof Hh as (Hl & Hs & Hc & Hb).
    rewrite try_resize_with_eq. rewrite <- Hl.
    destruct (Nat.ltb_spec (vlen v) n) as [H|H].
    - destruct (try_reserve_cases (n - vlen v) w Hh) as [(v' & w' & Hr & Hh' & Hcap & Hcc & _)|(e & w' & Hr & _)].
      2:{ right; right. exists e, w'. unfold bind at 1. now rewrite Hr. }
      left. split; [exact H|]. unfold bind at 1. rewrite Hr. pose proof Hh' as (Hl' & _).
      unfold std_resize_with. unfold bind at 1, get_len; cbn [fst]. rewrite Hl', <- Hl.
      destruct (Nat.ltb_spec (vlen v) n); [|lia].
      unfold bind at 1. rewrite reserve_noop by (unfold VecSpec.room; lia).
      destruct (@push_with_ok f (n - vlen v) v' l w' Hh') as (v'' & w'' & Hp & _ & Hh'' & Hc''); [lia|].
      exists w', v'', w''. split; [exact Hp|]. split; [exact Hh''|lia].
    - right; left. split; [lia|]. unfold bind at 1, ret.
      unfold std_resize_with. unfold bind at 1, get_len; cbn [fst].
      destruct (Nat.ltb_spec (vlen v) n); [lia|].
      destruct (@std_truncate_ok v l n w Hh Hd) as (v' & w' & Hr & Ho & Hh' & Hc').
      eexists _, v', w'. split; [exact Hr|]. split; [destruct (drop_glue tdrop false (skipn n l) w); cbn in *; now subst|].
      split; [|split; [exact Hh'|lia]]. intros Hret. destruct (glue_returns (skipn n l) Hret w) as (w2 & E1 & E2). rewrite E1 in *. cbn in *. subst w2. auto.
  Qed.
  End Drop.

  Lemma needs_to_grow_false (v : rvec T) l n :
    holds v l -> needs_to_grow isize_max sz v n = false -> n <= room v.
  Proof.
    intros (Hl & _ & Hc & _) H. unfold needs_to_grow in H. unfold VecSpec.room.
    destruct (Nat.ltb_spec usize_max (vlen v + n)); [discriminate|].
    destruct (Nat.ltb_spec (capacity v) (vlen v + n)); [discriminate|]. lia.
  Qed.

  (** the common prologue: reserve if needed *)
  Lemma grow_cases (v : rvec T) l n w :
    holds v l ->
    (exists v' w', grow v n (v, w)
         = (Ret tt, (v', w')) /\
        holds v' l /\ length l + n <= capacity v' /\ capacity v <= capacity v' /\ (n <= room v -> v' = v /\ w' = w))
    \/ (exists e w', grow v n (v, w)
         = (Err e, (v, w')) /\ room v < n).
  Proof.
    intros Hh. pose proof Hh as (Hl & _ & Hc & _).
    unfold grow. destruct (needs_to_grow isize_max sz v n) eqn:En.
    - apply (try_reserve_cases n w Hh).
    - left. exists v, w. pose proof (@needs_to_grow_false v l n Hh En) as Hr. unfold VecSpec.room in Hr.
      unfold ret. repeat split; auto; try lia; apply Hh.
  Qed.

  Lemma try_extend_from_slice_cases (v : rvec T) l xs w :
    holds v l ->
    (exists v' w', try_extend_from_slice alloc isize_max sz xs (v, w) = (Ret tt, (v', w')) /\
        holds v' (l ++ xs) /\ capacity v <= capacity v' /\ (length xs <= room v -> w' = w))
    \/ (exists e w', try_extend_from_slice alloc isize_max sz xs (v, w) = (Err e, (v, w')) /\ room v < length xs).
  Proof.
    intros Hh. rewrite try_extend_from_slice_eq.
    destruct (@grow_cases v l (length xs) w Hh) as [(v' & w' & Hr & Hh' & Hcap & Hcc & Hno)|(e & w' & Hr & Hn)].
    - left. unfold bind at 1. rewrite Hr. pose proof Hh' as (Hl' & _).
      unfold std_extend_from_slice, bind. rewrite reserve_noop by (unfold VecSpec.room; lia).
      destruct (@push_all_ok reserve_error xs v' l w' Hh') as (v'' & Hp & Hh'' & Hc''); [lia|].
      exists v'', w'. split; [exact Hp|]. split; [exact Hh''|]. split; [lia|]. intros; now apply Hno.
    - right. exists e, w'. unfold bind at 1. rewrite Hr. auto.
  Qed.

  Section Clone.
  Variable tclone : T -> W -> outcome reserve_error T * W.

  Lemma extend_loop_ok xs : forall (v : rvec T) l w,
    holds v l -> length l + length xs <= capacity v ->
    exists v', extend_loop isize_max sz tclone xs (length l) (v, w)
          = (snd (fst (clones tclone xs w)), (v', snd (clones tclone xs w))) /\
      holds v' (l ++ fst (fst (clones tclone xs w))) /\ capacity v' = capacity v.
  Proof.
    induction xs as [|x xs IH]; intros v l w Hh Hc.
    - simpl. exists v. rewrite app_nil_r. unfold ret. auto.
    - simpl in *. unfold bind at 1, lift.
      destruct (tclone x w) as [[y|e| | |] w1] eqn:Ef;
        try (simpl; exists v; rewrite app_nil_r; auto; fail).
      destruct (@write_end reserve_error v l y w1 Hh ltac:(lia)) as (v' & Hr & Hh' & _ & Hc').
      destruct (IH v' (l ++ [y]) w1 Hh') as (v'' & Hr' & Hh'' & Hc'').
      { rewrite app_length; simpl; lia. }
      destruct (clones tclone xs w1) as [[ys o] w2] eqn:Ec. simpl in *.
      exists v''. rewrite <- app_assoc in Hh''. simpl in Hh''.
      rewrite app_length in Hr'. simpl in Hr'. rewrite Nat.add_1_r in Hr'.
      split; [|split; [exact Hh''|lia]].
      revert Hr. unfold bind.
      destruct (raw_write isize_max sz (length l) y (v, w1)) as [[] s1]; try discriminate.
      intros Hr. rewrite Hr. exact Hr'.
  Qed.

  Lemma try_extend_no_copy_cases (v : rvec T) l xs w :
    holds v l ->
    (exists w1 v', try_extend_from_slice_no_copy alloc isize_max sz tclone xs (v, w)
          = (snd (fst (clones tclone xs w1)), (v', snd (clones tclone xs w1))) /\
        holds v' (l ++ fst (fst (clones tclone xs w1))) /\ capacity v <= capacity v' /\
        (length xs <= room v -> w1 = w))
    \/ (exists e w', try_extend_from_slice_no_copy alloc isize_max sz tclone xs (v, w) = (Err e, (v, w')) /\ room v < length xs).
  Proof.
    intros Hh. rewrite try_extend_no_copy_eq.
    destruct (@grow_cases v l (length xs) w Hh) as [(v' & w' & Hr & Hh' & Hcap & Hcc & Hno)|(e & w' & Hr & Hn)].
    - left. unfold bind at 1. rewrite Hr. pose proof Hh' as (Hl' & _).
      unfold bind, get_len. cbn [fst]. rewrite Hl'.
      destruct (@extend_loop_ok xs v' l w' Hh' Hcap) as (v'' & Hp & Hh'' & Hc'').
      exists w', v''. split; [exact Hp|]. split; [exact Hh''|]. split; [lia|]. intros; now apply Hno.
    - right. exists e, w'. unfold bind at 1. rewrite Hr. auto.
  Qed.

  Lemma extend_with_loop_ok x k : forall (v : rvec T) l w,
    holds v l -> length l + k <= capacity v ->
    let r := clones tclone (repeat x k) w in
    exists v', extend_with_loop isize_max sz tclone k x (length l) (length l) (v, w)
          = (match snd (fst r) with
             | Ret _ => Ret (length l + k, length l + k)
             | Err e => Err e | Panic => Panic | Abort => Abort | UB => UB
             end, (v', snd r)) /\
      holds v' (l ++ fst (fst r)) /\ capacity v' = capacity v.
  Proof.
    induction k as [|k IH]; intros v l w Hh Hc; cbv zeta.
    - simpl. exists v. rewrite app_nil_r, Nat.add_0_r. unfold ret. auto.
    - simpl in *. unfold bind at 1, lift.
      destruct (tclone x w) as [[y|e| | |] w1] eqn:Ef;
        try (simpl; exists v; rewrite app_nil_r; auto; fail).
      destruct (@write_end reserve_error v l y w1 Hh ltac:(lia)) as (v' & Hr & Hh' & _ & Hc').
      destruct (IH v' (l ++ [y]) w1 Hh') as (v'' & Hr' & Hh'' & Hc'').
      { rewrite app_length; simpl; lia. }
      destruct (clones tclone (repeat x k) w1) as [[ys o] w2] eqn:Ec. simpl in *.
      exists v''. rewrite <- app_assoc in Hh''. simpl in Hh''.
      rewrite app_length in Hr'. simpl in Hr'. rewrite Nat.add_1_r in Hr'.
      split; [|split; [exact Hh''|lia]].
      revert Hr. unfold bind.
      destruct (raw_write isize_max sz (length l) y (v, w1)) as [[] s1]; try discriminate.
      intros Hr. rewrite Hr. rewrite Hr'. replace (S (length l) + k) with (length l + S k) by lia.
      destruct o; reflexivity.
  Qed.

  (** growing by [n >= 1] elements: n-1 clones, then the value itself *)
  Lemma try_extend_with_cases (v : rvec T) l n x w :
    holds v l -> 0 < n ->
    (exists w1 v', let r := clones tclone (repeat x (n - 1)) w1 in
        try_extend_with alloc isize_max sz tclone n x (v, w) = (snd (fst r), (v', snd r)) /\
        holds v' (l ++ fst (fst r) ++ match snd (fst r) with Ret _ => [x] | _ => [] end) /\
        capacity v <= capacity v' /\
        (n <= room v -> w1 = w))
    \/ (exists e w', try_extend_with alloc isize_max sz tclone n x (v, w) = (Err e, (v, w')) /\ room v < n).
  Proof.
    intros Hh Hn0. rewrite try_extend_with_eq.
    destruct (@grow_cases v l n w Hh) as [(v' & w' & Hr & Hh' & Hcap & Hcc & Hno)|(e & w' & Hr & Hn)].
    - left. unfold bind at 1. rewrite Hr. pose proof Hh' as (Hl' & _).
      unfold bind at 1, get_len. cbn [fst]. rewrite Hl'.
      destruct (@extend_with_loop_ok x (n-1) v' l w' Hh' ltac:(lia)) as (v'' & Hp & Hh'' & Hc'').
      exists w'. unfold bind at 1. rewrite Hp.
      destruct (clones tclone (repeat x (n - 1)) w') as [[ys o] w2] eqn:Ec. simpl in *.
      destruct o as [u|e| | |].
      + cbn [fst]. cbn [snd]. destruct (Nat.ltb_spec 0 n); [|lia].
        assert (Hys : length ys = n - 1).
        { clear -Ec. revert w' ys u w2 Ec. generalize (n-1) as k. induction k; simpl; intros.
          - injection Ec; intros; subst; reflexivity.
          - destruct (tclone x w') as [[y|e| | |] w1]; try discriminate.
            destruct (clones tclone (repeat x k) w1) as [[ys' o'] w3] eqn:E. 
            injection Ec; intros; subst. simpl. f_equal. eapply IHk; eauto. }
        assert (Hlen : length (l ++ ys) = length l + (n - 1)) by (rewrite app_length; lia).
        destruct (@write_end reserve_error v'' (l ++ ys) x w2 Hh'' ltac:(lia)) as (v3 & Hr3 & Hh3 & _ & Hc3).
        exists v3. rewrite Hlen in Hr3. rewrite <- app_assoc in Hh3. destruct u. split; [exact Hr3|]. split; [exact Hh3|].
        split; [lia|]. intros; now apply Hno.
      + exists v''. rewrite app_nil_r. repeat split; auto; try apply Hh''; try lia. intros; now apply Hno.
      + exists v''. rewrite app_nil_r. repeat split; auto; try apply Hh''; try lia. intros; now apply Hno.
      + exists v''. rewrite app_nil_r. repeat split; auto; try apply Hh''; try lia. intros; now apply Hno.
      + exists v''. rewrite app_nil_r. repeat split; auto; try apply Hh''; try lia. intros; now apply Hno.
    - right. exists e, w'. unfold bind at 1. rewrite Hr. auto.
  Qed.

  Section TDrop.
  Variable tdrop : T -> W -> outcome reserve_error unit * W.

  Lemma truncate_loop_ok xs : forall (v : rvec T) l w,
    holds v (l ++ xs) -> drop_returns tdrop ->
    exists v' w', truncate_loop isize_max sz tdrop (length xs) (length l + length xs) (length l + length xs) (v, w)
        = (Ret tt, (v', w')) /\
      holds v' l /\ vcap v' = vcap v /\ drops tdrop (rev xs) w = (Ret tt, w').
  Proof.
    induction xs as [|x xs IH] using rev_ind; intros v l w Hh Hd.
    - simpl. rewrite app_nil_r in Hh. exists v, w. unfold ret. auto.
    - rewrite app_length. simpl length. rewrite Nat.add_1_r. simpl.
      pose proof Hh as (Hl & Hs & Hc & Hb). repeat rewrite app_length in *. simpl in *.
      replace (length l + S (length xs) - 1) with (length l + length xs) by lia.
      unfold drop_slot. unfold bind at 1 2.
      assert (Hx : vslots v (length l + length xs) = Some x).
      { rewrite Hs by lia. rewrite app_assoc, nth_error_app2 by (rewrite app_length; lia).
        rewrite app_length. replace (length l + length xs - (length l + length xs)) with 0 by lia. reflexivity. }
      rewrite (@raw_take_last reserve_error v _ x w Hx). unfold lift.
      destruct (tdrop x w) as [od w1] eqn:Ed.
      pose proof (Hd x w) as Hd'. rewrite Ed in Hd'. simpl in Hd'. subst od.
      unfold bind at 1, set_len. simpl.
      replace (length l + length xs - vlen v) with 0 by lia. 
      assert (Hcap : capacity (mkVec (vcap v) (vlen v) (upd (vslots v) (length l + length xs) None)) = capacity v) by reflexivity.
      rewrite Hcap. destruct (Nat.leb_spec (length l + length xs) (capacity v)); [|lia]. simpl.
      assert (Hh1 : holds (mkVec (vcap v) (length l + length xs) (upd (vslots v) (length l + length xs) None)) (l ++ xs)).
      { unfold VecSpec.holds; simpl. rewrite app_length. repeat split; auto.
        intros i Hi. rewrite upd_other by lia. rewrite Hs by lia.
        rewrite app_assoc, nth_error_app1 by (rewrite app_length; lia). reflexivity. }
      destruct (IH _ l w1 Hh1 Hd) as (v' & w' & Hr & Hh' & Hv' & Hdr).
      exists v', w'. split; [exact Hr|]. split; [exact Hh'|]. split; [exact Hv'|].
      rewrite rev_unit. simpl. rewrite Ed. exact Hdr.
  Qed.

  (** with destructors that may panic *)
  Definition dead_tail (v : rvec T) (l : list T) : Prop :=
    vlen v = length l + 1 /\ (forall i, i < length l -> vslots v i = nth_error l i) /\ vslots v (length l) = None.
  Lemma truncate_loop_any xs : forall (v : rvec T) l w,
    holds v (l ++ xs) -> drop_returns_or_panics tdrop ->
    exists o v' w', truncate_loop isize_max sz tdrop (length xs) (length l + length xs) (length l + length xs) (v, w)
        = (o, (v', w')) /\
      ((o = Ret tt /\ holds v' l /\ drops tdrop (rev xs) w = (Ret tt, w')) \/
       (o = Panic /\ exists xs1 y xs2 w1, xs = xs1 ++ y :: xs2 /\ drops tdrop (rev xs2) w = (Ret tt, w1) /\ tdrop y w1 = (Panic, w') /\
          dead_tail v' (l ++ xs1))).
  Proof.
    induction xs as [|x xs IH] using rev_ind; intros v l w Hh Hd.
    - simpl. rewrite app_nil_r in Hh. exists (Ret tt), v, w. unfold ret. auto.
    - rewrite app_length. simpl length. rewrite Nat.add_1_r. simpl.
      pose proof Hh as (Hl & Hs & Hc & Hb). repeat rewrite app_length in *. simpl in *.
      replace (length l + S (length xs) - 1) with (length l + length xs) by lia.
      unfold drop_slot. unfold bind at 1 2.
      assert (Hx : vslots v (length l + length xs) = Some x).
      { rewrite Hs by lia. rewrite app_assoc, nth_error_app2 by (rewrite app_length; lia).
        rewrite app_length. replace (length l + length xs - (length l + length xs)) with 0 by lia. reflexivity. }
      rewrite (@raw_take_last reserve_error v _ x w Hx). unfold lift.
      destruct (tdrop x w) as [od w1] eqn:Ed.
      pose proof (Hd x w) as Hd'. rewrite Ed in Hd'. simpl in Hd'. destruct Hd' as [->| ->].
      + unfold bind at 1, set_len. simpl.
        replace (length l + length xs - vlen v) with 0 by lia. 
        assert (Hcap : capacity (mkVec (vcap v) (vlen v) (upd (vslots v) (length l + length xs) None)) = capacity v) by reflexivity.
        rewrite Hcap. destruct (Nat.leb_spec (length l + length xs) (capacity v)); [|lia]. simpl.
        assert (Hh1 : holds (mkVec (vcap v) (length l + length xs) (upd (vslots v) (length l + length xs) None)) (l ++ xs)).
        { unfold VecSpec.holds; simpl. rewrite app_length. repeat split; auto; try lia.
          intros i Hi. rewrite upd_other by lia. rewrite Hs by lia.
          rewrite app_assoc, nth_error_app1 by (rewrite app_length; lia). reflexivity. }
        destruct (IH _ l w1 Hh1 Hd) as (o & v' & w' & Hr & Hc2).
        exists o, v', w'. split; [exact Hr|]. destruct Hc2 as [(-> & Hh' & Hdr)|(-> & xs1 & y & xs2 & w2 & -> & Hdr & Hy & Hv)].
        * left. split; [reflexivity|]. split; [exact Hh'|]. rewrite rev_unit. simpl. rewrite Ed. exact Hdr.
        * right. split; [reflexivity|]. exists xs1, y, (xs2 ++ [x]), w2. split; [now rewrite <- app_assoc|].
          split; [rewrite rev_unit; simpl; rewrite Ed; exact Hdr|]. auto.
      + eexists Panic, _, w1. split; [reflexivity|]. right. split; [reflexivity|]. exists xs, x, [], w. split; [reflexivity|]. split; [reflexivity|]. split; [exact Ed|].
        unfold dead_tail. rewrite app_length. cbn [vlen vslots]. split; [lia|]. split.
        * intros i Hi. rewrite upd_other by lia. rewrite Hs by lia. rewrite app_assoc, nth_error_app1 by (rewrite app_length; lia). reflexivity.
        * unfold upd. now rewrite Nat.eqb_refl.
  Qed.
  (** dropping a vector whose last slot is dead *)
  Lemma drop_rest_dead xs : drop_returns_or_panics tdrop -> forall b (v : rvec T) i w,
    (forall j, j < length xs -> vslots v (i + j) = nth_error xs j) -> vslots v (i + length xs) = None ->
    fst (drop_rest tdrop b i (length xs + 1) (v, w)) = UB \/ fst (drop_glue tdrop b xs w) = Abort.
  Proof.
    intros Hd. induction xs as [|x xs IH]; intros b v i w Hs Hn; cbn [length plus drop_rest drop_glue].
    - rewrite Nat.add_0_r in Hn. unfold drop_slot, bind, raw_take. rewrite Hn. now left.
    - unfold drop_slot, bind. pose proof (Hs 0 ltac:(simpl; lia)) as H0. rewrite Nat.add_0_r in H0. simpl in H0.
      rewrite (@raw_take_last reserve_error v i x w H0). unfold lift.
      set (v1 := mkVec (vcap v) (vlen v) (upd (vslots v) i None)).
      assert (Hs1 : forall j, j < length xs -> vslots v1 (S i + j) = nth_error xs j).
      { intros j Hj. unfold v1; simpl. rewrite upd_other by lia. replace (S (i + j)) with (i + S j) by lia. apply (Hs (S j)). simpl; lia. }
      assert (Hn1 : vslots v1 (S i + length xs) = None).
      { unfold v1; simpl. rewrite upd_other by lia. replace (S (i + length xs)) with (i + S (length xs)) by lia. exact Hn. }
      pose proof (Hd x w) as Hod. destruct (tdrop x w) as [od w1]. cbn [fst] in Hod. destruct Hod as [->| ->].
      + exact (IH b v1 (S i) w1 Hs1 Hn1).
      + destruct b; [now right|]. exact (IH true v1 (S i) w1 Hs1 Hn1).
  Qed.

  Lemma truncate_ok (v : rvec T) l n w :
    holds v l -> drop_returns tdrop ->
    exists v' w', truncate isize_max sz tdrop n (v, w) = (Ret tt, (v', w')) /\
      holds v' (firstn n l) /\ capacity v' = capacity v /\ drops tdrop (rev (skipn n l)) w = (Ret tt, w').
  Proof.
    intros Hh Hd. pose proof Hh as (Hl & _). unfold truncate, bind, get_len. cbn [fst].
    destruct (@truncate_loop_ok (skipn n l) v (firstn n l) w) as (v' & w' & Hr & Hh' & Hv' & Hdr); auto.
    { now rewrite firstn_skipn. }
    rewrite <- app_length, firstn_skipn in Hr. rewrite skipn_length in Hr.
    exists v', w'. rewrite Hl. repeat split; auto; try apply Hh'.
    unfold VecModel.capacity. now rewrite Hv'.
  Qed.
  End TDrop.
  End Clone.
End P.
