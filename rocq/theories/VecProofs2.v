(** * VecProofs2: derived results: clone, concat, from_elem, collect, histories. *)
From Coq Require Import List Arith Lia Bool.
Import ListNotations.
From Verif Require Import Base VecModel VecSpec VecProofs.
Set Implicit Arguments.

Section Clones.
  Variables (W T E : Type).
  Variable tclone : T -> W -> outcome E T * W.

  Lemma clones_app xs ys : forall w,
    clones tclone (xs ++ ys) w =
      match clones tclone xs w with
      | (l, Ret _, w') => let '(l', o, w'') := clones tclone ys w' in (l ++ l', o, w'')
      | r => r
      end.
  Proof.
    induction xs as [|x xs IH]; intros w; simpl.
    - now destruct (clones tclone ys w) as [[? ?] ?].
    - destruct (tclone x w) as [[y|e| | |] w1]; try reflexivity.
      rewrite IH. destruct (clones tclone xs w1) as [[l [u|e| | |]] w2]; try reflexivity.
      destruct (clones tclone ys w2) as [[? ?] ?]. reflexivity.
  Qed.

  Lemma clones_ret xs : forall w ys w',
    clones tclone xs w = (ys, Ret tt, w') -> Forall2 (is_clone tclone) xs ys.
  Proof.
    induction xs as [|x xs IH]; simpl; intros w ys w' H.
    - injection H; intros; subst; constructor.
    - destruct (tclone x w) as [[y|e| | |] w1] eqn:Ex; try discriminate.
      destruct (clones tclone xs w1) as [[l o] w2] eqn:Ec.
      injection H; intros; subst. constructor; [exists w, w1; exact Ex|].
      eapply IH; eauto.
  Qed.

  Lemma clones_prefix xs : forall w, exists xs1 xs2,
    xs = xs1 ++ xs2 /\ Forall2 (is_clone tclone) xs1 (fst (fst (clones tclone xs w))).
  Proof.
    induction xs as [|x xs IH]; simpl; intros w.
    - exists [], []. split; constructor.
    - destruct (tclone x w) as [[y|e| | |] w1] eqn:Ex;
        try (exists [], (x :: xs); split; [reflexivity|constructor]; fail).
      destruct (IH w1) as (xs1 & xs2 & -> & HF).
      destruct (clones tclone (xs1 ++ xs2) w1) as [[l o] w2]. simpl in *.
      exists (x :: xs1), xs2. split; [reflexivity|]. constructor; auto. exists w, w1; exact Ex.
  Qed.

  Lemma clones_outcome xs : forall w,
    match snd (fst (clones tclone xs w)) with
    | Ret _ => length (fst (fst (clones tclone xs w))) = length xs
    | o => exists x w', In x xs /\ match o, fst (tclone x w') with
                                    | Err e, Err e' => e = e'
                                    | Panic, Panic | Abort, Abort | UB, UB => True
                                    | _, _ => False
                                    end
    end.
  Proof.
    induction xs as [|x xs IH]; simpl; intros w; [reflexivity|].
    destruct (tclone x w) as [[y|e| | |] w1] eqn:Ex; simpl;
      try (exists x, w; rewrite Ex; simpl; split; [now left|auto]; fail).
    specialize (IH w1).
    destruct (clones tclone xs w1) as [[l o] w2]. simpl in *.
    destruct o; simpl; [now f_equal| | | |];
      destruct IH as (x' & w' & Hin & H); exists x', w'; (split; [now right|exact H]).
  Qed.

  Lemma clones_settled xs w : clone_settled tclone -> settled (snd (fst (clones tclone xs w))).
  Proof.
    intros Hc. pose proof (clones_outcome xs w) as H.
    destruct (snd (fst (clones tclone xs w))) eqn:Eo; simpl; auto;
      destruct H as (x & w' & _ & H); specialize (Hc x w'); destruct (tclone x w') as [[] ?]; simpl in *; contradiction.
  Qed.

  Lemma clones_ok xs w : clone_ok tclone ->
    snd (fst (clones tclone xs w)) <> Abort /\ snd (fst (clones tclone xs w)) <> UB.
  Proof.
    intros Hc. pose proof (clones_outcome xs w) as H.
    destruct (snd (fst (clones tclone xs w))) eqn:Eo; split; try discriminate; exfalso;
      destruct H as (x & w' & _ & H); destruct (Hc x w') as [H1 H2];
      destruct (tclone x w') as [[] ?]; simpl in *; tauto.
  Qed.
End Clones.

Section P.
  Variable W : Type.
  Variable alloc : nat -> W -> answer * W.
  Variable isize_max : nat.
  Variable T : Type.
  Variable sz : nat.
  Notation holds := (holds isize_max sz).
  Notation capacity := (capacity isize_max sz).
  Notation room := (room isize_max sz).
  Notation usize_max := (usize_max isize_max).
  Implicit Types (w : W) (v : rvec T).
  Variable tclone : T -> W -> outcome reserve_error T * W.
  Variable tdrop : T -> W -> outcome reserve_error unit * W.

  Lemma try_resize_no_copy_eq v w n x :
    try_resize_no_copy alloc isize_max sz tdrop tclone n x (v, w) =
    (if vlen v <? n then try_extend_with alloc isize_max sz tclone (n - vlen v) x
     else truncate isize_max sz tdrop n) (v, w).
  Proof. reflexivity. Qed.

  Lemma try_resize_no_copy_cases (v : rvec T) l n x w :
    holds v l -> drop_returns tdrop ->
    (length l < n /\ exists w1 v', let r := clones tclone (repeat x (n - length l - 1)) w1 in
        try_resize_no_copy alloc isize_max sz tdrop tclone n x (v, w) = (snd (fst r), (v', snd r)) /\
        holds v' (l ++ fst (fst r) ++ match snd (fst r) with Ret _ => [x] | _ => [] end) /\
        capacity v <= capacity v')
    \/ (n <= length l /\ exists v' w',
        try_resize_no_copy alloc isize_max sz tdrop tclone n x (v, w) = (Ret tt, (v', w')) /\
        holds v' (firstn n l) /\ capacity v <= capacity v' /\ drops tdrop (rev (skipn n l)) w = (Ret tt, w'))
    \/ (exists e w', try_resize_no_copy alloc isize_max sz tdrop tclone n x (v, w) = (Err e, (v, w'))).
  Proof.
    intros Hh Hd. pose proof Hh as (Hl & _). rewrite try_resize_no_copy_eq.
    destruct (Nat.ltb_spec (vlen v) n) as [H|H].
    - destruct (@try_extend_with_cases W alloc isize_max T sz tclone v l (n - vlen v) x w Hh ltac:(lia))
        as [(w1 & v' & Hr & Hh' & Hc & _)|(e & w' & Hr & _)].
      + left. split; [lia|]. exists w1, v'. rewrite <- Hl. auto.
      + right; right. eauto.
    - right; left. split; [lia|].
      destruct (@truncate_ok W isize_max T sz tdrop v l n w Hh Hd) as (v' & w' & Hr & Hh' & Hc & Hdr).
      exists v', w'. repeat split; auto; try apply Hh'. lia.
  Qed.

  (** try_from_elem *)
  Lemma try_from_elem_cases x n w :
    drop_returns tdrop ->
    match try_from_elem alloc isize_max sz tdrop tclone x n w with
    | (Ret v, w') => exists ys, holds v (ys ++ match n with 0 => [] | _ => [x] end) /\
                        length ys = n - 1 /\ Forall (is_clone tclone x) ys
    | (Err e, w') => True
    | (o, w') => exists w1, match o, fst (tclone x w1) with
                            | Panic, Panic | Abort, Abort | UB, UB => True | _, _ => False end
    end.
  Proof.
    intros Hd. unfold try_from_elem, build.
    destruct (@try_resize_no_copy_cases (vec_new T) [] n x w (holds_new isize_max T sz) Hd)
      as [(Hn & w1 & v' & Hr & Hh & _)|[(Hn & v' & w' & Hr & Hh & _)|(e & w' & Hr)]].
    - rewrite Hr. clear Hr. simpl length in *. rewrite Nat.sub_0_r in *.
      pose proof (clones_outcome tclone (repeat x (n-1)) w1) as Ho.
      pose proof (@clones_ret _ _ _ tclone (repeat x (n-1)) w1) as Hcl.
      destruct (clones tclone (repeat x (n - 1)) w1) as [[ys o] w2]. simpl in *.
      destruct o as [u|e| | |]; auto.
      + destruct n; [lia|]. exists ys. split; [exact Hh|]. rewrite repeat_length in Ho. split; [lia|].
        destruct u. specialize (Hcl ys w2 eq_refl). revert Hcl. clear.
        generalize (S n - 1) as k. intros k. revert ys; induction k; intros ys HF; inversion HF; subst; constructor; auto.
      + destruct Ho as (y & w3 & Hin & Ho). apply repeat_spec in Hin. subst y. exists w3. exact Ho.
      + destruct Ho as (y & w3 & Hin & Ho). apply repeat_spec in Hin. subst y. exists w3. exact Ho.
      + destruct Ho as (y & w3 & Hin & Ho). apply repeat_spec in Hin. subst y. exists w3. exact Ho.
    - rewrite Hr. simpl in Hn. assert (n = 0) by lia. subst n. exists []. simpl in *. auto.
    - rewrite Hr. auto.
  Qed.

  Lemma try_from_elem_u8_cases (x : T) n w :
    match try_from_elem_u8 alloc isize_max sz x n w with
      | (Ret v, _) => holds v (repeat x n)
    | (Err e, w') => True
    | _ => False
    end.
  Proof.
    unfold try_from_elem_u8, build.
    destruct (@try_reserve_cases W alloc isize_max T sz (vec_new T) [] n w (holds_new isize_max T sz))
      as [(v' & w' & Hr & Hh' & Hcap & _)|(e & w' & Hr & _)].
    2:{ unfold bind at 1. rewrite Hr. exact I. }
    unfold bind at 1. rewrite Hr. simpl in Hcap. pose proof Hh' as (Hl & Hs & Hc & Hb). simpl in Hl.
    unfold bind, write_bytes. destruct (Nat.leb_spec n (capacity v')); [|lia].
    unfold set_len. simpl. rewrite Hl, Nat.sub_0_r.
    assert (Hcap' : capacity (mkVec (vcap v') 0 (fun i => if i <? n then Some x else vslots v' i)) = capacity v') by reflexivity.
    rewrite Hcap'. destruct (Nat.leb_spec n (capacity v')); [|lia].
    assert (Ha : all_init (fun i => if i <? n then Some x else vslots v' i) 0 n = true).
    { apply forallb_forall. intros i Hi. apply in_seq in Hi. destruct (Nat.ltb_spec i n); [reflexivity|lia]. }
    rewrite Ha. simpl. unfold VecSpec.holds; simpl. rewrite repeat_length. repeat split; auto.
    intros i Hi. destruct (Nat.ltb_spec i n); [|lia].
    symmetry. rewrite nth_error_repeat by lia. reflexivity.
  Qed.

  (** Vec::try_clone *)
  Lemma vec_try_clone_cases (v : rvec T) l w :
    holds v l ->
    (exists w1, let r := clones tclone l w1 in
       match vec_try_clone alloc isize_max sz tclone v w with
       | (Ret v', w') => snd (fst r) = Ret tt /\ holds v' (fst (fst r)) /\ w' = snd r
       | (Err e, w') => snd (fst r) = Err e
       | (Panic, w') => snd (fst r) = Panic
       | (Abort, w') => snd (fst r) = Abort
       | (UB, w') => snd (fst r) = UB
       end)
    \/ (exists e w', vec_try_clone alloc isize_max sz tclone v w = (Err e, w')).
  Proof.
    intros Hh. unfold vec_try_clone. rewrite (@as_slice_holds isize_max T sz v l Hh). unfold build.
    destruct (@try_extend_no_copy_cases W alloc isize_max T sz tclone (vec_new T) [] l w (holds_new isize_max T sz))
      as [(w1 & v' & Hr & Hh' & _)|(e & w' & Hr & _)].
    - left. exists w1. rewrite Hr. destruct (clones tclone l w1) as [[ys [u|e| | |]] w2]; simpl in *; auto.
      destruct u. auto.
    - right. exists e, w'. now rewrite Hr.
  Qed.

  (** concat *)
  Lemma concat_loop_cases (vs : list (rvec T)) : forall (ls : list (list T)) (v : rvec T) l w,
    Forall2 holds vs ls -> holds v l ->
    exists o v' w', concat_loop alloc isize_max sz tclone vs (v, w) = (o, (v', w')) /\
      match o with
      | Ret _ => exists ys, holds v' (l ++ ys) /\ Forall2 (is_clone tclone) (List.concat ls) ys
      | Err _ => True
      | _ => exists x w1, In x (List.concat ls) /\ match o, fst (tclone x w1) with
                            | Panic, Panic | Abort, Abort | UB, UB => True | _, _ => False end
      end.
  Proof.
    induction vs as [|u vs IH]; intros ls v l w HF Hh; inversion HF as [|? m ? ms Hm Hms]; subst.
    - exists (Ret tt), v, w. split; [reflexivity|]. exists []. rewrite app_nil_r. split; [exact Hh|constructor].
    - simpl. rewrite (@as_slice_holds isize_max T sz u m Hm). unfold bind.
      destruct (@try_extend_no_copy_cases W alloc isize_max T sz tclone v l m w Hh)
        as [(w1 & v' & Hr & Hh' & _)|(e & w' & Hr & _)].
      + rewrite Hr. pose proof (clones_outcome tclone m w1) as Ho.
        pose proof (@clones_ret _ _ _ tclone m w1) as Hcl.
        destruct (clones tclone m w1) as [[ys o] w2]. simpl in *.
        destruct o as [[]|e| | |].
        * destruct (IH ms v' (l ++ ys) w2 Hms Hh') as (o & v'' & w'' & Hr' & Ho').
          exists o, v'', w''. split; [exact Hr'|]. destruct o.
          -- destruct Ho' as (zs & Hz & HFz). exists (ys ++ zs). rewrite app_assoc. split; [exact Hz|].
             apply Forall2_app; eauto.
          -- exact I.
          -- destruct Ho' as (x & w3 & Hin & H). exists x, w3. rewrite in_app_iff. auto.
          -- destruct Ho' as (x & w3 & Hin & H). exists x, w3. rewrite in_app_iff. auto.
          -- destruct Ho' as (x & w3 & Hin & H). exists x, w3. rewrite in_app_iff. auto.
        * exists (Err e), v', w2. split; [reflexivity|exact I].
        * exists Panic, v', w2. split; [reflexivity|]. destruct Ho as (x & w3 & Hin & H). exists x, w3. rewrite in_app_iff. auto.
        * exists Abort, v', w2. split; [reflexivity|]. destruct Ho as (x & w3 & Hin & H). exists x, w3. rewrite in_app_iff. auto.
        * exists UB, v', w2. split; [reflexivity|]. destruct Ho as (x & w3 & Hin & H). exists x, w3. rewrite in_app_iff. auto.
      + rewrite Hr. exists (Err e), v, w'. split; [reflexivity|exact I].
  Qed.

  Lemma sum_lens (vs : list (rvec T)) ls : Forall2 holds vs ls ->
    fold_right plus 0 (map (@vlen T) vs) = length (List.concat ls).
  Proof.
    induction 1 as [|v l vs ls Hv _ IH]; simpl; [reflexivity|].
    rewrite app_length, <- IH. destruct Hv as (-> & _). reflexivity.
  Qed.

  Lemma concat_cases checked (vs : list (rvec T)) ls w :
    Forall2 holds vs ls ->
    match concat alloc isize_max sz tclone checked vs w with
    | (Ret v, w') => exists ys, holds v ys /\ Forall2 (is_clone tclone) (List.concat ls) ys
    | (Err _, _) => True
    | (o, _) => (o = Panic /\ usize_max < length (List.concat ls)) \/
                exists x w1, In x (List.concat ls) /\ match o, fst (tclone x w1) with
                            | Panic, Panic | Abort, Abort | UB, UB => True | _, _ => False end
    end.
  Proof.
    intros HF. unfold concat, usize_sum. rewrite (sum_lens HF).
    destruct (Nat.ltb_spec usize_max (length (List.concat ls))) as [H|H].
    1: destruct checked; [left; auto|].
    1: generalize (length (List.concat ls) mod S usize_max) as size.
    2: generalize (length (List.concat ls)) as size.
    all: intros size; unfold build, bind;
      destruct (@try_reserve_cases W alloc isize_max T sz (vec_new T) [] size w (holds_new isize_max T sz))
      as [(v' & w' & Hr & Hh' & _)|(e & w' & Hr & _)]; rewrite Hr; auto;
      destruct (@concat_loop_cases vs ls v' [] w' HF Hh') as (o & v'' & w'' & Hr' & Ho); rewrite Hr';
      destruct o; simpl in *; auto.
  Qed.

  (** collecting *)
  Section Iter.
  Variable I : Type.
  Variable next : I -> W -> outcome reserve_error (option (T * I)) * W.
  Notation prod := (produces next (push_granted alloc sz)).

  Lemma push_served (v v' : rvec T) l x w w' : holds v l ->
    try_push alloc isize_max sz x (v, w) = (Ret tt, (v', w')) -> push_granted alloc sz (length l) w w'.
  Proof.
    intros Hh H. pose proof Hh as (Hl & _). rewrite try_push_eq in H. unfold bind in H.
    assert (forall v1 w1, holds v1 l -> length l < capacity v1 -> forall w2, std_push alloc isize_max sz x (v1, w1) = (@Ret reserve_error _ tt, (v', w2)) -> w2 = w1) as HP.
    { intros v1 w1 Hh1 Hc w2 E. destruct (@std_push_noalloc W alloc isize_max T sz reserve_error v1 l x w1 Hh1 Hc) as (v2 & E2 & _). rewrite E2 in E. now inversion E. }
    destruct (Nat.eqb_spec (vlen v) (capacity v)) as [He|He].
    - destruct (@try_reserve_cases W alloc isize_max T sz v l 1 w Hh) as [(v1 & w1 & Hr & Hh1 & Hcap & _)|(e & w1 & Hr & _)]; rewrite Hr in H; [|discriminate].
      apply HP in H; [|exact Hh1|lia]. subst w1. clear HP. unfold try_reserve in Hr. unfold push_granted. rewrite <- Hl.
      destruct (1 <=? capacity v - vlen v); [inversion Hr; auto|].
      destruct (sz =? 0); [discriminate|]. destruct (usize_max <? vlen v + 1); [discriminate|].
      destruct (isize_max <? (vlen v + 1) * sz); [discriminate|].
      destruct (alloc ((vlen v + 1) * sz) w) as [[y|e] w1]; [|discriminate]. inversion Hr; subst. right. now exists y.
    - cbn in H. apply HP in H; [left; exact H|exact Hh|]. destruct Hh as (_ & _ & Hc & _). lia.
  Qed.

  Lemma from_iter_loop_cases fuel : forall it (v : rvec T) l w,
    holds v l ->
    match from_iter_loop alloc isize_max sz next fuel it (v, w) with
    | Some (Ret _, (v', w')) => exists xs, prod (length l) it w xs w' /\ holds v' (l ++ xs)
    | _ => True
    end.
  Proof.
    induction fuel as [|fuel IH]; intros it v l w Hh; simpl; [exact Logic.I|].
    destruct (next it w) as [[[[x it']|]|e| | |] w1] eqn:En; auto.
    - destruct (@try_push_cases W alloc isize_max T sz v l x w1 Hh)
        as [(v' & w' & Hr & Hh' & _)|(e & w' & Hr & _)]; rewrite Hr; auto.
      specialize (IH it' v' (l ++ [x]) w' Hh').
      destruct (from_iter_loop alloc isize_max sz next fuel it' (v', w')) as [[[] [v'' w'']]|]; auto.
      destruct IH as (xs & Hp & Hx). exists (x :: xs). rewrite <- app_assoc in Hx. split; [|exact Hx].
      rewrite app_length, Nat.add_1_r in Hp. econstructor; eauto using push_served.
    - exists []. rewrite app_nil_r. split; [now constructor|exact Hh].
  Qed.

  Lemma from_iter_loop_total n : forall it, ends_within next n it -> forall (v : rvec T) l w,
    holds v l ->
    exists o v' w', (forall fuel, n < fuel ->
         from_iter_loop alloc isize_max sz next fuel it (v, w) = Some (o, (v', w'))) /\
      ((exists xs, o = Ret tt /\ holds v' (l ++ xs) /\ length xs <= n /\ prod (length l) it w xs w') \/ (exists e, o = Err e) \/ o = Panic /\ exists it w, fst (next it w) = Panic).
  Proof.
    induction n as [|n IH]; intros it He v l w Hh; cbn [ends_within] in He; pose proof (He w) as Hw;
      destruct (next it w) as [[[[x it']|]|e| | |] w1] eqn:En; cbn [fst] in Hw; try contradiction.
    1,4: exists (Ret tt), v, w1; (split; [intros [|fuel] Hf; [lia|]; simpl; now rewrite En|]); left; exists [];
      rewrite app_nil_r; (split; [reflexivity|]); (split; [exact Hh|]); (split; [cbn; lia|]); now constructor.
    1,3: exists Panic, v, w1; (split; [intros [|fuel] Hf; [lia|]; simpl; now rewrite En|]); right; right; (split; [reflexivity|]); exists it, w; now rewrite En.
    destruct (@try_push_cases W alloc isize_max T sz v l x w1 Hh)
      as [(v' & w' & Hr & Hh' & _)|(e & w' & Hr & _)].
    - destruct (IH it' Hw v' (l ++ [x]) w' Hh') as (o & v'' & w'' & Hf & Ho).
      exists o, v'', w''. split.
      + intros [|fuel] Hlt; [lia|]. simpl. rewrite En, Hr. apply Hf; lia.
      + destruct Ho as [(xs & -> & Hx & Hn & Hp)|Ho]; [left|right; exact Ho]. exists (x :: xs). rewrite <- app_assoc in Hx.
        rewrite app_length, Nat.add_1_r in Hp. split; [reflexivity|]. split; [exact Hx|]. split; [cbn; lia|].
        econstructor; eauto using push_served.
    - exists (Err e), v, w'. split.
      + intros [|fuel] Hlt; [lia|]. simpl. rewrite En, Hr. reflexivity.
      + right; left; eauto.
  Qed.
  End Iter.

  (** reservation is a promise *)
  Inductive put := PPush (x : T) | PInsert (i : nat) (x : T).
  Definition run_put (p : put) : VM W T unit unit :=
    match p with
    | PPush x => map_err (fun _ => tt) (try_push alloc isize_max sz x)
    | PInsert i x => map_err (fun _ => tt) (try_insert alloc isize_max sz i x)
    end.
  Fixpoint run_puts (ps : list put) : VM W T unit unit :=
    match ps with
    | [] => ret tt
    | p :: ps' => run_put p ;;; run_puts ps'
    end.
  Definition put_list (p : put) (l : list T) : list T :=
    match p with PPush x => l ++ [x] | PInsert i x => list_insert i x l end.
  (** no insertion is past the end *)
  Fixpoint puts_ok (ps : list put) (n : nat) : Prop :=
    match ps with
    | [] => True
    | PPush _ :: ps' => puts_ok ps' (S n)
    | PInsert i _ :: ps' => i <= n /\ puts_ok ps' (S n)
    end.

  Lemma run_puts_ok ps : forall (v : rvec T) l w,
    holds v l -> length ps <= room v -> puts_ok ps (length l) ->
    exists v', run_puts ps (v, w) = (Ret tt, (v', w)) /\
      holds v' (fold_left (fun a p => put_list p a) ps l) /\ capacity v' = capacity v.
  Proof.
    induction ps as [|p ps IH]; intros v l w Hh Hr Hok.
    - exists v. simpl. unfold ret. auto.
    - simpl in Hr. simpl. unfold bind.
      assert (Hstep : exists v', run_put p (v, w) = (Ret tt, (v', w)) /\ holds v' (put_list p l) /\
                 capacity v' = capacity v /\ puts_ok ps (length (put_list p l))).
      { destruct p as [x|i x]; simpl in *.
        - destruct (@try_push_cases W alloc isize_max T sz v l x w Hh)
            as [(v' & w' & Hp & Hh' & _ & Hw)|(e & w' & Hp & Hz)]; [|lia].
          destruct Hw as [-> Hc]; [lia|]. exists v'. unfold map_err. rewrite Hp.
          rewrite app_length, Nat.add_comm. auto.
        - destruct Hok as [Hi Hok].
          destruct (@try_insert_cases W alloc isize_max T sz v l i x w Hh)
            as [(_ & v' & w' & Hp & Hh' & _ & Hw)|[(Hi' & _)|(e & w' & Hp & Hz)]]; [|lia|lia].
          destruct Hw as [-> Hc]; [lia|]. exists v'. unfold map_err. rewrite Hp.
          rewrite length_list_insert by lia. auto. }
      destruct Hstep as (v' & Hp & Hh' & Hc & Hok'). rewrite Hp.
      destruct (IH v' (put_list p l) w Hh') as (v'' & Hr'' & Hh'' & Hc''); auto.
      { unfold VecSpec.room in *. destruct Hh as (Hl & _). destruct Hh' as (Hl' & _). rewrite Hl', Hc.
        assert (length (put_list p l) = S (length l)).
        { destruct p; simpl in *; [rewrite app_length; simpl; lia|]. apply length_list_insert; tauto. }
        lia. }
      exists v''. split; [exact Hr''|]. split; [exact Hh''|]. congruence.
  Qed.
End P.
