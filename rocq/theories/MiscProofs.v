(** * MiscProofs: lemmas about MiscModel. *)
From Coq Require Import List Arith Lia Bool.
Import ListNotations.
From Verif Require Import Base VecModel VecSpec VecProofs VecProofs2 MiscModel MiscSpec.
Set Implicit Arguments.

Section Box.
  Variables (W : Type) (alloc : nat -> W -> answer * W) (isize_max : nat) (T : Type) (sz : nat).

  Lemma box_try_new_cases (t : T) w :
    (exists w', box_try_new alloc isize_max sz t w = (Ret t, w') /\ (sz = 0 -> w' = w)) \/
    (sz <> 0 /\ exists e w', box_try_new alloc isize_max sz t w = (Err e, w')) \/
    (sz <> 0 /\ ~ exact_alloc alloc /\ exists w',
        box_try_new alloc isize_max sz t w = (Panic, w') \/ box_try_new alloc isize_max sz t w = (Abort, w')).
  Proof.
    remember (box_try_new alloc isize_max sz t w) as r eqn:Er.
    unfold box_try_new, try_reserve_exact in Er.
    unfold bind at 1 in Er.
    pose proof (holds_new isize_max T sz) as Hnew.
    destruct (@try_reserve_cases W alloc isize_max T sz (vec_new T) [] 1 w Hnew)
      as [(v' & w' & Hr & Hh' & Hcap & _ & Hno)|(e & w' & Hr & Hroom)].
    - rewrite Hr in Er. unfold bind in Er. simpl in Hcap.
      destruct (@std_push_noalloc W alloc isize_max T sz reserve_error v' [] t w' Hh') as (v'' & Hp & Hh'' & Hc''); [simpl; lia|].
      rewrite Hp in Er. unfold into_boxed_slice in Er.
      pose proof Hh'' as (Hl & Hs & Hc & Hb). simpl length in *.
      assert (H0 : vslots v'' 0 = Some t) by (rewrite Hs by lia; reflexivity).
      destruct (Nat.eqb_spec sz 0) as [Hz|Hz]; cbn [negb andb] in Er.
      + rewrite H0 in Er. left. exists w'. split; [exact Er|]. intros _.
        unfold room, capacity in Hno. simpl in Hno. subst sz. simpl in Hno.
        apply Hno. unfold usize_max. lia.
      + destruct (Nat.ltb_spec (vlen v'') (vcap v'')) as [Hlt|Hge].
        * destruct (alloc (vlen v'' * sz) w') as [[x|e0] w1] eqn:Ea.
          -- cbn [vslots] in Er. rewrite H0 in Er. left. exists w1. split; [exact Er|lia].
          -- right; right. split; [exact Hz|]. split.
             { intro Hex. clear -Hr Hex Hz Hlt Hc'' Hl.
               unfold try_reserve, capacity in Hr. simpl vlen in Hr. simpl vcap in Hr.
               destruct (Nat.eqb_spec sz 0); [lia|]. simpl in Hr.
               destruct (usize_max isize_max <? 1); [discriminate|].
               destruct (isize_max <? sz + 0); [discriminate|].
               destruct (alloc (sz + 0) w) as [[x|e1] w2] eqn:Eb; [|discriminate].
               apply Hex in Eb. subst x. injection Hr; intros; subst.
               unfold capacity in Hc''. destruct (Nat.eqb_spec sz 0); [lia|].
               unfold grown in Hc''; cbn [vcap] in Hc''.
               destruct (Nat.leb_spec ((1 + 0) * sz) isize_max); lia. }
             exists w1. destruct e0; [left|right]; exact Er.
        * rewrite H0 in Er. left. exists w'. split; [exact Er|]. intros; lia.
    - rewrite Hr in Er. right; left. split; [|eauto].
      intros ->. unfold room, capacity in Hroom. simpl in Hroom. unfold usize_max in Hroom. lia.
  Qed.
End Box.

Section CloneTy.
  Variables (W : Type) (alloc : nat -> W -> answer * W) (isize_max : nat) (P : Type) (szof : ty -> nat).
  Notation clone := (clone_ty alloc isize_max P szof).
  Notation stands := (stands isize_max (P:=P) szof).

  Lemma clones_stands t : 
    (forall x p, stands t x p -> forall w, 
        match clone t x w with (Ret y, _) => stands t y p | _ => True end) ->
    forall l p w, Forall2 (stands t) l p ->
      match clones (clone t) l w with
      | (ys, Ret _, _) => Forall2 (stands t) ys p
      | _ => True
      end.
  Proof.
    intros IH l p w HF. revert w. induction HF as [|x q l p Hx HF IHF]; intros w; simpl; [constructor|].
    specialize (IH x q Hx w). destruct (clone t x w) as [[y|e| | |] w1]; auto.
    specialize (IHF w1). destruct (clones (clone t) l w1) as [[ys [u|e| | |]] w2]; auto.
  Qed.

  Lemma clone_ty_faithful t : forall x p, stands t x p -> forall w,
    match clone t x w with (Ret y, _) => stands t y p | _ => True end.
  Proof.
    induction t as [|t IH|t IH|t IH]; intros x p Hx w.
    - simpl in *. exact Hx.
    - simpl. unfold clone_option. destruct x as [x|]; [|exact Hx].
      destruct p as [p|]; [|contradiction]. simpl in Hx. specialize (IH x p Hx w).
      destruct (clone t x w) as [[y|e| | |] w1]; auto.
    - simpl. unfold clone_box. specialize (IH x p Hx w).
      destruct (clone t x w) as [[y|e| | |] w1]; auto.
      destruct (box_try_new_cases alloc isize_max (szof t) y w1)
        as [(w2 & Hr & _)|[(_ & e & w2 & Hr)|(_ & _ & w2 & [Hr|Hr])]]; rewrite Hr; auto.
    - destruct Hx as (l & Hh & HF). simpl.
      destruct (@vec_try_clone_cases W alloc isize_max (val P t) (szof t) (clone t) x l w Hh)
        as [(w1 & Hc)|(e & w' & Hr)].
      + pose proof (@clones_stands t IH l p w1 HF) as Hcl.
        destruct (vec_try_clone alloc isize_max (szof t) (clone t) x w) as [[v'|e| | |] w2]; auto.
        destruct Hc as (Ho & Hh' & _).
        destruct (clones (clone t) l w1) as [[ys o] w3]. simpl in *. subst o. exists ys. auto.
      + rewrite Hr. exact I.
  Qed.

  (** with an exact allocator every clone ends in a value or an error *)
  Lemma clone_ty_settled t : exact_alloc alloc -> forall x p, stands t x p -> forall w,
    settled (fst (clone t x w)).
  Proof.
    intros Hex. induction t as [|t IH|t IH|t IH]; intros x p Hx w.
    - exact I.
    - simpl. unfold clone_option. destruct x as [x|]; [|exact I].
      destruct p as [p|]; [|contradiction]. simpl in Hx. specialize (IH x p Hx w).
      destruct (clone t x w) as [[y|e| | |] w1]; auto.
    - simpl. unfold clone_box. specialize (IH x p Hx w).
      destruct (clone t x w) as [[y|e| | |] w1]; auto.
      destruct (box_try_new_cases alloc isize_max (szof t) y w1)
        as [(w2 & Hr & _)|[(_ & e & w2 & Hr)|(_ & Hn & _)]]; try rewrite Hr; try exact I; contradiction.
    - destruct Hx as (l & Hh & HF). simpl.
      assert (Hs : forall w, settled (snd (fst (clones (clone t) l w)))).
      { clear Hh w. induction HF as [|y q l p Hy HF IHF]; intros w; simpl; [exact I|].
        specialize (IH y q Hy w). destruct (clone t y w) as [[z|e| | |] w1]; try contradiction; [|exact I].
        specialize (IHF w1). destruct (clones (clone t) l w1) as [[ys o] w2]; auto. }
      destruct (@vec_try_clone_cases W alloc isize_max (val P t) (szof t) (clone t) x l w Hh)
        as [(w1 & Hc)|(e & w' & Hr)].
      + specialize (Hs w1).
        destruct (vec_try_clone alloc isize_max (szof t) (clone t) x w) as [[v'|e| | |] w2]; try exact I;
          rewrite Hc in Hs; contradiction.
      + rewrite Hr. exact I.
  Qed.
End CloneTy.

Section Format.
  Variables (W : Type) (alloc : nat -> W -> answer * W) (isize_max : nat) (B : Type).
  Notation holds := (holds isize_max 1).
  Notation room := (@room isize_max B 1).

  Lemma write_fmt_within fs : forall text (v : rvec B) l w,
    format_text fs = Some text -> holds v l -> length text <= room v ->
    exists v', write_fmt alloc isize_max fs (v, w) = (Ret tt, (v', w)) /\ holds v' (l ++ text).
  Proof.
    induction fs as [|f fs IH]; intros text v l w Ht Hh Hr; simpl in *.
    - injection Ht as <-. exists v. rewrite app_nil_r. auto.
    - destruct f as [bs| |]; try discriminate.
      destruct (format_text fs) as [t|] eqn:Et; [|discriminate]. injection Ht as <-.
      rewrite app_length in Hr. unfold bind, std_extend_from_slice, bind.
      rewrite reserve_noop by lia.
      destruct (@push_all_ok W isize_max B 1 unit bs v l w Hh) as (v' & Hp & Hh' & Hc').
      { unfold VecSpec.room in Hr. destruct Hh as (Hl & _ & Hc & _). lia. }
      rewrite Hp. destruct (IH t v' (l ++ bs) w eq_refl Hh') as (v'' & Hw & Hh'').
      { unfold VecSpec.room in *. destruct Hh as (Hl & _). destruct Hh' as (Hl' & _). rewrite Hc', Hl', app_length. lia. }
      exists v''. rewrite app_assoc. auto.
  Qed.

  Lemma write_fmt_general fs : forall (v : rvec B) l w,
    holds v l ->
    match write_fmt alloc isize_max fs (v, w) with
    | (Ret _, (v', _)) => exists text, format_text fs = Some text /\ holds v' (l ++ text)
    | (UB, _) => False
    | (Err _, _) => format_text fs = None
    | _ => True
    end.
  Proof.
    induction fs as [|f fs IH]; intros v l w Hh; simpl.
    - exists []. rewrite app_nil_r. auto.
    - destruct f as [bs| |]; simpl; auto.
      unfold bind, std_extend_from_slice, bind, reserve.
      destruct (@try_reserve_cases W alloc isize_max B 1 v l (length bs) w Hh)
        as [(v1 & w1 & Hr & Hh1 & Hc1 & _)|(e & w1 & Hr & _)].
      2:{ rewrite Hr. destruct e; auto. }
      rewrite Hr.
      destruct (@push_all_ok W isize_max B 1 unit bs v1 l w1 Hh1 Hc1) as (v' & Hp & Hh' & _).
      rewrite Hp. specialize (IH v' (l ++ bs) w1 Hh').
      destruct (write_fmt alloc isize_max fs (v', w1)) as [[u|e| | |] [v'' w'']]; auto.
      + destruct IH as (text & Ht & Hh''). rewrite Ht. exists (bs ++ text). rewrite app_assoc. auto.
      + now rewrite IH.
  Qed.
End Format.

Section IO.
  Variables (W : Type) (alloc : nat -> W -> answer * W) (isize_max : nat) (B R : Type).
  Variable read : R -> nat -> read_result B * R.
  Hypothesis Hread : read_bounded read.
  Notation holds := (holds isize_max 1).
  Notation cap := (@capacity isize_max B 1).

  Lemma delivers_app r bs r1 : delivers read r bs r1 -> forall cs r2,
    delivers read r1 cs r2 -> delivers read r (bs ++ cs) r2.
  Proof.
    induction 1 as [|r n r1 bs r' Hn Hr Hd IH|r n b r1 bs r' Hn Hb Hr Hd IH]; intros cs r2 H2; simpl; auto.
    - eapply del_int; eauto.
    - rewrite <- app_assoc. eapply del_data; eauto.
  Qed.

  (** the state of the loop: [l0] the old contents, [bs] what was read so far;
      what is left of the limit fits in the spare capacity *)
  Lemma read_to_end_ok fuel : forall r0 l0 bs start_cap r limit limit0 (v : rvec B) w probing,
    holds v (l0 ++ bs) -> delivers read r0 bs r -> limit0 = length bs + limit ->
    length (l0 ++ bs) + limit <= cap v -> cap v = start_cap ->
    (probing = true -> limit = 0) ->
    (probing = false -> vlen v = cap v -> limit = 0 /\ bs <> [] -> False) ->
    (limit0 = 0 -> vlen v < cap v) ->
    match read_to_end alloc isize_max read fuel (length l0) start_cap r limit (v, w) probing with
    | None => True
    | Some (o, (v', w'), r') =>
        w' = w /\ exists bs' r1, holds v' (l0 ++ bs') /\ delivers read r0 bs' r1 /\ length bs' <= limit0 /\
        cap v' = cap v /\
        match o with
        | Ret n => n = length bs' /\ ((n = limit0 /\ r' = r1) \/ (n < limit0 /\ at_eof read r1 r'))
        | Err e => e = IoRead /\ read_fails read r1 r'
        | _ => False
        end
    end.
  Proof.
    induction fuel as [|fuel IH]; intros r0 l0 bs start_cap r limit limit0 v w probing Hh Hd Hlim Hroom Hcap Hpr Hfull Hz;
      cbn [read_to_end]; [exact I|].
    pose proof Hh as (Hl & _).
    destruct probing.
    - specialize (Hpr eq_refl). subst limit. unfold take_read. simpl.
      split; [reflexivity|]. exists bs, r. rewrite Hl, app_length.
      split; [exact Hh|]. split; [exact Hd|]. split; [lia|]. split; [reflexivity|]. split; [lia|]. left. split; [lia|reflexivity].
    - cbn [fst].
      destruct (Nat.eqb_spec (vlen v) (cap v)) as [Hf|Hf].
      { (* full: impossible *)
        exfalso. rewrite Hl in Hf. assert (limit = 0) by lia. subst limit.
        destruct bs as [|b bs].
        - simpl in Hlim. specialize (Hz Hlim). rewrite Hl in Hz. lia.
        - eapply Hfull; auto. lia. split; auto. discriminate. }
      cbn [fst]. unfold take_read.
      destruct (Nat.eqb_spec limit 0) as [Hl0|Hl0].
      { split; [reflexivity|]. exists bs, r. rewrite Hl, app_length.
        split; [exact Hh|]. split; [exact Hd|]. split; [lia|]. split; [reflexivity|]. split; [lia|]. left. split; [lia|reflexivity]. }
      set (n := min (cap v - vlen v) limit).
      assert (Hn : 0 < n /\ n = limit). { unfold n. rewrite Hl in *. lia. }
      destruct Hn as [Hn Hnl].
      destruct (read r n) as [[cs| |] r1] eqn:Er.
      + assert (Hcs : length cs <= n) by (eapply Hread; eauto).
        destruct cs as [|c cs].
        * split; [reflexivity|]. exists bs, r. rewrite Hl, app_length.
          split; [exact Hh|]. split; [exact Hd|]. split; [lia|]. split; [reflexivity|]. split; [lia|]. right. split; [lia|].
          exists n. split; [lia|]. exact Er.
        * destruct (@push_all_ok W isize_max B 1 io_error (c :: cs) v (l0 ++ bs) w Hh) as (v' & Hp & Hh' & Hc').
          { lia. }
          rewrite Hp. rewrite <- app_assoc in Hh'. cbn [fst].
          pose proof Hh' as (Hl' & _). repeat rewrite app_length in *.
          specialize (IH r0 l0 (bs ++ c :: cs) start_cap r1 (limit - length (c :: cs)) limit0 v' w
             ((vlen v' =? cap v') && (cap v' =? start_cap)) Hh').
          destruct (read_to_end alloc isize_max read fuel (length l0) start_cap r1
            (limit - length (c :: cs)) (v', w) ((vlen v' =? cap v') && (cap v' =? start_cap))) as [[[o [v'' w'']] r'']|]; auto.
          rewrite Hc' in IH. apply IH.
          -- eapply delivers_app; eauto. rewrite <- (app_nil_r (c :: cs)). eapply del_data; [exact Hn|discriminate|exact Er|constructor].
          -- rewrite app_length. lia.
          -- repeat rewrite app_length. lia.
          -- exact Hcap.
          -- intros Hp'. apply andb_prop in Hp'. destruct Hp' as [Hp' _]. apply Nat.eqb_eq in Hp'.
             rewrite Hl' in Hp'. lia.
          -- intros Hp' Hfu _. rewrite Hfu, Nat.eqb_refl in Hp'. simpl in Hp'. apply Nat.eqb_neq in Hp'. lia.
          -- intros H0. lia.
      + specialize (IH r0 l0 bs start_cap r1 limit limit0 v w false Hh).
        destruct (read_to_end alloc isize_max read fuel (length l0) start_cap r1 limit (v, w) false) as [[[o [v'' w'']] r'']|]; auto.
        apply IH; auto. rewrite <- (app_nil_r bs). eapply delivers_app; eauto. eapply del_int; eauto. constructor.
      + split; [reflexivity|]. exists bs, r.
        split; [exact Hh|]. split; [exact Hd|]. split; [lia|]. split; [reflexivity|]. split; [reflexivity|]. exists n. auto.
  Qed.

  Lemma try_read_up_to_ok fuel r limit (v : rvec B) l w :
    holds v l -> 0 < limit \/ vlen v < cap v ->
    match try_read_up_to alloc isize_max read fuel r limit (v, w) with
    | None => True
    | Some (Ret n, (v', w'), r') =>
        exists bs r1, holds v' (l ++ bs) /\ delivers read r bs r1 /\ n = length bs /\
           ((n = limit /\ r' = r1) \/ (n < limit /\ at_eof read r1 r'))
    | Some (Err IoRead, (v', w'), r') =>
        exists bs r1, holds v' (l ++ bs) /\ delivers read r bs r1 /\ length bs <= limit /\ read_fails read r1 r'
    | Some (Err _, (v', w'), r') => v' = v /\ r' = r
    | Some _ => False
    end.
  Proof.
    intros Hh Hlim. unfold try_read_up_to.
    destruct (usize_max isize_max <? limit); [auto|].
    destruct (@try_reserve_cases W alloc isize_max B 1 v l limit w Hh)
      as [(v1 & w1 & Hr & Hh1 & Hc1 & Hc0 & _)|(e & w1 & Hr & _)].
    2:{ rewrite Hr. auto. }
    rewrite Hr. cbn [fst]. pose proof Hh1 as (Hl1 & _). rewrite Hl1.
    pose proof (@read_to_end_ok fuel r l [] (cap v1) r limit limit v1 w1 false) as H.
    rewrite app_nil_r in H. specialize (H Hh1 (del_nil _ r) eq_refl Hc1 eq_refl ltac:(discriminate) ltac:(tauto)).
    assert (Hlt : limit = 0 -> vlen v1 < cap v1).
    { intros ->. destruct Hlim as [Hlim|Hlim]; [lia|]. destruct Hh as (Hl & _). lia. }
    specialize (H Hlt).
    destruct (read_to_end alloc isize_max read fuel (length l) (cap v1) r limit (v1, w1) false) as [[[o [v' w']] r']|]; auto.
    destruct H as (_ & bs & r1 & Hh' & Hd & Hle & _ & Ho). destruct o as [n|e| | |]; try contradiction.
    - destruct Ho as [-> Ho]. exists bs, r1. auto.
    - destruct Ho as [-> Ho]. exists bs, r1. auto.
  Qed.
End IO.

Section HashMap.
  Variables (W : Type) (alloc : nat -> W -> answer * W) (isize_max : nat).
  Variables (K V : Type) (keq : K -> K -> bool).
  Hypothesis Hlaws : key_eq_laws keq.
  Variable policy : nat -> bool.
  Variable esz : nat.
  Implicit Types (m c : hmap K V) (f g : fmap K V) (k : K) (v : V) (w : W).

  (** distinct keys *)
  Fixpoint distinct (l : list (K * V)) : Prop :=
    match l with
    | [] => True
    | (k, v) :: l' => assoc keq k l' = None /\ distinct l'
    end.

  Lemma assoc_keq k k' (l : list (K * V)) : keq k k' = true -> assoc keq k l = assoc keq k' l.
  Proof.
    intros H. induction l as [|[k0 v0] l IH]; simpl; [reflexivity|].
    assert (keq k k0 = keq k' k0) as ->; [|now rewrite IH].
    destruct (keq k k0) eqn:E1, (keq k' k0) eqn:E2; auto; exfalso.
    - assert (keq k' k0 = true); [|congruence]. eapply keq_trans; eauto. now rewrite (keq_sym Hlaws).
    - assert (keq k k0 = true); [|congruence]. eapply keq_trans; eauto.
  Qed.

  Lemma assoc_set_spec k v (l : list (K * V)) : (exists v0, assoc keq k l = Some v0) -> forall k',
    assoc keq k' (assoc_set keq k v l) = if keq k' k then Some v else assoc keq k' l.
  Proof.
    induction l as [|[k0 v0] l IH]; simpl; intros [v1 Hk] k'; [discriminate|].
    destruct (keq k k0) eqn:E.
    - simpl. destruct (keq k' k) eqn:E1.
      + rewrite (keq_trans Hlaws _ _ _ E1 E). reflexivity.
      + destruct (keq k' k0) eqn:E2; auto.
        exfalso. rewrite (keq_sym Hlaws) in E. pose proof (keq_trans Hlaws _ _ _ E2 E). congruence.
    - simpl. destruct (keq k' k0) eqn:E2.
      + destruct (keq k' k) eqn:E1; auto.
        rewrite (keq_sym Hlaws) in E1. pose proof (keq_trans Hlaws _ _ _ E1 E2). congruence.
      + apply IH. eauto.
  Qed.

  Lemma assoc_set_none k v (l : list (K * V)) k' : assoc keq k' l = None -> assoc keq k' (assoc_set keq k v l) = None.
  Proof.
    induction l as [|[k0 v0] l IH]; simpl; auto. destruct (keq k' k0) eqn:E; [discriminate|].
    intros H. destruct (keq k k0); simpl; rewrite E; auto.
  Qed.

  Lemma assoc_set_distinct k v (l : list (K * V)) : distinct l -> distinct (assoc_set keq k v l).
  Proof.
    induction l as [|[k0 v0] l IH]; simpl; auto. intros [H1 H2].
    destruct (keq k k0); simpl; auto. split; auto. now apply assoc_set_none.
  Qed.

  Lemma assoc_set_length k v (l : list (K * V)) : length (assoc_set keq k v l) = length l.
  Proof. induction l as [|[k0 v0] l IH]; simpl; auto. destruct (keq k k0); simpl; auto. Qed.

  Lemma assoc_remove_spec k (l : list (K * V)) : distinct l -> forall k',
    assoc keq k' (assoc_remove keq k l) = if keq k' k then None else assoc keq k' l.
  Proof.
    induction l as [|[k0 v0] l IH]; simpl; intros Hd k'.
    - now destruct (keq k' k).
    - destruct Hd as [H1 H2]. destruct (keq k k0) eqn:E.
      + destruct (keq k' k) eqn:E1.
        * rewrite (assoc_keq _ (keq_trans Hlaws _ _ _ E1 E)). exact H1.
        * destruct (keq k' k0) eqn:E2; auto.
          exfalso. rewrite (keq_sym Hlaws) in E. pose proof (keq_trans Hlaws _ _ _ E2 E). congruence.
      + simpl. destruct (keq k' k0) eqn:E2.
        * destruct (keq k' k) eqn:E1; auto.
          rewrite (keq_sym Hlaws) in E1. pose proof (keq_trans Hlaws _ _ _ E1 E2). congruence.
        * now apply IH.
  Qed.

  Lemma assoc_remove_none k (l : list (K * V)) k' : assoc keq k' l = None -> assoc keq k' (assoc_remove keq k l) = None.
  Proof.
    induction l as [|[k0 v0] l IH]; simpl; auto. destruct (keq k' k0) eqn:E; [discriminate|].
    intros H. destruct (keq k k0); simpl; auto. rewrite E; auto.
  Qed.

  Lemma assoc_remove_distinct k (l : list (K * V)) : distinct l -> distinct (assoc_remove keq k l).
  Proof.
    induction l as [|[k0 v0] l IH]; simpl; auto. intros [H1 H2].
    destruct (keq k k0); simpl; auto. split; auto. now apply assoc_remove_none.
  Qed.

  Lemma assoc_remove_length k (l : list (K * V)) v : assoc keq k l = Some v ->
    S (length (assoc_remove keq k l)) = length l.
  Proof.
    induction l as [|[k0 v0] l IH]; simpl; [discriminate|]. destruct (keq k k0); simpl; auto.
  Qed.

  (** the map's state denotes a finite map *)
  Definition denotes (m : hmap K V) (f : fmap K V) : Prop :=
    distinct (items m) /\ (forall k, assoc keq k (items m) = fst f k) /\ length (items m) = snd f.

  Lemma assoc_in k (l : list (K * V)) v : distinct l ->
    assoc keq k l = Some v <-> exists k', keq k k' = true /\ In (k', v) l.
  Proof.
    induction l as [|[k0 v0] l IH]; simpl; intros Hd.
    - split; [discriminate|]. intros (? & _ & []).
    - destruct Hd as [H1 H2]. specialize (IH H2). destruct (keq k k0) eqn:E.
      + split.
        * intros H; injection H as <-. exists k0; auto.
        * intros (k' & Hk & [Heq|Hin]); [injection Heq; intros; subst; reflexivity|].
          exfalso. assert (assoc keq k l = Some v) by (apply IH; eauto).
          rewrite (assoc_keq _ E) in H. congruence.
      + rewrite IH. split.
        * intros (k' & Hk & Hin). eauto.
        * intros (k' & Hk & [Heq|Hin]); [injection Heq; intros; subst; congruence|eauto].
  Qed.

  Lemma distinct_nth (l : list (K * V)) : distinct l -> forall i j ki vi kj vj,
    nth_error l i = Some (ki, vi) -> nth_error l j = Some (kj, vj) -> keq ki kj = true -> i = j.
  Proof.
    induction l as [|[k0 v0] l IH]; simpl; intros Hd i j ki vi kj vj Hi Hj Hk.
    - destruct i; discriminate.
    - destruct Hd as [H1 H2].
      assert (Haux : forall n k v, nth_error l n = Some (k, v) -> keq k0 k = true -> False).
      { intros n k v Hn Hkk. assert (assoc keq k0 l = Some v); [|congruence].
        apply assoc_in; auto. exists k. split; auto. eapply nth_error_In; eauto. }
      destruct i, j; simpl in *; auto.
      + injection Hi; intros; subst. exfalso; eauto.
      + injection Hj; intros; subst. exfalso. rewrite (keq_sym Hlaws) in Hk. eauto.
      + f_equal. eapply IH; eauto.
  Qed.

  Lemma denotes_listing m f : denotes m f -> flisting keq f (items m).
  Proof.
    intros (Hd & Ha & Hn). repeat split; auto.
    - intros H. rewrite <- Ha in H. apply assoc_in; auto.
    - intros H. rewrite <- Ha. apply assoc_in; auto.
    - intros; eapply distinct_nth; eauto.
  Qed.

  Lemma make_error w : make_try_reserve_error alloc isize_max w = Some CapacityOverflow.
  Proof.
    unfold make_try_reserve_error, try_reserve, capacity. simpl vlen. simpl vcap.
    destruct (Nat.eqb_spec 1024 0); [discriminate|].
    destruct (Nat.leb_spec (usize_max isize_max) (0 - 0)) as [H|H]; [unfold usize_max in H; lia|].
    destruct (usize_max isize_max <? 0 + usize_max isize_max); [reflexivity|].
    destruct (Nat.ltb_spec isize_max ((0 + usize_max isize_max) * 1024)) as [H'|H']; [reflexivity|].
    unfold usize_max in H'; nia.
  Qed.

  Lemma thm_reserve_cases n (m : hmap K V) w :
    (exists m' w', thm_reserve alloc isize_max esz n (m, w) = (Ret tt, (m', w')) /\ items m' = items m /\
        n <= growth_left m' /\ (n <= growth_left m -> m' = m /\ w' = w)) \/
    (exists w', thm_reserve alloc isize_max esz n (m, w) = (Err CapacityOverflow, (m, w')) /\ growth_left m < n).
  Proof.
    unfold thm_reserve, hmap_try_reserve.
    destruct (Nat.leb_spec n (growth_left m)) as [H|H].
    - left. exists m, w. auto.
    - destruct (alloc _ w) as [[x|e] w'].
      + left. eexists _, w'. split; [reflexivity|]. simpl. split; [reflexivity|]. split; lia.
      + right. exists w'. rewrite make_error. auto.
  Qed.

  Lemma thm_insert_eq k v m w :
    thm_insert alloc isize_max keq policy esz k v (m, w) =
      (thm_reserve alloc isize_max esz (if hmap_capacity m =? 0 then 4 else 1) ;;;
       std_hmap_insert alloc keq policy esz k v) (m, w).
  Proof. reflexivity. Qed.

  Lemma thm_insert_cases k v m f w :
    denotes m f ->
    (exists m' w', thm_insert alloc isize_max keq policy esz k v (m, w) = (Ret (fst f k), (m', w')) /\
        denotes m' (fset keq f k v) /\ growth_left m - 1 <= growth_left m' /\
        (0 < growth_left m -> w' = w)) \/
    (exists e w', thm_insert alloc isize_max keq policy esz k v (m, w) = (Err e, (m, w')) /\ growth_left m < 4).
  Proof.
    intros (Hd & Ha & Hn). rewrite thm_insert_eq.
    set (n := if hmap_capacity m =? 0 then 4 else 1).
    assert (Hn1 : 1 <= n <= 4) by (unfold n; destruct (_ =? _); lia).
    destruct (thm_reserve_cases n m w) as [(m1 & w1 & Hr & Hi & Hg & Hno)|(w1 & Hr & Hlt)].
    2:{ right. exists CapacityOverflow, w1. unfold bind. rewrite Hr. split; [reflexivity|lia]. }
    left. unfold bind at 1. rewrite Hr. unfold std_hmap_insert, bind, hmap_reserve, hmap_try_reserve.
    destruct (Nat.leb_spec 1 (growth_left m1)) as [H1|H1]; [|lia].
    assert (Hgl : growth_left m <= growth_left m1).
    { destruct (Nat.le_gt_cases n (growth_left m)) as [Hle|Hgt]; [destruct (Hno Hle); subst; lia|lia]. }
    assert (Hw : 0 < growth_left m -> w1 = w).
    { intros H0. apply Hno. unfold n, hmap_capacity. destruct (Nat.eqb_spec (length (items m) + growth_left m) 0); lia. }
    rewrite Hi, Ha. destruct (fst f k) as [old|] eqn:Ef.
    - eexists _, w1. split; [reflexivity|]. simpl. split; [|split; [lia|exact Hw]].
      repeat split; simpl.
      + now apply assoc_set_distinct.
      + intros k'. rewrite assoc_set_spec by (rewrite Ha; eauto). now rewrite Ha.
      + rewrite assoc_set_length, Ef. exact Hn.
    - eexists _, w1. split; [reflexivity|]. simpl. split; [|split; [destruct (policy (hstep m1)); lia|exact Hw]].
      repeat split; simpl.
      + now rewrite Ha.
      + exact Hd.
      + intros k'. now rewrite Ha.
      + rewrite Ef. now f_equal.
  Qed.

  Lemma thm_remove_ok k m f : denotes m f ->
    fst (thm_remove keq policy k m) = fst f k /\ denotes (snd (thm_remove keq policy k m)) (fdel keq f k).
  Proof.
    intros (Hd & Ha & Hn). unfold thm_remove, hmap_remove. rewrite Ha.
    destruct (fst f k) as [v|] eqn:Ef; simpl.
    - split; [reflexivity|]. repeat split; simpl.
      + now apply assoc_remove_distinct.
      + intros k'. rewrite assoc_remove_spec by auto. now rewrite Ha.
      + rewrite Ef. assert (Hk : assoc keq k (items m) = Some v) by now rewrite Ha.
        apply assoc_remove_length in Hk. lia.
    - split; [reflexivity|]. repeat split; simpl; auto.
      + intros k'. destruct (keq k' k) eqn:E; auto.
        rewrite (assoc_keq (items m) E), Ha. exact Ef.
      + rewrite Ef. exact Hn.
  Qed.

  Lemma denotes_new : denotes (hmap_new K V) (fempty K V).
  Proof. repeat split; simpl; auto. Qed.

  (** running a history *)
  Definition run_hop (op : hop K V) (s : hmap K V * W) : outcome reserve_error (hres K V) * (hmap K V * W) :=
    match op with
    | HInsert k v => match thm_insert alloc isize_max keq policy esz k v s with
                     | (Ret o, s') => (Ret (HVal _ o), s')
                     | (Err e, s') => (Err e, s')
                     | (Panic, s') => (Panic, s')
                     | (Abort, s') => (Abort, s')
                     | (UB, s') => (UB, s')
                     end
    | HRemove _ k => let '(o, m') := thm_remove keq policy k (fst s) in (Ret (HVal _ o), (m', snd s))
    | HGet _ k => (Ret (HVal _ (thm_get keq k (fst s))), s)
    | HLen _ _ => (Ret (HNum _ _ (thm_len (fst s))), s)
    | HIter _ _ => (Ret (HList (thm_iter (fst s))), s)
    end.
  Fixpoint run_hops (ops : list (hop K V)) (s : hmap K V * W) : list (hop K V * outcome reserve_error (hres K V)) :=
    match ops with
    | [] => []
    | op :: ops' => let '(r, s') := run_hop op s in (op, r) :: run_hops ops' s'
    end.

  Lemma run_hops_ok ops : forall m f w, denotes m f -> hspec_trace keq f (run_hops ops (m, w)).
  Proof.
    induction ops as [|op ops IH]; intros m f w Hm; simpl; [exact I|].
    destruct op as [k v|k|k| |]; simpl.
    - destruct (thm_insert_cases k v w Hm) as [(m' & w' & Hr & Hm' & _)|(e & w' & Hr & _)]; rewrite Hr.
      + exists (fset keq f k v). split; [constructor|]. now apply IH.
      + exists f. split; [constructor|]. now apply IH.
    - destruct (thm_remove_ok k Hm) as [Ho Hm'].
      destruct (thm_remove keq policy k m) as [o m']. simpl in *. subst o.
      exists (fdel keq f k). split; [constructor|]. now apply IH.
    - exists f. split; [|now apply IH]. unfold thm_get. destruct Hm as (_ & Ha & _). rewrite Ha. constructor.
    - exists f. split; [|now apply IH]. unfold thm_len. destruct Hm as (_ & _ & ->). constructor.
    - exists f. split; [|now apply IH]. constructor. now apply denotes_listing.
  Qed.

  (** a run of insertions *)
  Fixpoint run_inserts (l : list (K * V)) (s : hmap K V * W) : outcome reserve_error unit * (hmap K V * W) :=
    match l with
    | [] => (Ret tt, s)
    | (k, v) :: l' => match thm_insert alloc isize_max keq policy esz k v s with
                      | (Ret _, s') => run_inserts l' s'
                      | (Err e, s') => (Err e, s')
                      | (Panic, s') => (Panic, s')
                      | (Abort, s') => (Abort, s')
                      | (UB, s') => (UB, s')
                      end
    end.

  Lemma thm_insert_room k v m f w :
    denotes m f -> 0 < growth_left m ->
    exists m', thm_insert alloc isize_max keq policy esz k v (m, w) = (Ret (fst f k), (m', w)) /\
        denotes m' (fset keq f k v) /\ growth_left m - 1 <= growth_left m'.
  Proof.
    intros Hm Hg. destruct (thm_insert_cases k v w Hm) as [(m' & w' & Hr & Hm' & Hg' & Hw)|(e & w' & Hr & Hlt)].
    - rewrite (Hw Hg) in Hr. eauto.
    - exfalso. rewrite thm_insert_eq in Hr.
      assert (Hc : hmap_capacity m =? 0 = false) by (apply Nat.eqb_neq; unfold hmap_capacity; lia).
      rewrite Hc in Hr. unfold bind at 1 in Hr.
      destruct (thm_reserve_cases 1 m w) as [(m1 & w1 & Hr1 & Hi & Hg1 & Hno)|(w1 & Hr1 & Hlt1)]; [|lia].
      rewrite Hr1 in Hr. unfold std_hmap_insert, bind, hmap_reserve, hmap_try_reserve in Hr.
      destruct (Nat.leb_spec 1 (growth_left m1)) as [H1|H1]; [|lia].
      destruct (assoc keq k (items m1)); discriminate.
  Qed.

  Lemma run_inserts_room l : forall m f w,
    denotes m f -> length l <= growth_left m ->
    exists m', run_inserts l (m, w) = (Ret tt, (m', w)) /\
      denotes m' (fold_left (fun g '(k, v) => fset keq g k v) l f).
  Proof.
    induction l as [|[k v] l IH]; intros m f w Hm Hg; simpl.
    - eauto.
    - simpl in Hg. destruct (@thm_insert_room k v m f w Hm ltac:(lia)) as (m' & Hr & Hm' & Hg').
      rewrite Hr. apply IH; auto. lia.
  Qed.

  Section Clone.
  Variable kclone : K -> W -> outcome reserve_error K * W.
  Variable vclone : V -> W -> outcome reserve_error V * W.
  (** cloned keys are equal to their originals *)
  Hypothesis Hkc : forall k w k' w', kclone k w = (Ret k', w') -> keq k' k = true.

  Lemma thm_clone_loop_ok l : forall c g w,
    denotes c g -> length l <= growth_left c -> distinct l ->
    (forall k v, In (k, v) l -> fst g k = None) ->
    match thm_clone_loop alloc isize_max keq policy esz kclone vclone l (c, w) with
    | (Ret _, (c', _)) => exists g', denotes c' g' /\ snd g' = snd g + length l /\
          forall k, match assoc keq k l with
                    | Some v => exists v', fst g' k = Some v' /\ is_clone vclone v v'
                    | None => fst g' k = fst g k
                    end
    | (o, (c', _)) => 
          (exists k v w1, In (k, v) l /\ match o, fst (kclone k w1) with
             | Err e, Err e' => e = e' | Panic, Panic | Abort, Abort | UB, UB => True | _, _ => False end) \/
          (exists k v w1, In (k, v) l /\ match o, fst (vclone v w1) with
             | Err e, Err e' => e = e' | Panic, Panic | Abort, Abort | UB, UB => True | _, _ => False end)
    end.
  Proof.
    induction l as [|[k v] l IH]; intros c g w Hc Hg Hd Hf; cbn [thm_clone_loop].
    - unfold ret. exists g. repeat split; try apply Hc; simpl; try lia; auto.
    - simpl in Hg, Hd. destruct Hd as [Hkn Hd]. unfold bind, hlift.
      destruct (kclone k w) as [[k'|e| | |] w1] eqn:Ek;
        try (left; exists k, v, w; rewrite Ek; simpl; auto; fail).
      destruct (vclone v w1) as [[v'|e| | |] w2] eqn:Ev;
        try (right; exists k, v, w1; rewrite Ev; simpl; auto; fail).
      destruct (@thm_insert_room k' v' c g w2 Hc ltac:(lia)) as (c' & Hr & Hc' & Hg').
      rewrite Hr.
      assert (Hkk : keq k' k = true) by (eapply Hkc; eauto).
      assert (Hgk : fst g k' = None).
      { destruct Hc as (_ & Ha & _). rewrite <- Ha, (assoc_keq _ Hkk), Ha. eapply Hf. now left. }
      specialize (IH c' (fset keq g k' v') w2 Hc' ltac:(lia) Hd).
      assert (Hf' : forall k0 v0, In (k0, v0) l -> fst (fset keq g k' v') k0 = None).
      { intros k0 v0 Hin. simpl. destruct (keq k0 k') eqn:E.
        - exfalso. assert (assoc keq k l = Some v0); [|congruence].
          apply assoc_in; auto. exists k0. split; auto.
          rewrite (keq_sym Hlaws). eapply keq_trans; eauto.
        - eapply Hf. right; eauto. }
      specialize (IH Hf').
      destruct (thm_clone_loop alloc isize_max keq policy esz kclone vclone l (c', w2)) as [[u|e| | |] [c'' w'']].
      + destruct IH as (g' & Hg'' & Hn & Hl). exists g'. split; [exact Hg''|]. split.
        * rewrite Hn. simpl. rewrite Hgk. lia.
        * intros k0. simpl. specialize (Hl k0). destruct (keq k0 k) eqn:E.
          -- rewrite (assoc_keq l E), Hkn in Hl. exists v'. split.
             ++ rewrite Hl. simpl. rewrite (keq_sym Hlaws) in Hkk.
                rewrite (keq_trans Hlaws _ _ _ E Hkk). reflexivity.
             ++ exists w1, w2. exact Ev.
          -- destruct (assoc keq k0 l) as [v0|] eqn:E0; [exact Hl|].
             rewrite Hl. simpl. destruct (keq k0 k') eqn:E1; auto.
             pose proof (keq_trans Hlaws _ _ _ E1 Hkk). congruence.
      + destruct IH as [(k0 & v0 & w3 & Hin & H)|(k0 & v0 & w3 & Hin & H)]; [left|right]; exists k0, v0, w3; split; auto; now right.
      + destruct IH as [(k0 & v0 & w3 & Hin & H)|(k0 & v0 & w3 & Hin & H)]; [left|right]; exists k0, v0, w3; split; auto; now right.
      + destruct IH as [(k0 & v0 & w3 & Hin & H)|(k0 & v0 & w3 & Hin & H)]; [left|right]; exists k0, v0, w3; split; auto; now right.
      + destruct IH as [(k0 & v0 & w3 & Hin & H)|(k0 & v0 & w3 & Hin & H)]; [left|right]; exists k0, v0, w3; split; auto; now right.
  Qed.
  End Clone.
End HashMap.
