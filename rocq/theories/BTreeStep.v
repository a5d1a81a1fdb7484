(** * BTreeStep: one step of an iterator *)
From Coq Require Import List Arith Lia Bool Sorted Permutation.
From Verif Require Import Base MapSpec BTreeModel BTreeIterModel BTreeInv BTreeLemmas BTreeSearch BTreeInsert BTreeIter.
Import ListNotations.
Set Implicit Arguments.

Lemma nth_error_mid A (a : list A) x z i : length a = i -> nth_error (a ++ x :: z) i = Some x.
Proof. intros <-. rewrite nth_error_app2, Nat.sub_diag by lia. reflexivity. Qed.

Section Step.
  Variables (K V : Type).
  Notation node := (node K V).
  Notation frame := (frame K V).
  Notation ctx := (ctx K V).
  Notation handle := (handle K V).
  Notation bmap := (bmap K V).
  Notation step := (step K V).
  Implicit Types (n T : node) (c : ctx) (f : frame) (hd : handle).

  (** a frame seen at the pair right of its child *)
  Lemma frame_right h f n : frame_ok f -> Forall (sub any h) (fl f) -> Forall (sub any h) (fr f) -> kids any h n ->
    fidx f < length (fk f) ->
    exists x e f', nth_error (fk f) (fidx f) = Some x /\ descend (fill f n) (fidx f + 1) = Some (e, f') /\
      fill f' e = fill f n /\ fl f' = fl f ++ [n] /\ fr f = e :: fr f' /\ fidx f' = S (fidx f) /\ frame_ok f' /\
      before f' = before f ++ inorder n ++ [x] /\ after f = x :: inorder e ++ after f' /\
      Forall (sub any h) (fl f') /\ Forall (sub any h) (fr f') /\ kids any h e.
  Proof.
    intros Hf Hl Hr Hk Hi. unfold frame_ok in Hf.
    destruct (@pick_lt _ _ _ Hi) as (ka & x & kz & Hp). pose proof (pick_some _ _ Hp) as [Ek Hka].
    destruct (fr f) as [|e r'] eqn:Er; [unfold fidx in Hi; simpl in Hf; lia|].
    inversion Hr as [|? ? [_ Hke] Hr']; subst.
    exists x, e, (Frame (fk f) (fl f ++ [n]) r').
    assert (Hpe : pick (fidx f + 1) (edges (fill f n)) = Some (fl f ++ [n], e, r')).
    { unfold fill. cbn [edges]. rewrite Er. change (fl f ++ n :: e :: r') with (fl f ++ [n] ++ e :: r').
      rewrite app_assoc. apply pick_app'. rewrite app_length. reflexivity. }
    assert (Hfi : fidx (Frame (fk f) (fl f ++ [n]) r') = S (fidx f)) by (unfold fidx; cbn [fl]; rewrite app_length; simpl; lia).
    split. { unfold pick in Hp. destruct (nth_error (fk f) (fidx f)); congruence. }
    split. { unfold descend. rewrite Hpe. reflexivity. }
    cbn [fl fr fk]. split. { unfold fill. cbn [fk fl fr]. rewrite Er, <- app_assoc. reflexivity. }
    split; auto. split; auto. split; auto.
    split. { unfold frame_ok. cbn [fk fl fr]. rewrite app_length. simpl in *. lia. }
    assert (Hkz : length kz = S (length r') - 1) by (rewrite Ek, app_length in Hf; simpl in *; unfold fidx in Hka; lia).
    split; [|split; [|split; [|split]]]; auto.
    - unfold before. rewrite Hfi. cbn [fk fl]. rewrite Ek. rewrite (firstn_app_len ka (x :: kz) (i := fidx f)) by auto.
      replace (firstn (S (fidx f)) (ka ++ x :: kz)) with (ka ++ [x]).
      2:{ change (x :: kz) with ([x] ++ kz). rewrite app_assoc. symmetry. apply firstn_app_len. rewrite app_length; simpl; lia. }
      rewrite map_app, wl_app by (rewrite map_length; unfold fidx in Hka; lia). cbn. reflexivity.
    - unfold after. rewrite Hfi, Er. cbn [fk fr map]. rewrite Ek. rewrite (skipn_app_len ka (x :: kz) (i := fidx f)) by auto. cbn [wr].
      do 3 f_equal. change (x :: kz) with ([x] ++ kz). rewrite app_assoc. symmetry. apply skipn_app_len. rewrite app_length; simpl; lia.
    - apply Forall_app. split; auto. constructor; auto. split; [exact I|auto].
  Qed.

  Lemma frame_left h f n : frame_ok f -> Forall (sub any h) (fl f) -> Forall (sub any h) (fr f) -> kids any h n ->
    0 < fidx f ->
    exists x e f', nth_error (fk f) (fidx f - 1) = Some x /\ descend (fill f n) (fidx f - 1) = Some (e, f') /\
      fill f' e = fill f n /\ fl f = fl f' ++ [e] /\ fr f' = n :: fr f /\ S (fidx f') = fidx f /\ frame_ok f' /\
      before f = before f' ++ inorder e ++ [x] /\ after f' = x :: inorder n ++ after f /\
      Forall (sub any h) (fl f') /\ Forall (sub any h) (fr f') /\ kids any h e.
  Proof.
    intros Hf Hl Hr Hk Hi. unfold fidx in Hi. destruct (fl f) as [|e l'] eqn:El using rev_ind; [simpl in Hi; lia|]. clear IHl'.
    set (f' := Frame (fk f) l' (n :: fr f)). apply Forall_app in Hl. destruct Hl as [Hl1 Hl2].
    inversion Hl2 as [|? ? [_ Hke] _]; subst.
    assert (Ef : fill f' e = fill f n) by (unfold fill, f'; cbn [fk fl fr]; rewrite El, <- app_assoc; reflexivity).
    assert (Hff : frame_ok f').
    { unfold frame_ok, f' in *. cbn [fk fl fr length]. rewrite El, app_length in Hf. simpl in Hf. lia. }
    assert (Hfi : S (fidx f') = fidx f) by (unfold fidx, f'; cbn [fl]; rewrite El, app_length; simpl; lia).
    assert (Hlt : fidx f' < length (fk f')).
    { unfold frame_ok in Hff. unfold f' at 2. cbn [fk]. unfold f' in Hff. cbn [fk fl fr length] in Hff. unfold fidx, f'. cbn [fl]. lia. }
    destruct (@frame_right h f' e Hff Hl1) as (x & e2 & f2 & E1 & E2 & E3 & E4 & E5 & E6 & E7 & E8 & E9 & E10 & E11 & E12); auto.
    { constructor; auto. split; [exact I|auto]. }
    assert (f2 = f /\ e2 = n) as [-> ->].
    { apply fill_same_idx; [congruence|]. lia. }
    exists x, e, f'. replace (fidx f - 1) with (fidx f') by lia.
    split; [exact E1|]. split.
    { unfold descend. rewrite <- Ef. unfold fill. cbn [edges]. rewrite pick_app' by reflexivity. reflexivity. }
    repeat (split; auto). constructor; auto. split; [exact I|auto].
  Qed.

  Lemma cok_top h f c : cok any anyR h (f :: c) <->
    frame_ok f /\ Forall (sub any h) (fl f) /\ Forall (sub any h) (fr f) /\ cok any anyR (S h) c.
  Proof. cbn [cok]. pose proof (bound_any (S h) c (length (fk f))). tauto. Qed.

  Lemma climb_right_ok c : forall h n left D, kids any h n -> cok any anyR h c ->
    let P0 := length (cbefore c) + length (inorder n) in
    P0 < length (inorder (plug n c)) -> Permutation (allpaths (cpath c) n) (cpath c :: left ++ D) ->
    exists s k, climb_right h n c left = Some s /\ leaf_edge (h + length c) (plug n c) (s_edge s) /\
      pos (s_edge s) = S P0 /\ nth_error (inorder (plug n c)) P0 = Some (s_kv s) /\
      kv_at (plug n c) (s_addr s) = Some (s_kv s) /\ length (fst (s_addr s)) <= h + length c /\
      s_left s = left ++ firstn k (spine c) /\
      Permutation (lpaths (hc (s_edge s))) (s_left s ++ D ++ lpaths c).
  Proof.
    induction c as [|f c IH]; intros h n left D Hk Hc P0 Hlt Hperm.
    - exfalso. unfold P0 in Hlt. simpl in Hlt. lia.
    - apply cok_top in Hc. destruct Hc as (Hf & Hl & Hr & Hc'). cbn [climb_right plug]. rewrite nlen_fill.
      assert (Ein : inorder (plug (fill f n) c) = (cbefore (f :: c) ++ inorder n) ++ after f ++ cafter c).
      { rewrite inorder_plug, inorder_fill by (auto; eapply cok_frames; eauto). cbn [cbefore]. now rewrite <- !app_assoc. }
      destruct (Nat.ltb_spec (fidx f) (length (fk f))) as [Hi|Hi].
      + destruct (@frame_right h f n Hf Hl Hr Hk Hi) as (x & e & f' & E1 & E2 & E3 & E4 & E5 & E6 & E7 & E8 & E9 & E10 & E11 & E12).
        cbn [fill kvs]. rewrite E1. fold (fill f n). rewrite E2.
        assert (Hc2 : cok any anyR h (f' :: c)) by (apply cok_top; auto).
        destruct (@first_leaf K V h e (f' :: c) E12 Hc2) as (lf & Elf & Hlf & Hi0 & Hcb & Hlp).
        rewrite Elf. exists (Step x (cpath c, fidx f) lf (left ++ [cpath (f :: c)])), 1.
        cbn [s_edge s_kv s_addr s_left plug] in *. split; [reflexivity|].
        rewrite E3 in Hlf. split; [exact Hlf|].
        split. { unfold pos. rewrite Hi0, Hcb. cbn [cbefore]. rewrite E8. unfold P0. cbn [cbefore]. rewrite !app_length. simpl. lia. }
        split. { rewrite Ein, E9. cbn [app]. apply nth_error_mid. rewrite app_length. reflexivity. }
        split. { rewrite <- (app_nil_r (cpath c)), kv_at_plug, kv_at_nil. exact E1. }
        split. { cbn [fst length]. unfold cpath. rewrite rev_length, map_length. lia. }
        split. { destruct c; reflexivity. }
        rewrite Hlp. cbn [lpaths]. rewrite E4, pathsfrom_app. cbn [pathsfrom Nat.add]. rewrite app_nil_r.
        change (length (fl f)) with (fidx f). rewrite <- cpath_cons.
        transitivity (lpaths c ++ pathsfrom (cpath c) 0 (fl f) ++ cpath (f :: c) :: left ++ D).
        { apply Permutation_app_head, Permutation_app_head. exact Hperm. }
        rewrite app_assoc. transitivity ((cpath (f :: c) :: left ++ D) ++ lpaths c ++ pathsfrom (cpath c) 0 (fl f)).
        { apply Permutation_app_comm. }
        cbn [app]. rewrite <- !app_assoc. cbn [app]. apply Permutation_middle.
      + assert (Hfr : fr f = []).
        { unfold frame_ok in Hf. unfold fidx in Hi. destruct (fr f); auto. simpl in Hf. lia. }
        assert (Haf : after f = []).
        { unfold after. rewrite skipn_all2 by lia. reflexivity. }
        specialize (IH (S h) (fill f n) (left ++ [cpath (f :: c)]) (D ++ pathsfrom (cpath c) 0 (fl f))).
        assert (EP : length (cbefore c) + length (inorder (fill f n)) = P0).
        { rewrite inorder_fill, Haf, !app_length by auto. unfold P0. cbn [cbefore length]. rewrite app_length. lia. }
        cbv zeta in IH. rewrite EP in IH.
        destruct IH as (s & k & Es & Hle & Hps & Hnth & Hkv & Hln & Hleft & Hpm); auto.
        { apply fill_kids. repeat (split; auto). }
        { rewrite allpaths_fill, Hfr. cbn [pathsfrom]. rewrite app_nil_r. rewrite <- cpath_cons.
          constructor. rewrite Hperm. rewrite <- !app_assoc. cbn [app].
          transitivity ((cpath (f :: c) :: left ++ D) ++ pathsfrom (cpath c) 0 (fl f)).
          { apply Permutation_app_comm. }
          cbn [app]. rewrite <- !app_assoc. apply Permutation_middle. }
        exists s, (S k). split; [exact Es|].
        replace (h + length (f :: c)) with (S h + length c) by (simpl; lia).
        split; [exact Hle|]. split; [exact Hps|]. split; [exact Hnth|]. split; [exact Hkv|]. split; [exact Hln|].
        split. { rewrite Hleft, <- app_assoc. reflexivity. }
        rewrite Hpm. cbn [lpaths]. apply Permutation_app_head. rewrite <- app_assoc. apply Permutation_app_head.
        apply Permutation_app_comm.
  Qed.

  Lemma climb_left_ok c : forall h n left D, kids any h n -> cok any anyR h c ->
    let P0 := length (cbefore c) in
    0 < P0 -> Permutation (allpaths (cpath c) n) (cpath c :: left ++ D) ->
    exists s k, climb_left h n c left = Some s /\ leaf_edge (h + length c) (plug n c) (s_edge s) /\
      S (pos (s_edge s)) = P0 /\ nth_error (inorder (plug n c)) (P0 - 1) = Some (s_kv s) /\
      kv_at (plug n c) (s_addr s) = Some (s_kv s) /\ length (fst (s_addr s)) <= h + length c /\
      s_left s = left ++ firstn k (spine c) /\
      Permutation (rpaths (hc (s_edge s))) (s_left s ++ D ++ rpaths c).
  Proof.
    induction c as [|f c IH]; intros h n left D Hk Hc P0 Hlt Hperm.
    - exfalso. unfold P0 in Hlt. simpl in Hlt. lia.
    - apply cok_top in Hc. destruct Hc as (Hf & Hl & Hr & Hc'). cbn [climb_left plug].
      destruct (Nat.ltb_spec 0 (fidx f)) as [Hi|Hi].
      + destruct (@frame_left h f n Hf Hl Hr Hk Hi) as (x & e & f' & E1 & E2 & E3 & E4 & E5 & E6 & E7 & E8 & E9 & E10 & E11 & E12).
        cbn [fill kvs]. rewrite E1. fold (fill f n). rewrite E2.
        assert (Hc2 : cok any anyR h (f' :: c)) by (apply cok_top; auto).
        destruct (@last_leaf K V h e (f' :: c) E12 Hc2) as (lf & Elf & Hlf & Hi0 & Hps & Hrp).
        rewrite Elf. exists (Step x (cpath c, fidx f - 1) lf (left ++ [cpath (f :: c)])), 1.
        cbn [s_edge s_kv s_addr s_left plug] in *. split; [reflexivity|].
        rewrite E3 in Hlf. split; [exact Hlf|].
        assert (EP : P0 = length (cbefore c) + length (before f') + length (inorder e) + 1).
        { unfold P0. cbn [cbefore]. rewrite E8, !app_length. simpl. lia. }
        split. { rewrite Hps, EP. cbn [cbefore]. rewrite app_length. lia. }
        split. { rewrite inorder_plug, <- E3, inorder_fill by (auto; eapply cok_frames; eauto).
          rewrite E9. rewrite <- !app_assoc. rewrite !app_assoc, <- (app_assoc _ (x :: _)). cbn [app]. apply nth_error_mid.
          rewrite !app_length. lia. }
        split. { rewrite <- (app_nil_r (cpath c)), kv_at_plug, kv_at_nil. exact E1. }
        split. { cbn [fst length]. unfold cpath. rewrite rev_length, map_length. lia. }
        split. { destruct c; reflexivity. }
        rewrite Hrp. cbn [rpaths]. rewrite E5. cbn [pathsfrom]. rewrite E6. rewrite <- cpath_cons.
        rewrite <- !app_assoc. rewrite Hperm. cbn [app]. rewrite <- !app_assoc. apply Permutation_middle.
      + assert (Hfl : fl f = []).
        { unfold fidx in Hi. destruct (fl f); auto. simpl in Hi. lia. }
        assert (Hbf : before f = []).
        { unfold before. rewrite Hfl. reflexivity. }
        specialize (IH (S h) (fill f n) (left ++ [cpath (f :: c)]) (D ++ pathsfrom (cpath c) (S (fidx f)) (fr f))).
        assert (EP : length (cbefore c) = P0).
        { unfold P0. cbn [cbefore]. rewrite Hbf, app_nil_r. reflexivity. }
        cbv zeta in IH. rewrite EP in IH.
        destruct IH as (s & k & Es & Hle & Hps & Hnth & Hkv & Hln & Hleft & Hpm); auto.
        { apply fill_kids. repeat (split; auto). }
        { rewrite allpaths_fill, Hfl. cbn [pathsfrom app]. rewrite <- cpath_cons.
          constructor. rewrite Hperm. rewrite <- !app_assoc. cbn [app]. rewrite <- app_assoc.
          apply Permutation_middle. }
        exists s, (S k). split; [exact Es|].
        replace (h + length (f :: c)) with (S h + length c) by (simpl; lia).
        split; [exact Hle|]. split; [exact Hps|]. split; [exact Hnth|]. split; [exact Hkv|]. split; [exact Hln|].
        split. { rewrite Hleft, <- app_assoc. reflexivity. }
        rewrite Hpm. cbn [rpaths]. rewrite <- app_assoc. reflexivity.
  Qed.

  Lemma next_unchecked_ok H T hd : leaf_edge H T hd -> pos hd < length (inorder T) ->
    exists s k, next_unchecked hd = Some s /\ leaf_edge H T (s_edge s) /\ pos (s_edge s) = S (pos hd) /\
      nth_error (inorder T) (pos hd) = Some (s_kv s) /\ kv_at T (s_addr s) = Some (s_kv s) /\
      length (fst (s_addr s)) <= H /\
      s_left s = firstn k (spine (hc hd)) /\ Permutation (lpaths (hc (s_edge s))) (s_left s ++ lpaths (hc hd)).
  Proof.
    intros Hl Hp. pose proof (leaf_edge_inorder Hl) as Ein. pose proof (leaf_path_length Hl) as Hpl.
    destruct Hl as (Hok & H0 & Hi). rewrite hok_any in Hok. destruct Hok as (ET & HH & Hk & Hc). rewrite H0 in *.
    unfold next_unchecked. destruct (Nat.ltb_spec (hi hd) (nlen (hn hd))) as [Hlt|Hge].
    - destruct (@pick_lt _ _ _ Hlt) as (ka & x & kz & Hpk). pose proof (pick_some _ _ Hpk) as [Ek Hka].
      assert (En : nth_error (kvs (hn hd)) (hi hd) = Some x) by (unfold pick in Hpk; destruct (nth_error (kvs (hn hd)) (hi hd)); congruence).
      rewrite En. eexists _, 0. split; [reflexivity|]. cbn [s_edge s_kv s_addr s_left].
      split. { split; [|split; [exact H0|cbn [hi hn]; lia]]. rewrite hok_any. cbn [hn hh hc]. rewrite H0. auto. }
      split. { unfold pos. cbn [hc hi]. lia. }
      split. { rewrite Ein, Ek, <- app_assoc, app_assoc. cbn [app]. apply nth_error_mid. rewrite app_length. unfold pos. lia. }
      split. { unfold haddr, hpath. rewrite <- ET, <- (app_nil_r (cpath (hc hd))), kv_at_plug. exact En. }
      split. { unfold haddr. cbn [fst]. lia. }
      split; auto.
    - destruct (@climb_right_ok (hc hd) 0 (hn hd) [] [] Hk Hc) as (s & k & Es & Hle & Hps & Hnth & Hkv & Hln & Hleft & Hpm).
      + rewrite ET. rewrite leaf_inorder by auto. unfold pos in Hp. unfold nlen in *. lia.
      + rewrite allpaths_eq. cbn [kids] in Hk. rewrite Hk. reflexivity.
      + rewrite ET in *. cbn [Nat.add] in *. rewrite HH in *.
        assert (EP : length (cbefore (hc hd)) + length (inorder (hn hd)) = pos hd).
        { rewrite leaf_inorder by auto. unfold pos, nlen in *. lia. }
        rewrite EP in *. exists s, k. repeat (split; auto).
  Qed.

  Lemma next_back_unchecked_ok H T hd : leaf_edge H T hd -> 0 < pos hd ->
    exists s k, next_back_unchecked hd = Some s /\ leaf_edge H T (s_edge s) /\ S (pos (s_edge s)) = pos hd /\
      nth_error (inorder T) (pos hd - 1) = Some (s_kv s) /\ kv_at T (s_addr s) = Some (s_kv s) /\
      length (fst (s_addr s)) <= H /\
      s_left s = firstn k (spine (hc hd)) /\ Permutation (rpaths (hc (s_edge s))) (s_left s ++ rpaths (hc hd)).
  Proof.
    intros Hl Hp. pose proof (leaf_edge_inorder Hl) as Ein. pose proof (leaf_path_length Hl) as Hpl.
    destruct Hl as (Hok & H0 & Hi). rewrite hok_any in Hok. destruct Hok as (ET & HH & Hk & Hc). rewrite H0 in *.
    unfold next_back_unchecked. destruct (Nat.ltb_spec 0 (hi hd)) as [Hlt|Hge].
    - destruct (@pick_lt _ (hi hd - 1) (kvs (hn hd))) as (ka & x & kz & Hpk); [unfold nlen in Hi; lia|].
      pose proof (pick_some _ _ Hpk) as [Ek Hka].
      assert (En : nth_error (kvs (hn hd)) (hi hd - 1) = Some x) by (unfold pick in Hpk; destruct (nth_error (kvs (hn hd)) (hi hd - 1)); congruence).
      rewrite En. eexists _, 0. split; [reflexivity|]. cbn [s_edge s_kv s_addr s_left].
      split. { split; [|split; [exact H0|cbn [hi hn]; lia]]. rewrite hok_any. cbn [hn hh hc]. rewrite H0. auto. }
      split. { unfold pos. cbn [hc hi]. lia. }
      split. { rewrite Ein, Ek, <- app_assoc, app_assoc. cbn [app]. apply nth_error_mid. rewrite app_length. unfold pos. lia. }
      split. { unfold hpath. rewrite <- ET, <- (app_nil_r (cpath (hc hd))), kv_at_plug. exact En. }
      split. { cbn [fst]. lia. }
      split; auto.
    - destruct (@climb_left_ok (hc hd) 0 (hn hd) [] [] Hk Hc) as (s & k & Es & Hle & Hps & Hnth & Hkv & Hln & Hleft & Hpm).
      + unfold pos in Hp. lia.
      + rewrite allpaths_eq. cbn [kids] in Hk. rewrite Hk. reflexivity.
      + rewrite ET in *. cbn [Nat.add] in *. rewrite HH in *.
        assert (EP : length (cbefore (hc hd)) = pos hd) by (unfold pos; lia).
        rewrite EP in *. exists s, k. repeat (split; auto).
  Qed.
End Step.
