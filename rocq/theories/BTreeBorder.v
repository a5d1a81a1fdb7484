(** * BTreeBorder: repairing the right or left border of a tree *)
From Coq Require Import List Arith Lia Bool.
From Verif Require Import Base MapSpec BTreeModel BTreeIterModel BTreeBulkModel BTreeInv BTreeLemmas BTreeSurgery BTreeIter.
Import ListNotations.
Set Implicit Arguments.

Section Border.
  Variables (K V : Type).
  Notation node := (node K V).
  Implicit Types (n l r e p : node) (a z es : list node).

  (** everything off the right border satisfies [P], border nodes are not overfull *)
  Fixpoint rb (P : nat -> Prop) (h : nat) (n : node) : Prop :=
    match h with
    | 0 => edges n = []
    | S h' => exists es e, edges n = es ++ [e] /\ length es = nlen n /\ Forall (sub P h') es /\
                nlen e <= CAPACITY /\ rb P h' e
    end.
  Fixpoint lb (P : nat -> Prop) (h : nat) (n : node) : Prop :=
    match h with
    | 0 => edges n = []
    | S h' => exists e es, edges n = e :: es /\ length es = nlen n /\ Forall (sub P h') es /\
                nlen e <= CAPACITY /\ lb P h' e
    end.

  Lemma sub_any P h e : sub P h e -> sub any h e.
  Proof. intros [_ H]. split; [exact I|]. eapply kids_weaken; [|exact H]. intros; exact I. Qed.
  Lemma rb_shape P h : forall n, rb P h n -> kids any h n.
  Proof.
    induction h as [|h IH]; intros n H; [exact H|]. destruct H as (es & e & E & Hl & Hs & _ & He).
    rewrite kids_S, E, app_length. simpl. split; [lia|]. apply Forall_app. split.
    - eapply Forall_impl; [|exact Hs]. apply sub_any.
    - constructor; auto. split; [exact I|auto].
  Qed.
  Lemma lb_shape P h : forall n, lb P h n -> kids any h n.
  Proof.
    induction h as [|h IH]; intros n H; [exact H|]. destruct H as (e & es & E & Hl & Hs & _ & He).
    rewrite kids_S, E. simpl. split; [lia|]. constructor.
    - split; [exact I|auto].
    - eapply Forall_impl; [|exact Hs]. apply sub_any.
  Qed.
  Lemma kids_rb (P : nat -> Prop) h : (forall k, P k -> k <= CAPACITY) -> forall n, kids P h n -> rb P h n.
  Proof.
    intros HP. induction h as [|h IH]; intros n H; [exact H|]. rewrite kids_S in H. destruct H as [Hl Hf].
    destruct (edges n) as [|e es _] eqn:E using rev_ind; [discriminate|].
    rewrite app_length in Hl. simpl in Hl. apply Forall_app in Hf. destruct Hf as [Hf1 Hf2]. inversion Hf2 as [|? ? [He1 He2] _]; subst.
    exists es, e. rewrite E. repeat (split; auto). lia.
  Qed.
  Lemma kids_lb (P : nat -> Prop) h : (forall k, P k -> k <= CAPACITY) -> forall n, kids P h n -> lb P h n.
  Proof.
    intros HP. induction h as [|h IH]; intros n H; [exact H|]. rewrite kids_S in H. destruct H as [Hl Hf].
    destruct (edges n) as [|e es] eqn:E; [discriminate|]. inversion Hf as [|? ? [He1 He2] Hf2]; subst.
    exists e, es. rewrite E. simpl in Hl. repeat (split; auto).
  Qed.

  Lemma rb_view P h n : rb P (S h) n -> 1 <= nlen n ->
    exists pa x a l e, n = at_kv pa x [] a l e [] /\ length pa = length a /\ length a = nlen n - 1 /\
      Forall (sub P h) a /\ sub P h l /\ nlen e <= CAPACITY /\ rb P h e.
  Proof.
    intros (es & e & E & Hl & Hs & He1 & He2) Hn.
    destruct (kvs n) as [|x pa _] eqn:Ek using rev_ind; [unfold nlen in Hn; rewrite Ek in Hn; simpl in Hn; lia|].
    destruct es as [|l a _] using rev_ind; [simpl in Hl; lia|].
    apply Forall_app in Hs. destruct Hs as [Hs1 Hs2]. inversion Hs2; subst.
    unfold nlen in *. rewrite Ek, !app_length in *. simpl in *.
    exists pa, x, a, l, e. split; [rewrite (node_eta n), Ek, E; unfold at_kv; now rewrite <- app_assoc|].
    split; [lia|]. split; [lia|]. auto.
  Qed.
  Lemma lb_view P h n : lb P (S h) n -> 1 <= nlen n ->
    exists x pz e r z, n = at_kv [] x pz [] e r z /\ length z = length pz /\ length pz = nlen n - 1 /\
      Forall (sub P h) z /\ sub P h r /\ nlen e <= CAPACITY /\ lb P h e.
  Proof.
    intros (e & es & E & Hl & Hs & He1 & He2) Hn.
    destruct (kvs n) as [|x pz] eqn:Ek; [unfold nlen in Hn; rewrite Ek in Hn; simpl in Hn; lia|].
    destruct es as [|r z]; [simpl in Hl; lia|]. inversion Hs; subst.
    unfold nlen in *. rewrite Ek in *. simpl in *.
    exists x, pz, e, r, z. split; [rewrite (node_eta n), Ek, E; reflexivity|]. split; [lia|]. split; [lia|]. auto.
  Qed.

  Lemma at_kv_inj pa y y' pz a l l' r r' z : at_kv pa y pz a l r z = at_kv pa y' pz a l' r' z ->
    y = y' /\ l = l' /\ r = r'.
  Proof.
    unfold at_kv. intros E. injection E. intros E1 E2. apply app_inv_head in E1, E2. injection E1; injection E2; auto.
  Qed.

  (** bulk steals, with the edges of the results *)
  Lemma bulk_left_full h pa x pz a l r z count : length pa = length a -> kids any h l -> kids any h r ->
    1 <= count <= nlen l ->
    exists y l' r', bulk_steal_left h (at_kv pa x pz a l r z) (length a) count = Some (at_kv pa y pz a l' r' z) /\
      nlen l' = nlen l - count /\ nlen r' = nlen r + count /\
      inorder l' ++ y :: inorder r' = inorder l ++ x :: inorder r /\
      (h = 0 -> edges l' = [] /\ edges r' = []) /\
      (0 < h -> exists (e1 e2 : list node), edges l = e1 ++ e2 /\ edges l' = e1 /\ edges r' = e2 ++ edges r /\ length e2 = count /\ length e1 = S (nlen l')).
  Proof.
    intros Hlen Hkl Hkr Hc. destruct (@bulk_steal_left_eq K V any h pa x pz a l r z count Hlen Hkl Hkr Hc) as (y & l' & r' & E & H1 & H2 & H3 & H4 & H5).
    exists y, l', r'. split; auto. split; auto. split; auto. split; auto. split.
    - intros ->. split; auto.
    - intros Hh. unfold bulk_steal_left in E. destruct (@at_kv_picks K V pa x pz a l r z Hlen) as (E1 & E2 & _ & _). rewrite E1, E2 in E.
      destruct ((count =? 0) || (nlen l <? count)); [discriminate|].
      destruct (pick (nlen l - count) (kvs l)) as [[[lk y0] mv]|]; [|discriminate].
      destruct h as [|h]; [lia|].
      match type of E with Some ?A = Some ?B => assert (E0 : A = B) by congruence end.
      apply at_kv_inj in E0. destruct E0 as (_ & <- & <-). cbn [edges].
      exists (firstn (nlen l - count + 1) (edges l)), (skipn (nlen l - count + 1) (edges l)).
      rewrite firstn_skipn. rewrite kids_S in Hkl. destruct Hkl as [Hkl _].
      split; auto. split; auto. split; auto. rewrite skipn_length, firstn_length. split; [lia|].
      rewrite H1. lia.
  Qed.
  Lemma bulk_right_full h pa x pz a l r z count : length pa = length a -> kids any h l -> kids any h r ->
    1 <= count <= nlen r ->
    exists y l' r', bulk_steal_right h (at_kv pa x pz a l r z) (length a) count = Some (at_kv pa y pz a l' r' z) /\
      nlen l' = nlen l + count /\ nlen r' = nlen r - count /\
      inorder l' ++ y :: inorder r' = inorder l ++ x :: inorder r /\
      (h = 0 -> edges l' = [] /\ edges r' = []) /\
      (0 < h -> exists (e1 e2 : list node), edges r = e1 ++ e2 /\ edges l' = edges l ++ e1 /\ edges r' = e2 /\ length e1 = count /\ length e2 = S (nlen r')).
  Proof.
    intros Hlen Hkl Hkr Hc. destruct (@bulk_steal_right_eq K V any h pa x pz a l r z count Hlen Hkl Hkr Hc) as (y & l' & r' & E & H1 & H2 & H3 & H4 & H5).
    exists y, l', r'. split; auto. split; auto. split; auto. split; auto. split.
    - intros ->. split; auto.
    - intros Hh. unfold bulk_steal_right in E. destruct (@at_kv_picks K V pa x pz a l r z Hlen) as (E1 & E2 & _ & _). rewrite E1, E2 in E.
      destruct ((count =? 0) || (nlen r <? count)); [discriminate|].
      destruct (pick (count - 1) (kvs r)) as [[[mv y0] rk]|]; [|discriminate].
      destruct h as [|h]; [lia|].
      match type of E with Some ?A = Some ?B => assert (E0 : A = B) by congruence end.
      apply at_kv_inj in E0. destruct E0 as (_ & <- & <-). cbn [edges].
      exists (firstn count (edges r)), (skipn count (edges r)).
      rewrite firstn_skipn. rewrite kids_S in Hkr. destruct Hkr as [Hkr _].
      split; auto. split; auto. split; auto. rewrite skipn_length, firstn_length. split; [lia|].
      rewrite H2. lia.
  Qed.

  (** the two children after a bulk steal to the right *)
  Lemma steal_rb P h pa x a l e count : length pa = length a -> sub P h l -> rb P h e -> nlen e + count <= CAPACITY ->
    1 <= count <= nlen l ->
    exists y l' e', bulk_steal_left h (at_kv pa x [] a l e []) (length a) count = Some (at_kv pa y [] a l' e' []) /\
      nlen l' = nlen l - count /\ nlen e' = nlen e + count /\ kids P h l' /\ rb P h e' /\
      inorder l' ++ y :: inorder e' = inorder l ++ x :: inorder e.
  Proof.
    intros Hlen Hl He Hcap Hc. pose proof (sub_any Hl) as [_ Hka]. pose proof (rb_shape _ _ _ He) as Hke.
    destruct (@bulk_left_full h pa x [] a l e [] count Hlen Hka Hke Hc) as (y & l' & e' & E & N1 & N2 & Ei & E0 & ES).
    exists y, l', e'. split; auto. split; auto. split; auto.
    destruct h as [|h].
    - destruct (E0 eq_refl) as [G1 G2]. split; [exact G1|]. split; [exact G2|]. exact Ei.
    - destruct ES as (e1 & e2 & G1 & G2 & G3 & G4 & G5); [lia|]. destruct Hl as [_ Hl]. rewrite kids_S, G1 in Hl. destruct Hl as [_ Hl].
      apply Forall_app in Hl. destruct Hl as [Hl1 Hl2]. destruct He as (es & e0 & F1 & F2 & F3 & F4 & F5).
      split. { rewrite kids_S, G2. split; auto. }
      split; [|exact Ei]. exists (e2 ++ es), e0. rewrite G3, F1, app_assoc, app_length. split; auto. split; [lia|].
      split; [apply Forall_app; auto|]. auto.
  Qed.
  Lemma steal_lb P h x pz e r z count : sub P h r -> lb P h e -> nlen e + count <= CAPACITY ->
    1 <= count <= nlen r ->
    exists y e' r', bulk_steal_right h (at_kv [] x pz [] e r z) 0 count = Some (at_kv [] y pz [] e' r' z) /\
      nlen r' = nlen r - count /\ nlen e' = nlen e + count /\ kids P h r' /\ lb P h e' /\
      inorder e' ++ y :: inorder r' = inorder e ++ x :: inorder r.
  Proof.
    intros Hr He Hcap Hc. pose proof (sub_any Hr) as [_ Hka]. pose proof (lb_shape _ _ _ He) as Hke.
    destruct (@bulk_right_full h [] x pz [] e r z count eq_refl Hke Hka Hc) as (y & e' & r' & E & N1 & N2 & Ei & E0 & ES).
    exists y, e', r'. split; auto. split; auto. split; auto.
    destruct h as [|h].
    - destruct (E0 eq_refl) as [G1 G2]. split; [exact G2|]. split; [exact G1|]. exact Ei.
    - destruct ES as (e1 & e2 & G1 & G2 & G3 & G4 & G5); [lia|]. destruct Hr as [_ Hr]. rewrite kids_S, G1 in Hr. destruct Hr as [_ Hr].
      apply Forall_app in Hr. destruct Hr as [Hr1 Hr2]. destruct He as (e0 & es & F1 & F2 & F3 & F4 & F5).
      split. { rewrite kids_S, G3. split; auto. }
      split; [|exact Ei]. exists e0, (es ++ e1). rewrite G2, F1, app_length. split; [reflexivity|]. split; [lia|].
      split; [apply Forall_app; auto|]. auto.
  Qed.

  (** descending to the last / first child of the view *)
  Lemma descend_last pa x a l e : length pa = length a ->
    descend (at_kv pa x [] a l e []) (length a + 1) = Some (e, Frame (pa ++ [x]) (a ++ [l]) []).
  Proof.
    intros H. unfold descend, at_kv. cbn [edges kvs]. change (l :: [e]) with ([l] ++ [e]). rewrite app_assoc.
    rewrite pick_app' by (rewrite app_length; reflexivity). reflexivity.
  Qed.
  Lemma descend_first x pz e r z : descend (at_kv [] x pz [] e r z) 0 = Some (e, Frame (x :: pz) [] (r :: z)).
  Proof. reflexivity. Qed.
  Lemma fill_last pa x a l e : fill (Frame (pa ++ [x]) (a ++ [l]) []) e = at_kv pa x [] a l e [].
  Proof. unfold fill, at_kv. cbn [fk fl fr]. now rewrite <- app_assoc. Qed.
  Lemma fill_first x pz e r z : fill (Frame (x :: pz) [] (r :: z)) e = at_kv [] x pz [] e r z.
  Proof. reflexivity. Qed.

  Lemma at_kv_inorder_eq pa pz a z x x' l l' r r' : length pa = length a -> length z = length pz ->
    inorder l' ++ x' :: inorder r' = inorder l ++ x :: inorder r ->
    inorder (at_kv pa x' pz a l' r' z) = inorder (at_kv pa x pz a l r z).
  Proof. intros H1 H2 E. rewrite !at_kv_inorder by auto. now rewrite E. Qed.

  (** ** fix_right_edge *)
  Definition full (k : nat) : Prop := k = CAPACITY.
  (** the documented bounds of a non-root node *)
  Definition documented (k : nat) : Prop := MIN_LEN <= k <= CAPACITY.

  Lemma sub_full_doc h e : sub full h e -> sub documented h e.
  Proof.
    intros [H1 H2]. unfold full in H1. split; [unfold documented; rewrite H1; unfold MIN_LEN, CAPACITY; simpl; lia|].
    eapply kids_weaken; [|exact H2]. unfold full, documented. intros k ->. unfold MIN_LEN, CAPACITY; simpl; lia.
  Qed.

  Lemma fix_right_edge_ok h : forall n, rb full h n -> (0 < h -> 1 <= nlen n) ->
    exists n', fix_right_edge h n = Ret n' /\ kids documented h n' /\ nlen n' = nlen n /\ inorder n' = inorder n.
  Proof.
    induction h as [|h IH]; intros n Hrb Hn; [exists n; auto|].
    destruct (rb_view Hrb (Hn ltac:(lia))) as (pa & x & a & l & e & -> & Hpa & Ha & Hsa & Hl & He1 & He2).
    cbn [fix_right_edge]. specialize (Hn ltac:(lia)). rewrite at_kv_nlen in *. cbn [length] in *.
    replace (length pa + 1) with (S (length a)) in * by lia.
    destruct (@at_kv_picks K V pa x [] a l e [] Hpa) as (_ & _ & _ & En). rewrite En.
    assert (Hstep : exists y l' e',
      (if nlen e <? MIN_LEN then
         if S (length a) =? 0 then Panic
         else match bulk_steal_left h (at_kv pa x [] a l e []) (S (length a) - 1) (MIN_LEN - nlen e) with
              | Some n' => Ret n' | None => UB end
       else Ret (at_kv pa x [] a l e [])) = (Ret (at_kv pa y [] a l' e' []) : outcome Empty_set node) /\
      sub documented h l' /\ rb full h e' /\ documented (nlen e') /\
      inorder l' ++ y :: inorder e' = inorder l ++ x :: inorder e).
    { destruct (Nat.ltb_spec (nlen e) MIN_LEN) as [Hlt|Hge].
      - cbn [Nat.eqb]. replace (S (length a) - 1) with (length a) by lia.
        pose proof (proj1 Hl) as Hfull. unfold full in Hfull. assert (HC : CAPACITY = 11) by reflexivity. assert (HM : MIN_LEN = 5) by reflexivity.
        destruct (@steal_rb full h pa x a l e (MIN_LEN - nlen e) Hpa Hl He2) as (y & l' & e' & E & N1 & N2 & K1 & K2 & Ei); try lia.
        rewrite E. exists y, l', e'. split; auto. split.
        { split; [unfold documented; lia|].
          eapply kids_weaken; [|exact K1]. unfold full, documented. intros k ->. unfold MIN_LEN, CAPACITY; simpl; lia. }
        split; auto. split; auto. unfold documented; lia.
      - exists x, l, e. split; auto. split; [apply sub_full_doc; auto|]. split; auto. split; auto. unfold documented; lia. }
    destruct Hstep as (y & l' & e' & E & Hl' & He' & Hd & Ei).
    set (st := if nlen e <? MIN_LEN then _ else _) in *. rewrite E. rewrite at_kv_nlen. cbn [length].
    replace (length pa + 1) with (length a + 1) by lia. rewrite descend_last by auto.
    destruct (IH e' He') as (e'' & E2 & K2 & N2 & I2). { intros _. unfold documented, MIN_LEN in Hd. simpl in Hd. lia. }
    rewrite E2. cbn [omap]. rewrite fill_last. eexists. split; [reflexivity|]. split; [|split].
    - apply at_kv_kids; auto. { eapply Forall_impl; [|exact Hsa]. apply sub_full_doc. } split; auto. now rewrite N2.
    - rewrite at_kv_nlen. simpl. lia.
    - apply at_kv_inorder_eq; auto. now rewrite I2.
  Qed.

  (** ** fix_top *)
  Lemma empty_internal_inorder h n : kids any (S h) n -> nlen n = 0 -> exists e, edges n = [e] /\ inorder n = inorder e.
  Proof.
    intros [Hl _] Hn. rewrite Hn in Hl. destruct (edges n) as [|e [|]] eqn:E; try discriminate. exists e. split; auto.
    rewrite inorder_eq, E. unfold nlen in Hn. destruct (kvs n); [|discriminate]. simpl. now rewrite app_nil_r.
  Qed.

  Lemma fix_top_ok (X : nat -> node -> Prop) h :
    (forall h n, X h n -> kids any h n) -> (forall h n e, X (S h) n -> edges n = [e] -> X h e /\ nlen e <= CAPACITY) ->
    forall n, X h n -> nlen n <= CAPACITY ->
    exists n' h', fix_top h n = Some (n', h') /\ X h' n' /\ inorder n' = inorder n /\ nlen n' <= CAPACITY /\ (0 < h' -> 1 <= nlen n') /\ h' <= h.
  Proof.
    intros Hsh Hd. induction h as [|h IH]; intros n HX Hc; cbn [fix_top].
    - exists n, 0. repeat (split; auto). lia.
    - destruct (Nat.ltb_spec 0 (nlen n)) as [Hn|Hn].
      + exists n, (S h). repeat (split; auto).
      + destruct (empty_internal_inorder (Hsh _ _ HX)) as (e & E & Ei); [lia|]. unfold pop_level. rewrite E. cbn [nth_error].
        destruct (Hd _ _ _ HX E) as [He Hce]. destruct (IH e He Hce) as (n' & h' & E' & H1 & H2 & H3 & H4 & H5).
        exists n', h'. split; auto. split; auto. split; [congruence|]. repeat (split; auto).
  Qed.

  (** ** The border loops *)
  Lemma fair_cap k : fair k -> k <= CAPACITY.
  Proof. unfold fair. lia. Qed.

  Lemma joined_rb P h l x e : sub P h l -> rb P h e -> rb P h (joined l x e).
  Proof.
    intros [_ Hl] He. destruct h as [|h].
    - cbn [rb kids] in *. unfold joined. cbn [edges]. now rewrite Hl, He.
    - rewrite kids_S in Hl. destruct Hl as [Hl1 Hl2]. destruct He as (es & e0 & F1 & F2 & F3 & F4 & F5).
      exists (edges l ++ es), e0. unfold joined at 1. cbn [edges]. rewrite F1, app_assoc, app_length, joined_nlen. split; auto.
      split; [lia|]. split; [apply Forall_app; auto|]. auto.
  Qed.
  Lemma joined_lb P h e x r : lb P h e -> sub P h r -> lb P h (joined e x r).
  Proof.
    intros He [_ Hr]. destruct h as [|h].
    - cbn [lb kids] in *. unfold joined. cbn [edges]. now rewrite Hr, He.
    - rewrite kids_S in Hr. destruct Hr as [Hr1 Hr2]. destruct He as (e0 & es & F1 & F2 & F3 & F4 & F5).
      exists e0, (es ++ edges r). unfold joined at 1. cbn [edges]. rewrite F1, app_length, joined_nlen. split; auto.
      split; [lia|]. split; [apply Forall_app; auto|]. auto.
  Qed.
  Lemma joined_any_inorder h l x r : kids any h l -> kids any h r -> inorder (joined l x r) = inorder l ++ x :: inorder r.
  Proof. intros H1 H2. eapply joined_inorder; eauto. Qed.

  Lemma fix_right_loop_ok h : forall n, rb fair h n -> (0 < h -> 1 <= nlen n) -> nlen n <= CAPACITY ->
    exists n', fix_right_loop h n = Some n' /\ kids fair h n' /\ (nlen n' = nlen n \/ (0 < h /\ S (nlen n') = nlen n)) /\ inorder n' = inorder n.
  Proof.
    induction h as [|h IH]; intros n Hrb Hn Hcap; [exists n; auto|].
    destruct (rb_view Hrb (Hn ltac:(lia))) as (pa & x & a & l & e & -> & Hpa & Ha & Hsa & Hl & He1 & He2).
    cbn [fix_right_loop]. specialize (Hn ltac:(lia)). rewrite at_kv_nlen in *. cbn [length] in *.
    replace (length pa + 1) with (S (length a)) in * by lia. cbn [Nat.eqb]. replace (S (length a) - 1) with (length a) in * by lia.
    rewrite can_merge_eq by auto.
    pose proof (proj1 Hl) as Hfl. unfold fair, REAL_MIN in Hfl. pose proof (sub_any Hl) as [_ Hkl]. pose proof (rb_shape _ _ _ He2) as Hke.
    destruct (Nat.leb_spec (nlen l + nlen e + 1) CAPACITY) as [Hm|Hm].
    - rewrite merge_eq by auto.
      assert (Hd : descend (Node (pa ++ []) (a ++ [joined l x e])) (length a) = Some (joined l x e, Frame (pa ++ []) a [])).
      { unfold descend. cbn [edges kvs]. rewrite pick_app' by auto. reflexivity. }
      rewrite Hd. destruct (IH (joined l x e)) as (m' & E & Km & N & I2).
      { apply joined_rb; auto. } { rewrite joined_nlen. lia. } { rewrite joined_nlen. lia. }
      rewrite E. cbn [option_map]. eexists. split; [reflexivity|]. unfold fill. cbn [fk fl fr].
      rewrite joined_nlen in N. change (B_ - 2) with 4 in Hfl.
      split; [|split].
      + apply at_one_kids; auto. split; auto. unfold fair. change REAL_MIN with 4. assert (HC : CAPACITY = 11) by reflexivity. lia.
      + right. split; [lia|]. unfold nlen. cbn [kvs]. rewrite app_nil_r. lia.
      + rewrite at_one_inorder, at_kv_inorder by auto. rewrite I2, (@joined_any_inorder h) by auto. reflexivity.
    - destruct (@at_kv_picks K V pa x [] a l e [] Hpa) as (_ & _ & _ & En). replace (length a + 1) with (S (length a)) by lia. rewrite En.
      assert (Hstep : exists y l' e',
        (if nlen e <? MIN_LEN + 1 then bulk_steal_left h (at_kv pa x [] a l e []) (length a) (MIN_LEN + 1 - nlen e)
         else Some (at_kv pa x [] a l e [])) = Some (at_kv pa y [] a l' e' []) /\
        sub fair h l' /\ rb fair h e' /\ 6 <= nlen e' <= CAPACITY /\
        inorder l' ++ y :: inorder e' = inorder l ++ x :: inorder e).
      { assert (HC : CAPACITY = 11) by reflexivity. assert (HM : MIN_LEN = 5) by reflexivity. change (B_ - 2) with 4 in Hfl.
        destruct (Nat.ltb_spec (nlen e) (MIN_LEN + 1)) as [Hlt|Hge].
        - destruct (@steal_rb fair h pa x a l e (MIN_LEN + 1 - nlen e) Hpa Hl He2) as (y & l' & e' & E & N1 & N2 & K1 & K2 & Ei); try lia.
          rewrite E. exists y, l', e'. split; auto. split; [split; [unfold fair; change REAL_MIN with 4; lia|auto]|].
          split; auto. split; [lia|auto].
        - exists x, l, e. repeat (split; auto); lia. }
      destruct Hstep as (y & l' & e' & E & Hl' & He' & Hd & Ei). rewrite E.
      replace (S (length a)) with (length a + 1) by lia. rewrite descend_last by auto.
      destruct (IH e' He') as (e'' & E2 & K2 & N2 & I2); try lia.
      rewrite E2. cbn [option_map]. rewrite fill_last. eexists. split; [reflexivity|]. split; [|split].
      + apply at_kv_kids; auto. split; auto. unfold fair. change REAL_MIN with 4. assert (HC : CAPACITY = 11) by reflexivity. lia.
      + left. rewrite at_kv_nlen. simpl. lia.
      + apply at_kv_inorder_eq; auto. now rewrite I2.
  Qed.

  Lemma fix_left_loop_ok h : forall n, lb fair h n -> (0 < h -> 1 <= nlen n) -> nlen n <= CAPACITY ->
    exists n', fix_left_loop h n = Some n' /\ kids fair h n' /\ (nlen n' = nlen n \/ (0 < h /\ S (nlen n') = nlen n)) /\ inorder n' = inorder n.
  Proof.
    induction h as [|h IH]; intros n Hrb Hn Hcap; [exists n; auto|].
    destruct (lb_view Hrb (Hn ltac:(lia))) as (x & pz & e & r & z & -> & Hz & Ha & Hsa & Hr & He1 & He2).
    cbn [fix_left_loop]. specialize (Hn ltac:(lia)). rewrite at_kv_nlen in *. cbn [length Nat.add Nat.eqb] in *.
    change (can_merge (at_kv [] x pz [] e r z) 0) with (can_merge (at_kv [] x pz [] e r z) (length ([] : list node))).
    rewrite can_merge_eq by auto.
    pose proof (proj1 Hr) as Hfl. unfold fair, REAL_MIN in Hfl. pose proof (sub_any Hr) as [_ Hkr]. pose proof (lb_shape _ _ _ He2) as Hke.
    destruct (Nat.leb_spec (nlen e + nlen r + 1) CAPACITY) as [Hm|Hm].
    - change (merge (at_kv [] x pz [] e r z) 0) with (merge (at_kv [] x pz [] e r z) (length ([] : list node))).
      rewrite merge_eq by auto.
      assert (Hd : descend (Node ([] ++ pz) ([] ++ joined e x r :: z)) 0 = Some (joined e x r, Frame pz [] z)) by reflexivity.
      rewrite Hd. destruct (IH (joined e x r)) as (m' & E & Km & N & I2).
      { apply joined_lb; auto. } { rewrite joined_nlen. lia. } { rewrite joined_nlen. lia. }
      rewrite E. cbn [option_map]. eexists. split; [reflexivity|]. unfold fill. cbn [fk fl fr].
      rewrite joined_nlen in N. change (B_ - 2) with 4 in Hfl.
      change (Node pz ([] ++ m' :: z)) with (Node ([] ++ pz) ([] ++ m' :: z)).
      split; [|split].
      + apply at_one_kids; auto. split; auto. unfold fair. change REAL_MIN with 4. assert (HC : CAPACITY = 11) by reflexivity. lia.
      + right. split; [lia|]. unfold nlen. cbn [kvs app]. lia.
      + rewrite at_one_inorder, at_kv_inorder by auto. rewrite I2, (@joined_any_inorder h) by auto. reflexivity.
    - change (nth_error (edges (at_kv [] x pz [] e r z)) 0) with (Some e). cbv iota beta.
      assert (Hstep : exists y e' r',
        (if nlen e <? MIN_LEN + 1 then bulk_steal_right h (at_kv [] x pz [] e r z) 0 (MIN_LEN + 1 - nlen e)
         else Some (at_kv [] x pz [] e r z)) = Some (at_kv [] y pz [] e' r' z) /\
        sub fair h r' /\ lb fair h e' /\ 6 <= nlen e' <= CAPACITY /\
        inorder e' ++ y :: inorder r' = inorder e ++ x :: inorder r).
      { assert (HC : CAPACITY = 11) by reflexivity. assert (HM : MIN_LEN = 5) by reflexivity. change (B_ - 2) with 4 in Hfl.
        destruct (Nat.ltb_spec (nlen e) (MIN_LEN + 1)) as [Hlt|Hge].
        - destruct (@steal_lb fair h x pz e r z (MIN_LEN + 1 - nlen e) Hr He2) as (y & e' & r' & E & N1 & N2 & K1 & K2 & Ei); try lia.
          rewrite E. exists y, e', r'. split; auto. split; [split; [unfold fair; change REAL_MIN with 4; lia|auto]|].
          split; auto. split; [lia|auto].
        - exists x, e, r. repeat (split; auto); lia. }
      destruct Hstep as (y & e' & r' & E & Hr' & He' & Hd & Ei). rewrite E. rewrite descend_first.
      destruct (IH e' He') as (e'' & E2 & K2 & N2 & I2); try lia.
      rewrite E2. cbn [option_map]. rewrite fill_first. eexists. split; [reflexivity|]. split; [|split].
      + apply at_kv_kids; auto. split; auto. unfold fair. change REAL_MIN with 4. assert (HC : CAPACITY = 11) by reflexivity. lia.
      + left. rewrite at_kv_nlen. simpl. lia.
      + apply at_kv_inorder_eq; auto. now rewrite I2.
  Qed.

  Lemma rb_single P h n e : rb P (S h) n -> edges n = [e] -> rb P h e /\ nlen e <= CAPACITY.
  Proof.
    intros (es & e0 & E & _ & _ & H1 & H2) E2. rewrite E2 in E. change [e] with ([] ++ [e]) in E. apply app_inj_tail in E.
    destruct E as [_ ->]. auto.
  Qed.
  Lemma lb_single P h n e : lb P (S h) n -> edges n = [e] -> lb P h e /\ nlen e <= CAPACITY.
  Proof. intros (e0 & es & E & _ & _ & H1 & H2) E2. rewrite E2 in E. injection E. intros _ ->. auto. Qed.
  Lemma kids_single h n e : kids fair (S h) n -> edges n = [e] -> kids fair h e /\ nlen e <= CAPACITY.
  Proof.
    intros H E. rewrite kids_S in H. destruct H as [_ H]. rewrite E in H. inversion H as [|? ? [H1 H2] _]; subst. split; auto.
    apply fair_cap; auto.
  Qed.

  Lemma fix_right_border_ok h n : rb fair h n -> nlen n <= CAPACITY ->
    exists n' h', fix_right_border n h = Some (n', h') /\ balanced h' n' /\ inorder n' = inorder n /\ h' <= h.
  Proof.
    intros Hrb Hc. unfold fix_right_border, fix_border.
    destruct (@fix_top_ok (rb fair) h (@rb_shape fair) (@rb_single fair) n Hrb Hc) as (n1 & h1 & E1 & R1 & I1 & C1 & N1 & L1). rewrite E1.
    destruct (@fix_right_loop_ok h1 n1 R1 N1 C1) as (n2 & E2 & K2 & N2 & I2). rewrite E2.
    destruct (@fix_top_ok (kids fair) h1 (@kids_shape K V fair) kids_single n2 K2) as (n3 & h3 & E3 & R3 & I3 & C3 & N3 & L3); [lia|].
    rewrite E3. exists n3, h3. split; auto. split; [|split; [congruence|lia]]. split; auto. split; auto.
  Qed.
  Lemma fix_left_border_ok h n : lb fair h n -> nlen n <= CAPACITY ->
    exists n' h', fix_left_border n h = Some (n', h') /\ balanced h' n' /\ inorder n' = inorder n /\ h' <= h.
  Proof.
    intros Hrb Hc. unfold fix_left_border, fix_border.
    destruct (@fix_top_ok (lb fair) h (@lb_shape fair) (@lb_single fair) n Hrb Hc) as (n1 & h1 & E1 & R1 & I1 & C1 & N1 & L1). rewrite E1.
    destruct (@fix_left_loop_ok h1 n1 R1 N1 C1) as (n2 & E2 & K2 & N2 & I2). rewrite E2.
    destruct (@fix_top_ok (kids fair) h1 (@kids_shape K V fair) kids_single n2 K2) as (n3 & h3 & E3 & R3 & I3 & C3 & N3 & L3); [lia|].
    rewrite E3. exists n3, h3. split; auto. split; [|split; [congruence|lia]]. split; auto. split; auto.
  Qed.

  (** ** dfs counts *)
  Lemma list_sum_weave (es : list (list (K * V))) ks : length es = S (length ks) -> forall (dl : list nat), dl = map (@length (K * V)) es ->
    length (weave es ks) = length ks + list_sum dl.
  Proof.
    revert es. induction ks as [|k ks IH]; intros [|e es] Hl dl ->; simpl in *; try discriminate.
    - destruct es; [|discriminate]. simpl. rewrite app_nil_r. lia.
    - rewrite app_length. simpl. rewrite (IH es) with (dl := map (@length (K * V)) es) by (auto; lia). lia.
  Qed.
  Lemma dfs_ok h : forall n, kids any h n -> dfs h n = length (inorder n).
  Proof.
    induction h as [|h IH]; intros n Hk; cbn [dfs].
    - rewrite leaf_inorder by auto. reflexivity.
    - rewrite kids_S in Hk. destruct Hk as [Hl Hf]. rewrite inorder_eq.
      rewrite list_sum_weave with (dl := map (dfs h) (edges n)); auto.
      + rewrite map_length. exact Hl.
      + rewrite map_map. apply map_ext_in. intros e He. rewrite Forall_forall in Hf. apply IH. apply Hf; auto.
  Qed.
End Border.
