(** * BTreeSurgery: merge, steal and bulk_steal between two siblings *)
From Coq Require Import List Arith Lia Bool.
From Verif Require Import Base BTreeModel BTreeInv BTreeLemmas.
Import ListNotations.
Set Implicit Arguments.

Lemma rev_cons_inv A (l : list A) x t : rev l = x :: t -> l = rev t ++ [x].
Proof. intros H. rewrite <- (rev_involutive l), H. reflexivity. Qed.

Section Surgery.
  Variables (K V : Type).
  Notation node := (node K V).
  Implicit Types (n l r p : node) (a z : list node) (pa pz : list (K * V)) (x y : K * V).

  (** the parent seen at the pair between children [l] and [r] *)
  Definition at_kv pa x pz a l r z : node := Node (pa ++ x :: pz) (a ++ l :: r :: z).

  Lemma kv_view P h p i : kids P (S h) p -> i < nlen p ->
    exists pa x pz a l r z, p = at_kv pa x pz a l r z /\ length pa = i /\ length a = i /\
      length z = length pz /\ Forall (sub P h) a /\ sub P h l /\ sub P h r /\ Forall (sub P h) z.
  Proof.
    intros [Hl Hall] Hi. unfold nlen in *.
    destruct (@pick_lt _ i (kvs p) Hi) as (pa & x & pz & Hp). apply pick_some in Hp. destruct Hp as [Ek Hpa].
    destruct (@pick_lt _ i (edges p)) as (a & l & rz & He); [lia|]. apply pick_some in He. destruct He as [Ee Ha].
    destruct rz as [|r z].
    { exfalso. rewrite Ek, Ee, !app_length in Hl. rewrite Ek, app_length in Hi. simpl in *. lia. }
    exists pa, x, pz, a, l, r, z. rewrite Ee in Hall. apply Forall_app in Hall. destruct Hall as [H1 H2].
    inversion H2; subst. inversion H4; subst.
    split; [unfold at_kv; rewrite <- Ek, <- Ee; apply node_eta|]. repeat (split; auto).
    rewrite Ek, Ee, !app_length in Hl. simpl in Hl. lia.
  Qed.

  Lemma at_kv_inorder pa x pz a l r z : length pa = length a -> length z = length pz ->
    inorder (at_kv pa x pz a l r z) =
    wl (map (@inorder K V) a) pa ++ (inorder l ++ x :: inorder r) ++ wr pz (map (@inorder K V) z).
  Proof.
    intros H1 H2. unfold at_kv. rewrite inorder_eq. cbn [kvs edges]. rewrite map_app. cbn [map].
    change (inorder l :: inorder r :: map (@inorder K V) z) with ([inorder l] ++ inorder r :: map (@inorder K V) z).
    rewrite app_assoc, weave_cut by (rewrite app_length, map_length; simpl; lia).
    rewrite <- (app_nil_r pa) at 1. rewrite weave_split by (rewrite ?map_length; simpl; auto).
    rewrite <- (app_nil_l pz) at 1. change (inorder r :: map (@inorder K V) z) with ([] ++ inorder r :: map (@inorder K V) z).
    rewrite weave_split by (rewrite ?map_length; auto). simpl. rewrite app_nil_r. now rewrite <- !app_assoc.
  Qed.
  Lemma at_one_inorder pa pz a n z : length pa = length a -> length z = length pz ->
    inorder (Node (pa ++ pz) (a ++ n :: z)) =
    wl (map (@inorder K V) a) pa ++ inorder n ++ wr pz (map (@inorder K V) z).
  Proof.
    intros H1 H2. rewrite inorder_eq. cbn [kvs edges]. rewrite map_app. cbn [map].
    apply weave_split; rewrite map_length; auto.
  Qed.
  Lemma at_kv_kids P h pa x pz a l r z : length pa = length a -> length z = length pz ->
    Forall (sub P h) a -> sub P h l -> sub P h r -> Forall (sub P h) z -> kids P (S h) (at_kv pa x pz a l r z).
  Proof.
    intros. apply kids_S. unfold at_kv, nlen. cbn [kvs edges]. rewrite !app_length. cbn [length]. split; [lia|].
    apply Forall_app. auto.
  Qed.
  Lemma at_one_kids P h pa pz a n z : length pa = length a -> length z = length pz ->
    Forall (sub P h) a -> sub P h n -> Forall (sub P h) z -> kids P (S h) (Node (pa ++ pz) (a ++ n :: z)).
  Proof.
    intros. apply kids_S. unfold nlen. cbn [kvs edges]. rewrite !app_length. cbn [length]. split; [lia|].
    apply Forall_app. auto.
  Qed.
  Lemma at_kv_nlen pa x pz a l r z : nlen (at_kv pa x pz a l r z) = length pa + S (length pz).
  Proof. unfold nlen, at_kv. cbn [kvs]. rewrite app_length. reflexivity. Qed.

  (** selecting from the view *)
  Lemma at_kv_picks pa x pz a l r z : length pa = length a ->
    pick (length a) (kvs (at_kv pa x pz a l r z)) = Some (pa, x, pz) /\
    pick (length a) (edges (at_kv pa x pz a l r z)) = Some (a, l, r :: z) /\
    nth_error (edges (at_kv pa x pz a l r z)) (length a) = Some l /\
    nth_error (edges (at_kv pa x pz a l r z)) (S (length a)) = Some r.
  Proof.
    intros H. unfold at_kv. cbn [kvs edges]. split; [now apply pick_app'|]. split; [now apply pick_app'|].
    split; [rewrite nth_error_app2, Nat.sub_diag by lia; reflexivity|].
    rewrite nth_error_app2 by lia. replace (S (length a) - length a) with 1 by lia. reflexivity.
  Qed.

  Definition joined l x r : node := Node (kvs l ++ x :: kvs r) (edges l ++ edges r).
  Lemma joined_nlen l x r : nlen (joined l x r) = nlen l + nlen r + 1.
  Proof. unfold nlen, joined. cbn [kvs]. rewrite app_length. simpl. lia. Qed.
  Lemma joined_kids P h l x r : kids P h l -> kids P h r -> kids P h (joined l x r).
  Proof.
    destruct h.
    - cbn [kids]. unfold joined. cbn [edges]. intros -> ->. reflexivity.
    - rewrite !kids_S. intros [H1 H2] [H3 H4]. rewrite joined_nlen. unfold joined. cbn [edges].
      rewrite app_length. split; [lia|]. apply Forall_app; auto.
  Qed.
  Lemma joined_inorder P h l x r : kids P h l -> kids P h r ->
    inorder (joined l x r) = inorder l ++ x :: inorder r.
  Proof.
    intros Hl Hr. unfold joined. rewrite !inorder_eq. cbn [kvs edges]. destruct h; cbn [kids] in *.
    - rewrite Hl, Hr. reflexivity.
    - rewrite map_app. apply weave_cut. rewrite map_length. apply Hl.
  Qed.

  Lemma can_merge_eq pa x pz a l r z : length pa = length a ->
    can_merge (at_kv pa x pz a l r z) (length a) = Some (nlen l + nlen r + 1 <=? CAPACITY).
  Proof.
    intros H. destruct (@at_kv_picks pa x pz a l r z H) as (_ & _ & E1 & E2). unfold can_merge. now rewrite E1, E2.
  Qed.
  Lemma merge_eq pa x pz a l r z : length pa = length a ->
    merge (at_kv pa x pz a l r z) (length a) = Some (Node (pa ++ pz) (a ++ joined l x r :: z)).
  Proof.
    intros H. destruct (@at_kv_picks pa x pz a l r z H) as (E1 & E2 & _ & _). unfold merge, slice_remove.
    now rewrite E1, E2.
  Qed.

  Lemma kids_snoc P h n k0 y : kids P (S h) n -> kvs n = k0 ++ [y] ->
    exists es e, edges n = es ++ [e] /\ length es = S (length k0).
  Proof.
    intros [Hl _] Ek. destruct (edges n) as [|e0 es] eqn:E using rev_ind; [discriminate|]. clear IHes.
    exists es, e0. split; auto. unfold nlen in Hl. rewrite Ek, !app_length in Hl. simpl in Hl. lia.
  Qed.

  Lemma steal_left_eq P h pa x pz a l r z : length pa = length a -> kids P h l -> kids P h r -> 1 <= nlen l ->
    exists y l' r', steal_left h (at_kv pa x pz a l r z) (length a) = Some (at_kv pa y pz a l' r' z) /\
      nlen l' = nlen l - 1 /\ nlen r' = nlen r + 1 /\ kids P h l' /\ kids P h r' /\
      inorder l' ++ y :: inorder r' = inorder l ++ x :: inorder r.
  Proof.
    intros Hlen Hkl Hkr Hn. destruct (@at_kv_picks pa x pz a l r z Hlen) as (E1 & E2 & _ & _).
    unfold steal_left. rewrite E1, E2. unfold pop. unfold nlen in *.
    destruct (rev (kvs l)) as [|y t] eqn:Er.
    { apply (f_equal (@length _)) in Er. rewrite rev_length in Er. simpl in Er. lia. }
    apply rev_cons_inv in Er. set (k0 := rev t) in *. rewrite Er. rewrite app_length. cbn [length].
    replace (length k0 + 1 - 1) with (length k0) by lia. rewrite firstn_app_len by auto.
    destruct h as [|h].
    - cbn [kids push_front] in *. do 3 eexists. split; [reflexivity|]. cbn [kvs edges length]. repeat split; auto; try lia.
      rewrite !inorder_eq. cbn [kvs edges]. rewrite Hkl, Hkr, Er. cbn [map weave]. now rewrite <- app_assoc.
    - destruct (@kids_snoc P h l k0 y Hkl Er) as (es & e & Ee & Hes). rewrite Ee.
      rewrite nth_error_app2 by lia. replace (length k0 + 1 - length es) with 0 by lia. cbn [nth_error].
      cbn [push_front]. rewrite firstn_app_len by lia.
      rewrite kids_S in Hkl. rewrite Ee in Hkl. destruct Hkl as [Hl1 Hl2]. apply Forall_app in Hl2. destruct Hl2 as [Hl2 Hl3].
      inversion Hl3; subst. rewrite kids_S in Hkr. destruct Hkr as [Hr1 Hr2].
      do 3 eexists. split; [reflexivity|]. rewrite !kids_S. unfold nlen in *. cbn [kvs edges length]. repeat split; auto; try lia.
      rewrite !inorder_eq. cbn [kvs edges map]. rewrite Er, Ee, map_app. cbn [map].
      rewrite weave_cut by (rewrite map_length; lia). rewrite <- app_assoc. f_equal. cbn [weave app].
      rewrite app_nil_r. reflexivity.
  Qed.

  Lemma steal_right_eq P h pa x pz a l r z : length pa = length a -> kids P h l -> kids P h r -> 1 <= nlen r ->
    exists y l' r', steal_right h (at_kv pa x pz a l r z) (length a) = Some (at_kv pa y pz a l' r' z) /\
      nlen l' = nlen l + 1 /\ nlen r' = nlen r - 1 /\ kids P h l' /\ kids P h r' /\
      inorder l' ++ y :: inorder r' = inorder l ++ x :: inorder r.
  Proof.
    intros Hlen Hkl Hkr Hn. destruct (@at_kv_picks pa x pz a l r z Hlen) as (E1 & E2 & _ & _).
    unfold steal_right. rewrite E1, E2. unfold pop_front, slice_remove, pick. unfold nlen in *.
    destruct (kvs r) as [|y k0] eqn:Er; [simpl in Hn; lia|]. cbn [nth_error firstn skipn app].
    destruct h as [|h].
    - cbn [kids push] in *. do 3 eexists. split; [reflexivity|]. cbn [kvs edges length]. rewrite app_length. cbn [length].
      repeat split; auto; try lia.
      rewrite !inorder_eq. cbn [kvs edges]. rewrite Hkl, Hkr, Er. cbn [map weave]. now rewrite <- app_assoc.
    - rewrite kids_S in Hkl. rewrite kids_S in Hkr. destruct Hkr as [Hr1 Hr2]. destruct Hkl as [Hl1 Hl2].
      unfold nlen in *. destruct (edges r) as [|e es] eqn:Ee; [discriminate|]. cbn [nth_error].
      cbn [push]. unfold nlen. rewrite firstn_all2 by lia. inversion Hr2; subst. rewrite Er in Hr1. simpl in Hr1.
      do 3 eexists. split; [reflexivity|]. rewrite !kids_S. unfold nlen in *. cbn [kvs edges length]. rewrite !app_length. cbn [length].
      repeat split; auto; try lia. { apply Forall_app; auto. }
      rewrite !inorder_eq. cbn [kvs edges map]. rewrite Er, Ee, map_app. cbn [map weave].
      rewrite weave_cut by (rewrite map_length; lia). cbn [weave]. rewrite app_nil_r, <- app_assoc. reflexivity.
  Qed.

  Lemma bulk_steal_left_eq P h pa x pz a l r z count : length pa = length a -> kids P h l -> kids P h r ->
    1 <= count <= nlen l ->
    exists y l' r', bulk_steal_left h (at_kv pa x pz a l r z) (length a) count = Some (at_kv pa y pz a l' r' z) /\
      nlen l' = nlen l - count /\ nlen r' = nlen r + count /\ kids P h l' /\ kids P h r' /\
      inorder l' ++ y :: inorder r' = inorder l ++ x :: inorder r.
  Proof.
    intros Hlen Hkl Hkr Hn. destruct (@at_kv_picks pa x pz a l r z Hlen) as (E1 & E2 & _ & _).
    unfold bulk_steal_left. rewrite E1, E2.
    destruct (Nat.eqb_spec count 0); [lia|]. destruct (Nat.ltb_spec (nlen l) count); [lia|]. cbn [orb].
    set (nl := nlen l - count). destruct (@pick_lt _ nl (kvs l)) as (lk & y & mv & Hp); [unfold nl, nlen in *; lia|].
    rewrite Hp. apply pick_some in Hp. destruct Hp as [Ek Hlk].
    assert (Hmv : length mv = count - 1).
    { subst nl. unfold nlen in *. apply (f_equal (@length _)) in Ek. rewrite app_length in Ek. simpl in *. lia. }
    destruct h as [|h].
    - cbn [kids] in *. do 3 eexists. split; [reflexivity|]. unfold nlen in *. cbn [kvs edges length]. rewrite app_length. cbn [length].
      repeat split; auto; try (unfold nlen; lia).
      rewrite !inorder_eq. cbn [kvs edges]. rewrite Hkl, Hkr, Ek. cbn [map weave]. rewrite <- app_assoc. reflexivity.
    - rewrite kids_S in Hkl. rewrite kids_S in Hkr. destruct Hkl as [Hl1 Hl2]. destruct Hkr as [Hr1 Hr2].
      rewrite <- (firstn_skipn (nl + 1) (edges l)) in Hl2. apply Forall_app in Hl2. destruct Hl2 as [Hl2 Hl3].
      do 3 eexists. split; [reflexivity|]. rewrite !kids_S. unfold nlen in *. cbn [kvs edges length]. rewrite !app_length. cbn [length].
      rewrite firstn_length, skipn_length. unfold nlen in nl, Hr1.
      repeat split; auto; try (unfold nlen in *; lia). { apply Forall_app; auto. }
      rewrite (inorder_eq l), !inorder_eq. cbn [kvs edges map]. rewrite Ek.
      rewrite <- (firstn_skipn (nl + 1) (edges l)) at 3. rewrite !map_app.
      rewrite !weave_cut; [now rewrite <- app_assoc| |]; rewrite map_length, ?firstn_length, ?skipn_length; unfold nlen in *; lia.
  Qed.

  Lemma bulk_steal_right_eq P h pa x pz a l r z count : length pa = length a -> kids P h l -> kids P h r ->
    1 <= count <= nlen r ->
    exists y l' r', bulk_steal_right h (at_kv pa x pz a l r z) (length a) count = Some (at_kv pa y pz a l' r' z) /\
      nlen l' = nlen l + count /\ nlen r' = nlen r - count /\ kids P h l' /\ kids P h r' /\
      inorder l' ++ y :: inorder r' = inorder l ++ x :: inorder r.
  Proof.
    intros Hlen Hkl Hkr Hn. destruct (@at_kv_picks pa x pz a l r z Hlen) as (E1 & E2 & _ & _).
    unfold bulk_steal_right. rewrite E1, E2.
    destruct (Nat.eqb_spec count 0); [lia|]. destruct (Nat.ltb_spec (nlen r) count); [lia|]. cbn [orb].
    destruct (@pick_lt _ (count - 1) (kvs r)) as (mv & y & rk & Hp); [unfold nlen in *; lia|].
    rewrite Hp. apply pick_some in Hp. destruct Hp as [Ek Hmv].
    assert (Hrk : length rk = nlen r - count).
    { unfold nlen in *. rewrite Ek, app_length. simpl. lia. }
    destruct h as [|h].
    - cbn [kids] in *. do 3 eexists. split; [reflexivity|]. unfold nlen in *. cbn [kvs edges length]. rewrite app_length. cbn [length].
      repeat split; auto; try (unfold nlen in *; lia).
      rewrite !inorder_eq. cbn [kvs edges]. rewrite Hkl, Hkr, Ek. cbn [map weave]. rewrite <- app_assoc. reflexivity.
    - rewrite kids_S in Hkl. rewrite kids_S in Hkr. destruct Hkl as [Hl1 Hl2]. destruct Hkr as [Hr1 Hr2].
      rewrite <- (firstn_skipn count (edges r)) in Hr2. apply Forall_app in Hr2. destruct Hr2 as [Hr2 Hr3].
      do 3 eexists. split; [reflexivity|]. rewrite !kids_S. unfold nlen in *. cbn [kvs edges length]. rewrite !app_length. cbn [length].
      rewrite firstn_length, skipn_length.
      repeat split; auto; try (unfold nlen in *; lia). { apply Forall_app; auto. }
      rewrite (inorder_eq r), !inorder_eq. cbn [kvs edges map]. rewrite Ek.
      rewrite <- (firstn_skipn count (edges r)) at 3. rewrite !map_app.
      rewrite !weave_cut; [now rewrite <- app_assoc| |]; rewrite map_length, ?firstn_length, ?skipn_length; unfold nlen in *; lia.
  Qed.
End Surgery.
