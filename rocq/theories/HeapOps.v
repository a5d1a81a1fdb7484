(** * HeapOps: the operations of node.rs on one node or on a pair of siblings
    keep the heap a representation of the tree, and are free of undefined
    behaviour. *)
From Coq Require Import List Arith Lia Bool Permutation.
From Verif Require Import Base BTreeModel BTreeInv HeapModel HeapArr HeapRep HeapWp HeapNode.
Import ListNotations.
Set Implicit Arguments.
Unset Strict Implicit.

Lemma cnt_cons x (l : list nat) y :
  count_occ Nat.eq_dec (x :: l) y = count_occ Nat.eq_dec [x] y + count_occ Nat.eq_dec l y.
Proof. change (x :: l) with ([x] ++ l). apply count_occ_app. Qed.
(** permutations of addresses *)
Ltac perm := apply (Permutation_count_occ Nat.eq_dec); intro; unfold flocs, loc;
  repeat (progress (cbn [flat_map locs app]; rewrite ?flat_map_app, ?app_nil_r));
  repeat (unfold loc; rewrite ?count_occ_app;
    match goal with |- context [count_occ Nat.eq_dec (?x :: ?a) ?y] =>
      lazymatch a with [] => fail | _ => rewrite (cnt_cons x a y) end end);
  rewrite ?count_occ_app; unfold loc; cbn [count_occ]; lia.

Ltac lens := repeat (progress (rewrite ?app_length, ?map_length in *; cbn [length clen] in *));
  unfold CAPACITY, B_ in *; lia.

Lemma slice_insert_at (A : Type) i (x : A) a z : length a = i -> slice_insert i x (a ++ z) = a ++ x :: z.
Proof.
  intros <-. unfold slice_insert. rewrite firstn_app, skipn_app, Nat.sub_diag, firstn_all, skipn_all. cbn.
  now rewrite app_nil_r.
Qed.
Lemma slice_remove_at (A : Type) i (x : A) a z : length a = i -> slice_remove i (a ++ x :: z) = Some (x, a ++ z).
Proof.
  intros <-. unfold slice_remove, pick. rewrite nth_error_app2, Nat.sub_diag by lia. cbn [nth_error].
  rewrite firstn_app, Nat.sub_diag, firstn_all. cbn [firstn]. rewrite app_nil_r.
  replace (skipn (S (length a)) (a ++ x :: z)) with z; [reflexivity|].
  replace (S (length a)) with (length a + 1) by lia. rewrite skipn_app. replace (length a + 1 - length a) with 1 by lia.
  rewrite skipn_all2 by lia. reflexivity.
Qed.

Section Ops.
  Variables (K V : Type).
  Notation kv := (K * V)%type.
  Notation cell := (cell K V).
  Notation heap := (heap K V).
  Notation HM := (HM K V).
  Notation ltree := (ltree K V).
  Notation lroot := (@lroot K V).
  Implicit Types (hp : heap) (c : cell) (r : nref) (t e : ltree).

  Lemma is_int_app (a z : list ltree) t : is_int (a ++ t :: z) = true.
  Proof. now destruct a. Qed.

  (** *** Insertion into an internal node (node.rs 1067-1089) *)
  Lemma internal_insert_fit_ok l h i x er e ka kz a z hp :
    owned hp [LN l (ka ++ kz) (a ++ z); e] -> rl er = lroot e -> h = S (rh er) ->
    length ka = i -> length a = i + 1 -> length (ka ++ kz) < CAPACITY ->
    wp (h_internal_insert_fit (NR h l) i x er) hp (fun _ hp' =>
      evolves hp [LN l (ka ++ kz) (a ++ z); e] hp' [LN l (ka ++ x :: kz) (a ++ e :: z)] /\ keeps hp hp' l).
  Proof.
    intros O Er Hh Lk La Lc. destruct (owned_node O) as (N & (c & G & C) & Hk & _ & _ & _ & Ou & _).
    assert (is_int (a ++ z) = true) as HI by (destruct a; [cbn in La; lia|reflexivity]).
    rewrite HI in C. destruct C as [C1 C2 C3 C4 C5 C6]. rewrite map_length in C6.
    destruct (@prep K V hp _ [l] (a ++ e :: z) O) as [ND AL]; [perm|].
    assert (Forall (body hp) (a ++ e :: z)) as HS.
    { apply kids_body in Hk. apply Forall_app in Hk as [H1 H2]. apply Forall_app. split; [exact H1|].
      constructor; [|exact H2]. apply ow_body in Ou. now inversion Ou. }
    unfold h_internal_insert_fit. st wp_len; [exact G|]. rewrite C1. st wp_check; [now apply Nat.ltb_lt|].
    st wp_check; [cbn; rewrite Hh; apply Nat.eqb_refl|].
    st wp_new_edge; [exact G|rewrite C1, app_length; lia|].
    st wp_leaf_insert_fit; [exact N|exact G|exact (conj C3 C4)|exact C1|rewrite app_length; lia|exact Lc|].
    cbn [rl]. intros kA va hp1 U1 Hka Hva. rewrite (slice_insert_at x kz Lk) in Hka, Hva.
    st wp_len; [hgs|]. cbn [clen].
    st wp_slice; [hgs|exact C5|rewrite map_length; lia|].
    destruct (@slice_insert_holds loc _ _ _ (i + 1) (lroot e) C5) as (ea & Ee & He);
      [rewrite map_length, app_length; lia|rewrite map_length; unfold CAPACITY in Lc; lia|].
    rewrite map_length, C6 in Ee.
    cbn [rl]. rewrite Er. st wp_slice_ins; [exact N|hgs|exact Ee|]. intros hp2 U2. cbn in U2.
    pose proof (hup_trans U1 U2) as U. clear U1 U2.
    rewrite map_app, slice_insert_at in He by now rewrite map_length.
    rewrite !app_length in C6, Lc.
    assert (forall y, In y (map lroot (a ++ e :: z)) -> hget hp2 y = hget hp y) as E2.
    { intros y Hy. apply (hup_other U). intros ->. cbn [app] in ND. apply NoDup_cons_iff in ND. tauto. }
    pose proof (proj2 He) as Hz. apply at_app in Hz as [_ Hz]. rewrite map_length, La in Hz. cbn [Nat.add] in Hz.
    pose proof ND as ND0. rewrite map_app in ND0. cbn [map app] in ND0. explode.
    eapply wp_correct_links with (els := map lroot (e :: z)) (h := rh er); [exact Hh|hgs|exact C2|exact Hz| | | | | |].
    - rewrite map_length. cbn [length clen]. lia.
    - cbn [clen]. lia.
    - cbn. constructor; assumption.
    - cbn [rl]. dis l.
    - intros y Hy. rewrite E2 by (rewrite map_app; apply in_or_app; now right).
      apply AL. rewrite map_app. apply in_or_app. right. apply in_or_app. now right.
    - cbn [rl]. intros hp' R. pose proof R as [R1 R2].
      assert (hget hp' l = hget hp2 l) as Gl by (apply R1; dis l).
      split.
      + eapply assemble2 with (T := [l]) (T' := [l]) (S := a ++ e :: z); [exact O|perm|perm| | | | | |exact HS|].
        * constructor; [easy|constructor].
        * tauto.
        * tauto.
        * intros y Hy _ Hy'. rewrite R1, (hup_other U); [reflexivity|cbn in Hy; intros ->; tauto|dis y].
        * intros y Hy. rewrite <- E2 by exact Hy. eapply relinks_linkeq; eauto.
        * intro HB. constructor; [|constructor]. apply body_eq. split; [exact N|]. split.
          -- eexists. split; [rewrite Gl; apply (hup_same U)|]. rewrite is_int_app, map_app. constructor; cbn; auto.
             ++ lens.
             ++ lens.
          -- eapply kids_suffix with (hp := hp) (hp0 := hp2); [apply kids_app in Hk; apply Hk| | | |exact HB].
             ++ intros y Hy. rewrite R1 by dis y. apply E2. rewrite map_app. apply in_or_app. now left.
             ++ rewrite La. exact R.
             ++ intros y Hy. rewrite E2 by (rewrite map_app; apply in_or_app; now right).
                apply AL. rewrite map_app. apply in_or_app. right. apply in_or_app. now right.
      + eapply keeps_cell; [exact G|rewrite Gl; apply (hup_same U)|reflexivity|reflexivity].
  Qed.

  Lemma holds_mid (A : Type) (a : slots A) xs x ys cap :
    holds a (xs ++ x :: ys) cap -> arr_read a (length xs) = Some x /\ at_ a (length xs + 1) ys /\ holds a xs cap.
  Proof.
    intros [L H]. pose proof H as H'. apply at_app in H as [H1 H2]. cbn [Nat.add] in H2. split; [|split; [|now split]].
    - eapply at_read; eauto.
    - apply at_cons in H2 as [_ H2]. now rewrite Nat.add_1_r.
  Qed.

  Lemma fresh_ne hp0 new l : hget hp0 new = None -> (exists c, hget hp0 l = Some c) -> l <> new.
  Proof. intros H (c & G) ->. congruence. Qed.
  Lemma fresh_sroot hp0 new : hget hp0 new = None -> new <> sroot.
  Proof. intros H ->. discriminate H. Qed.

  (** *** Splitting a leaf (node.rs 1189-1233) *)
  Lemma leaf_split_ok l h i x ka kz new hp0 hp :
    owned hp0 [LN l (ka ++ x :: kz) []] -> length ka = i ->
    hget hp0 new = None -> hup hp0 new (Some (fresh_cell K V false)) hp ->
    wp (split_into (NR h l) i new false) hp (fun y hp' =>
      y = x /\ evolves hp0 [LN l (ka ++ x :: kz) []] hp' [LN l ka []; LN new kz []] /\
      keeps hp0 hp' l /\ hung hp' new None).
  Proof.
    intros O Lk Fn U0. destruct (owned_node O) as (N & (c & G & C) & Hk & _).
    destruct C as [C1 C2 C3 C4 C5 C6].
    pose proof (fresh_sroot Fn) as Nn. assert (l <> new) as Nl by (eapply fresh_ne; eauto).
    pose proof C3 as C3'. pose proof C4 as C4'. rewrite map_app in C3', C4'. cbn [map] in C3', C4'.
    destruct (holds_mid C3') as (K1 & K2 & K3). destruct (holds_mid C4') as (V1 & V2 & V3).
    rewrite map_length, Lk in K1, K2, V1, V2.
    pose proof (holds_len C3) as Lc. rewrite map_length, app_length in Lc. cbn [length] in Lc. rewrite app_length in C1. cbn [length] in C1.
    unfold split_into. st wp_not_shared; [exact N|]. st wp_len; [hgs|]. rewrite C1.
    st wp_check; [apply Nat.ltb_lt; lia|].
    st wp_keys; [hgs|exact C3|lens|]. st wp_a_read; [hgs|exact K1|].
    st wp_vals; [exact N|hgs|exact C4|lens|]. st wp_a_read; [hgs|exact V1|]. cbv zeta.
    destruct (@append_copy K (ckeys c) (i + 1) (map fst kz) (repeat None CAPACITY) [] CAPACITY (length kz) K2) as (ka' & Ea & Ha);
      [lens|rewrite (proj1 C3); lens|apply holds_repeat|cbn [length]; lens|].
    destruct (@append_copy V (cvals c) (i + 1) (map snd kz) (repeat None CAPACITY) [] CAPACITY (length kz) V2) as (va' & Ev & Hv);
      [lens|rewrite (proj1 C4); lens|apply holds_repeat|cbn [length]; lens|].
    replace (length ka + S (length kz) - i - 1) with (length kz) by lia.
    st wp_keys; [hgs|exact C3|lens|]. st wp_a_copy; [exact Nl|exact Nn|hgs|hgs|exact Ea|]. intros hp1 U1. cbn in U1.
    st wp_vals; [exact N|hgs|exact C4|lens|]. st wp_a_copy; [exact Nl|exact Nn|hgs|hgs|exact Ev|]. intros hp2 U2. cbn in U2.
    apply wp_bind, wp_ret.
    st wp_set_len; [exact N|hgs|]. intros hp3 U3. cbn in U3.
    st wp_set_len; [exact Nn|hgs|]. intros hp4 U4. cbn in U4. unfold with_len in U3, U4. cbn in U3, U4.
    apply wp_bind, wp_ret. apply wp_ret. split; [now destruct x|].
    assert (hget hp4 l = Some (Cell (cint c) (cpar c) (cpidx c) i (ckeys c) (cvals c) (cedges c))) as Gl by hgs.
    assert (hget hp4 new = Some (Cell false None None (length kz) ka' va' [])) as Gn by hgs.
    split; [|split].
    - eapply assemble2 with (T := [l]) (T' := [l; new]) (S := []); [exact O|perm|perm| | | | | |constructor|].
      + constructor; [cbn; intuition congruence|]. constructor; [easy|constructor].
      + intros y [<- | [<- | []]] Hn; [destruct Hn; now left|exact Fn].
      + intros y [<- | []] Hn. destruct Hn. now left.
      + intros y H1 H2 _. cbn in H1, H2. assert (y <> l) by intuition. assert (y <> new) by intuition. hg. reflexivity.
      + intros y [].
      + intros _. constructor; [|constructor; [|constructor]]; apply body_eq; (split; [assumption|]); (split; [|exact I]).
        * eexists. split; [exact Gl|]. constructor; cbn; auto.
        * eexists. split; [exact Gn|]. constructor; cbn; auto. split; [reflexivity|apply at_nil].
    - eapply keeps_cell; [exact G|exact Gl|reflexivity|reflexivity].
    - eexists. split; [exact Gn|]. split; [reflexivity|]. intros p j E. discriminate E.
  Qed.

  (** *** Splitting an internal node (node.rs 1262-1311) *)
  Lemma internal_split_ok l h i x ka kz a z new hp0 hp :
    owned hp0 [LN l (ka ++ x :: kz) (a ++ z)] -> length ka = i -> length a = i + 1 ->
    hget hp0 new = None -> hup hp0 new (Some (fresh_cell K V true)) hp ->
    wp (split_into (NR (S h) l) i new true) hp (fun y hp' =>
      y = x /\ evolves hp0 [LN l (ka ++ x :: kz) (a ++ z)] hp' [LN l ka a; LN new kz z] /\
      keeps hp0 hp' l /\ hung hp' new None).
  Proof.
    intros O Lk La Fn U0. destruct (owned_node O) as (N & (c & G & C) & Hk & _).
    assert (is_int (a ++ z) = true) as HI by (destruct a; [cbn in La; lia|reflexivity]).
    rewrite HI in C. destruct C as [C1 C2 C3 C4 C5 C6]. 
    destruct (@prep K V hp0 _ [l] (a ++ z) O) as [ND AL]; [perm|].
    pose proof (fresh_sroot Fn) as Nn. assert (l <> new) as Nl by (eapply fresh_ne; eauto).
    assert (~ In new (map lroot (a ++ z))) as Nnew.
    { intro Q. destruct (AL new) as (_ & cn & Gn); [apply in_or_app; now right|]. congruence. }
    pose proof C3 as C3'. pose proof C4 as C4'. rewrite map_app in C3', C4'. cbn [map] in C3', C4'.
    destruct (holds_mid C3') as (K1 & K2 & K3). destruct (holds_mid C4') as (V1 & V2 & V3).
    rewrite map_length, Lk in K1, K2, V1, V2.
    pose proof C5 as C5'. rewrite map_app in C5'. pose proof (proj2 C5') as E2. apply at_app in E2 as [_ E2].
    rewrite map_length, La in E2. cbn [Nat.add] in E2. assert (holds (cedges c) (map lroot a) (2 * B_)) as E1 by (eapply holds_prefix; exact C5').
    pose proof (holds_len C3) as Lc. rewrite map_length, app_length in Lc. cbn [length] in Lc. rewrite app_length in C1. cbn [length] in C1.
    assert (length z = length kz + 1) as Lz by lens.
    unfold split_into. apply wp_bind, wp_ret. st wp_len; [hgs|]. rewrite C1.
    st wp_check; [apply Nat.ltb_lt; lia|].
    st wp_keys; [hgs|exact C3|lens|]. st wp_a_read; [hgs|exact K1|].
    st wp_vals; [exact N|hgs|exact C4|lens|]. st wp_a_read; [hgs|exact V1|]. cbv zeta.
    destruct (@append_copy K (ckeys c) (i + 1) (map fst kz) (repeat None CAPACITY) [] CAPACITY (length kz) K2) as (ka' & Ea & Ha);
      [lens|rewrite (proj1 C3); lens|apply holds_repeat|cbn [length]; lens|].
    destruct (@append_copy V (cvals c) (i + 1) (map snd kz) (repeat None CAPACITY) [] CAPACITY (length kz) V2) as (va' & Ev & Hv);
      [lens|rewrite (proj1 C4); lens|apply holds_repeat|cbn [length]; lens|].
    destruct (@append_copy loc (cedges c) (i + 1) (map lroot z) (repeat None (2 * B_)) [] (2 * B_) (length kz + 1) E2) as (ea' & Ee & He);
      [lens|rewrite (proj1 C5); lens|apply holds_repeat|cbn [length]; lens|].
    replace (length ka + S (length kz) - i - 1) with (length kz) by lia.
    st wp_keys; [hgs|exact C3|lens|]. st wp_a_copy; [exact Nl|exact Nn|hgs|hgs|exact Ea|]. intros hp1 U1. cbn in U1.
    st wp_vals; [exact N|hgs|exact C4|lens|]. st wp_a_copy; [exact Nl|exact Nn|hgs|hgs|exact Ev|]. intros hp2 U2. cbn in U2.
    st wp_a_copy; [exact Nl|exact Nn|hgs|hgs|exact Ee|]. intros hp3 U3. cbn in U3.
    st wp_set_len; [exact N|hgs|]. intros hp4 U4. cbn in U4.
    st wp_set_len; [exact Nn|hgs|]. intros hp5 U5. cbn in U5. unfold with_len in U4, U5. cbn in U4, U5.
    assert (forall y, y <> l -> y <> new -> hget hp5 y = hget hp0 y) as X by (intros; hg; reflexivity).
    assert (hget hp5 l = Some (Cell (cint c) (cpar c) (cpidx c) i (ckeys c) (cvals c) (cedges c))) as Gl by hgs.
    assert (hget hp5 new = Some (Cell true None None (length kz) ka' va' ea')) as Gn by hgs.
    clear U1 U2 U3 U4 U5.
    pose proof ND as ND0. rewrite map_app in ND0. cbn [app] in ND0. explode.
    assert (forall y, In y (map lroot (a ++ z)) -> hget hp5 y = hget hp0 y) as X'.
    { intros y Hy. apply X; intros ->; [dis l|tauto]. }
    st wp_correct_links; [reflexivity|exact Gn|reflexivity|exact (proj2 He)|lens|lens| | | |].
    - assumption.
    - cbn [rl]. dis new.
    - intros y Hy. rewrite X' by (rewrite map_app; apply in_or_app; now right).
      apply AL. rewrite map_app. apply in_or_app. right. apply in_or_app. now right.
    - cbn [rl]. intros hp' R. pose proof R as [R1 R2]. apply wp_ret. split; [now destruct x|].
      assert (hget hp' l = hget hp5 l) as Gl' by (apply R1; dis l). rewrite Gl in Gl'.
      assert (hget hp' new = hget hp5 new) as Gn' by (apply R1; dis new). rewrite Gn in Gn'.
      split; [|split].
      + assert (Forall (body hp0) (a ++ z)) as HS by (eapply kids_body; eauto).
        eapply assemble2 with (T := [l]) (T' := [l; new]) (S := a ++ z); [exact O|perm|perm| | | | | |exact HS|].
        * constructor; [cbn; intuition congruence|]. constructor; [easy|constructor].
        * intros y [<- | [<- | []]] Hn; [destruct Hn; now left|exact Fn].
        * intros y [<- | []] Hn. destruct Hn. now left.
        * intros y H1' H2' H3'. cbn in H1', H2'. rewrite R1 by dis y. apply X; intuition.
        * intros y Hy. rewrite <- (X' y Hy). eapply relinks_linkeq; eauto.
        * intro HB. apply Forall_app in HB as [HBa HBz]. apply kids_app in Hk as [Hka Hkz].
          constructor; [|constructor; [|constructor]]; apply body_eq; (split; [assumption|]); split.
          -- eexists. split; [exact Gl'|]. assert (is_int a = true) as -> by (destruct a; [cbn in La; lia|reflexivity]).
             constructor; cbn; auto. lens.
          -- rewrite <- (app_nil_r a). eapply kids_suffix with (hp := hp0) (hp0 := hp') (z := []); [exact Hka| | | |now rewrite app_nil_r].
             ++ intros y Hy. rewrite R1 by dis y. apply X'. rewrite map_app. apply in_or_app. now left.
             ++ apply relinks_nil.
             ++ intros y [].
          -- eexists. split; [exact Gn'|]. assert (is_int z = true) as -> by (destruct z; [cbn in Lz; lia|reflexivity]).
             constructor; cbn; auto. lens.
          -- apply (@kids_suffix K V hp' hp5 hp' new [] z); [exact I|reflexivity|exact R| |exact HBz].
             intros y Hy. rewrite X' by (rewrite map_app; apply in_or_app; now right).
             apply AL. rewrite map_app. apply in_or_app. right. apply in_or_app. now right.
      + eapply keeps_cell; [exact G|exact Gl'|reflexivity|reflexivity].
      + eexists. split; [exact Gn'|]. split; [reflexivity|]. intros p j E. discriminate E.
  Qed.

  (** *** Pushing onto a leaf (node.rs 665-692) *)
  Lemma leaf_push_ok l h x ks hp :
    owned hp [LN l ks []] -> length ks < CAPACITY ->
    wp (leaf_push (NR h l) x) hp (fun _ hp' =>
      evolves hp [LN l ks []] hp' [LN l (ks ++ [x]) []] /\ keeps hp hp' l).
  Proof.
    intros O Lc. destruct (owned_node O) as (N & (c & G & C) & _). destruct C as [C1 C2 C3 C4 C5 C6].
    destruct (@push_holds K _ _ _ (fst x) C3) as (ka & Ek & Hk); [lens|].
    destruct (@push_holds V _ _ _ (snd x) C4) as (va & Ev & Hv); [lens|].
    rewrite map_length in Ek, Ev.
    unfold leaf_push. st wp_len; [exact G|]. rewrite C1. st wp_check; [now apply Nat.ltb_lt|]. st wp_not_shared; [exact N|].
    st wp_keys; [hgs|exact C3|lens|]. st wp_a_write; [exact N|hgs|exact Ek|]. intros hp1 U1. cbn in U1.
    st wp_vals; [exact N|hgs|exact C4|lens|]. st wp_a_write; [exact N|hgs|exact Ev|]. intros hp2 U2. cbn in U2.
    eapply wp_len_add; [exact N|hgs|]. intros hp3 U3. cbn in U3. unfold with_len in U3. cbn in U3.
    pose proof (hup_trans (hup_trans U1 U2) U3) as U. split.
    - eapply evolves_cell; [exact O|exact U|]. constructor; cbn; auto; [lens|now rewrite map_app|now rewrite map_app].
    - eapply keeps_hup; [exact G|exact U|reflexivity|reflexivity].
  Qed.
  Lemma leaf_push_front_ok l h x ks hp :
    owned hp [LN l ks []] -> length ks < CAPACITY ->
    wp (leaf_push_front (NR h l) x) hp (fun _ hp' =>
      evolves hp [LN l ks []] hp' [LN l (x :: ks) []] /\ keeps hp hp' l).
  Proof.
    intros O Lc. destruct (owned_node O) as (N & (c & G & C) & _). destruct C as [C1 C2 C3 C4 C5 C6].
    destruct (@slice_insert_holds K _ _ _ 0 (fst x) C3) as (ka & Ek & Hk); [lens|lens|].
    destruct (@slice_insert_holds V _ _ _ 0 (snd x) C4) as (va & Ev & Hv); [lens|lens|].
    rewrite map_length in Ek, Ev.
    unfold leaf_push_front. st wp_len; [exact G|]. rewrite C1. st wp_check; [now apply Nat.ltb_lt|]. st wp_not_shared; [exact N|].
    st wp_keys; [hgs|exact C3|lens|]. st wp_slice_ins; [exact N|hgs|exact Ek|]. intros hp1 U1. cbn in U1.
    st wp_vals; [exact N|hgs|exact C4|lens|]. st wp_slice_ins; [exact N|hgs|exact Ev|]. intros hp2 U2. cbn in U2.
    eapply wp_len_add; [exact N|hgs|]. intros hp3 U3. cbn in U3. unfold with_len in U3. cbn in U3.
    pose proof (hup_trans (hup_trans U1 U2) U3) as U. split.
    - eapply evolves_cell; [exact O|exact U|]. constructor; cbn; auto. lens.
    - eapply keeps_hup; [exact G|exact U|reflexivity|reflexivity].
  Qed.

  (** *** Pushing onto an internal node (node.rs 698-757) *)
  Lemma internal_push_ok l h x er e ks es hp :
    owned hp [LN l ks es; e] -> is_int es = true -> rl er = lroot e -> h = S (rh er) -> length ks < CAPACITY ->
    wp (internal_push (NR h l) x er) hp (fun _ hp' =>
      evolves hp [LN l ks es; e] hp' [LN l (ks ++ [x]) (es ++ [e])] /\ keeps hp hp' l).
  Proof.
    intros O HI Er Hh Lc. destruct (owned_node O) as (N & (c & G & C) & Hk & _ & _ & _ & Ou & _).
    rewrite HI in C. destruct C as [C1 C2 C3 C4 C5 C6].
    destruct (@prep K V hp _ [l] (es ++ [e]) O) as [ND AL]; [perm|].
    assert (Forall (body hp) (es ++ [e])) as HS.
    { apply Forall_app. split; [eapply kids_body; eauto|apply Ou]. }
    destruct (@push_holds K _ _ _ (fst x) C3) as (ka & Ek & Hka); [lens|].
    destruct (@push_holds V _ _ _ (snd x) C4) as (va & Ev & Hva); [lens|].
    destruct (@push_holds loc _ _ _ (lroot e) C5) as (ea & Ee & Hea); [lens|].
    rewrite map_length in Ek, Ev. rewrite C6 in Ee. rewrite <- Nat.add_1_r in Ee.
    unfold internal_push. st wp_check; [cbn; rewrite Hh; apply Nat.eqb_refl|].
    st wp_len; [exact G|]. rewrite C1. st wp_check; [now apply Nat.ltb_lt|].
    st wp_keys; [hgs|exact C3|lens|]. st wp_a_write; [exact N|hgs|exact Ek|]. intros hp1 U1. cbn in U1.
    st wp_vals; [exact N|hgs|exact C4|lens|]. st wp_a_write; [exact N|hgs|exact Ev|]. intros hp2 U2. cbn in U2.
    cbn [rl]. rewrite Er. st wp_a_write; [exact N|hgs|exact Ee|]. intros hp3 U3. cbn in U3.
    st wp_len_add; [exact N|hgs|]. intros hp4 U4. cbn in U4. unfold with_len in U4. cbn in U4.
    pose proof (hup_trans (hup_trans (hup_trans U1 U2) U3) U4) as U. clear U1 U2 U3 U4.
    st wp_new_edge; [hgs|lens|].
    pose proof ND as ND0. rewrite map_app in ND0. cbn [map app] in ND0. explode.
    assert (lroot e <> l) as Nel by (intros Q; dis l).
    destruct (AL (lroot e)) as (Nes & ce & Ge); [dis (lroot e)|].
    eapply wp_correct_parent_link; [exact Hh|hgs|exact C2| |exact Nes|hgs|].
    { cbn. eapply holds_read; [exact Hea|]. rewrite nth_error_app2 by lens. rewrite C6. replace (length ks + 1 - S (length ks)) with 0 by lia. reflexivity. }
    cbn [rl]. intros hp' U'.
    assert (hget hp' l = hget hp4 l) as Gl by (apply (hup_other U'); congruence). rewrite (hup_same U) in Gl.
    split.
    - eapply assemble2 with (T := [l]) (T' := [l]) (S := es ++ [e]); [exact O|perm|perm| | | | | |exact HS|].
      + constructor; [easy|constructor].
      + tauto.
      + tauto.
      + intros y Hy _ Hy'. rewrite (hup_other U') by (intros ->; dis (lroot e)). apply (hup_other U). intros ->. dis l.
      + intros y Hy. destruct (Nat.eq_dec y (lroot e)) as [-> | Hn].
        * right. rewrite (hup_same U'), Ge. eexists _, _. reflexivity.
        * left. rewrite (hup_other U') by exact Hn. apply (hup_other U). intros ->. dis l.
      + intro HB. constructor; [|constructor]. apply body_eq. split; [exact N|]. split.
        * eexists. split; [exact Gl|]. rewrite is_int_app, map_app. constructor; cbn; auto; rewrite ?map_app; auto; lens.
        * apply kids_iff. split; [exact HB|]. intros j y Hj. cbn [Nat.add]. rewrite map_app in Hj.
          apply kids_iff in Hk as [_ Hk]. destruct (Nat.lt_ge_cases j (length es)) as [L | L].
          -- rewrite nth_error_app1 in Hj by lens. pose proof (nth_error_In _ _ Hj) as Hin.
             eapply keeps_get; [|exact (Hk j y Hj)].
             rewrite (hup_other U') by (intros ->; dis (lroot e)). apply (hup_other U). intros ->. dis l.
          -- rewrite nth_error_app2 in Hj by lens. rewrite map_length in Hj. cbn [map] in Hj.
             destruct (j - length es) as [|[|]] eqn:Ej; cbn in Hj; try discriminate Hj. injection Hj as <-.
             eexists. split; [apply (hup_same U')|]. split; [reflexivity|]. intros p q Q. injection Q as _ <-. cbn. f_equal. lens.
    - eapply keeps_cell; [exact G|exact Gl|reflexivity|reflexivity].
  Qed.

  Lemma internal_push_front_ok l h x er e ks es hp :
    owned hp [LN l ks es; e] -> is_int es = true -> rl er = lroot e -> h = S (rh er) -> length ks < CAPACITY ->
    wp (internal_push_front (NR h l) x er) hp (fun _ hp' =>
      evolves hp [LN l ks es; e] hp' [LN l (x :: ks) (e :: es)] /\ keeps hp hp' l).
  Proof.
    intros O HI Er Hh Lc. destruct (owned_node O) as (N & (c & G & C) & Hk & _ & _ & _ & Ou & _).
    rewrite HI in C. destruct C as [C1 C2 C3 C4 C5 C6].
    destruct (@prep K V hp _ [l] (e :: es) O) as [ND AL]; [perm|].
    assert (Forall (body hp) (e :: es)) as HS.
    { constructor; [|eapply kids_body; eauto]. apply ow_body in Ou. now inversion Ou. }
    destruct (@slice_insert_holds K _ _ _ 0 (fst x) C3) as (ka & Ek & Hka); [lens|lens|].
    destruct (@slice_insert_holds V _ _ _ 0 (snd x) C4) as (va & Ev & Hva); [lens|lens|].
    destruct (@slice_insert_holds loc _ _ _ 0 (lroot e) C5) as (ea & Ee & Hea); [lens|lens|].
    rewrite map_length in Ek, Ev. rewrite C6 in Ee. rewrite <- Nat.add_1_r in Ee.
    unfold internal_push_front. st wp_check; [cbn; rewrite Hh; apply Nat.eqb_refl|].
    st wp_len; [exact G|]. rewrite C1. st wp_check; [now apply Nat.ltb_lt|].
    st wp_keys; [hgs|exact C3|lens|]. st wp_slice_ins; [exact N|hgs|exact Ek|]. intros hp1 U1. cbn in U1.
    st wp_vals; [exact N|hgs|exact C4|lens|]. st wp_slice_ins; [exact N|hgs|exact Ev|]. intros hp2 U2. cbn in U2.
    st wp_slice; [hgs|exact C5|lens|].
    cbn [rl]. rewrite Er. st wp_slice_ins; [exact N|hgs|exact Ee|]. intros hp3 U3. cbn in U3.
    st wp_len_add; [exact N|hgs|]. intros hp4 U4. cbn in U4. unfold with_len in U4. cbn in U4.
    pose proof (hup_trans (hup_trans (hup_trans U1 U2) U3) U4) as U. clear U1 U2 U3 U4.
    unfold correct_all_links. st wp_len; [hgs|]. 
    pose proof ND as ND0. cbn [map app] in ND0. explode.
    assert (forall y, In y (map lroot (e :: es)) -> hget hp4 y = hget hp y) as X.
    { intros y Hy. apply (hup_other U). intros ->. dis l. }
    eapply wp_correct_links with (els := map lroot (e :: es)) (h := rh er); [exact Hh|hgs|exact C2|exact (proj2 Hea)|lens|lens| | | |].
    - cbn. constructor; assumption.
    - cbn [rl]. dis l.
    - intros y Hy. rewrite X by exact Hy. apply AL. right. exact Hy.
    - cbn [rl]. intros hp' R. pose proof R as [R1 R2].
      assert (hget hp' l = hget hp4 l) as Gl by (apply R1; dis l). rewrite (hup_same U) in Gl.
      split.
      + eapply assemble2 with (T := [l]) (T' := [l]) (S := e :: es); [exact O|perm|perm| | | | | |exact HS|].
        * constructor; [easy|constructor].
        * tauto.
        * tauto.
        * intros y Hy _ Hy'. rewrite R1 by exact Hy'. apply (hup_other U). intros ->. dis l.
        * intros y Hy. rewrite <- (X y Hy). eapply relinks_linkeq; eauto.
        * intro HB. constructor; [|constructor]. apply body_eq. split; [exact N|]. split.
          -- eexists. split; [exact Gl|]. constructor; cbn; auto; lens.
          -- apply (@kids_suffix K V hp' hp4 hp' l [] (e :: es)); [exact I|reflexivity|exact R| |exact HB].
             intros y Hy. rewrite X by exact Hy. apply AL. right. exact Hy.
      + eapply keeps_cell; [exact G|exact Gl|reflexivity|reflexivity].
  Qed.
End Ops.
