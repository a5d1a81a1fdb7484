(** * HeapOps2: taking pairs out of nodes, levels, merge, steal. *)
From Coq Require Import List Arith Lia Bool Permutation.
From Verif Require Import Base BTreeModel BTreeInv HeapModel HeapArr HeapRep HeapWp HeapNode HeapOps.
Import ListNotations.
Set Implicit Arguments.
Unset Strict Implicit.

Section Ops.
  Variables (K V : Type).
  Notation kv := (K * V)%type.
  Notation cell := (cell K V).
  Notation heap := (heap K V).
  Notation HM := (HM K V).
  Notation ltree := (ltree K V).
  Notation lroot := (@lroot K V).
  Implicit Types (hp : heap) (c : cell) (t e : ltree).

  Lemma pair_eta (x : kv) : (fst x, snd x) = x.
  Proof. now destruct x. Qed.

  (** *** pop (node.rs 762-787) *)
  Lemma leaf_pop_ok l x ks hp :
    owned hp [LN l (ks ++ [x]) []] ->
    wp (h_pop (NR 0 l)) hp (fun r hp' =>
      r = (x, None) /\ evolves hp [LN l (ks ++ [x]) []] hp' [LN l ks []] /\ keeps hp hp' l).
  Proof.
    intros O. destruct (owned_node O) as (N & (c & G & C) & _). destruct C as [C1 C2 C3 C4 C5 C6].
    pose proof C3 as C3'. pose proof C4 as C4'. rewrite map_app in C3', C4'. cbn [map] in C3', C4'.
    destruct (holds_mid C3') as (K1 & _ & K3). destruct (holds_mid C4') as (V1 & _ & V3).
    rewrite map_length in K1, V1. rewrite app_length in C1. cbn [length] in C1.
    unfold h_pop. st wp_len; [hgs|]. rewrite C1. st wp_check; [apply Nat.ltb_lt; lia|].
    replace (length ks + 1 - 1) with (length ks) by lia.
    st wp_keys; [hgs|exact C3|lens|]. st wp_a_read; [hgs|exact K1|].
    st wp_vals; [exact N|hgs|exact C4|lens|]. st wp_a_read; [hgs|exact V1|].
    apply wp_bind. cbn [rh]. apply wp_ret. st wp_len_sub; [exact N|hgs|lia|].
    intros hp1 U. cbn in U. unfold with_len in U. apply wp_ret. rewrite pair_eta. split; [reflexivity|]. split.
    - eapply evolves_cell; [exact O|exact U|]. constructor; cbn; auto; lens.
    - eapply keeps_hup; [exact G|exact U|reflexivity|reflexivity].
  Qed.

  Lemma internal_pop_ok l h x e ks es hp :
    owned hp [LN l (ks ++ [x]) (es ++ [e])] ->
    wp (h_pop (NR (S h) l)) hp (fun r hp' =>
      r = (x, Some (NR h (lroot e))) /\
      evolves hp [LN l (ks ++ [x]) (es ++ [e])] hp' [LN l ks es; e] /\ keeps hp hp' l).
  Proof.
    intros O. destruct (owned_node O) as (N & (c & G & C) & Hk & _).
    rewrite is_int_app in C. destruct C as [C1 C2 C3 C4 C5 C6].
    destruct (@prep K V hp _ [l] (es ++ [e]) O) as [ND AL]; [perm|].
    assert (Forall (body hp) (es ++ [e])) as HS by (eapply kids_body; eauto).
    pose proof C3 as C3'. pose proof C4 as C4'. rewrite map_app in C3', C4'. cbn [map] in C3', C4'.
    destruct (holds_mid C3') as (K1 & _ & K3). destruct (holds_mid C4') as (V1 & _ & V3).
    pose proof C5 as C5'. rewrite map_app in C5'. cbn [map] in C5'. destruct (holds_mid C5') as (E1 & _ & E3).
    rewrite map_length in K1, V1, E1. rewrite app_length in C1. cbn [length] in C1.
    assert (length es = length ks + 1) as Le by lens. rewrite Le in E1.
    pose proof ND as ND0. rewrite map_app in ND0. cbn [map app] in ND0. explode.
    assert (lroot e <> l) as Nel by (intros Q; dis l).
    destruct (AL (lroot e)) as (Nes & ce & Ge); [dis (lroot e)|].
    unfold h_pop. st wp_len; [hgs|]. rewrite C1. st wp_check; [apply Nat.ltb_lt; lia|].
    replace (length ks + 1 - 1) with (length ks) by lia.
    st wp_keys; [hgs|exact C3|lens|]. st wp_a_read; [hgs|exact K1|].
    st wp_vals; [exact N|hgs|exact C4|lens|]. st wp_a_read; [hgs|exact V1|].
    apply wp_bind. cbn [rh]. st wp_a_read; [hgs|exact E1|].
    st wp_clear_parent; [exact Nes|hgs|]. intros hp1 U1. apply wp_ret.
    st wp_len_sub; [exact N|hgs|lia|]. intros hp' U2. cbn in U2. unfold with_len in U2. cbn in U2. apply wp_ret.
    rewrite pair_eta. split; [reflexivity|].
    assert (forall y, y <> l -> y <> lroot e -> hget hp' y = hget hp y) as X by (intros; hg; reflexivity).
    pose proof (hup_same U2) as Gl.
    split.
    - eapply assemble2 with (T := [l]) (T' := [l]) (S := es ++ [e]); [exact O|perm|perm| | | | | |exact HS|].
      + constructor; [easy|constructor].
      + tauto.
      + tauto.
      + intros y Hy _ Hy'. apply X; intros ->; [dis l|dis (lroot e)].
      + intros y Hy. destruct (Nat.eq_dec y (lroot e)) as [-> | Hn].
        * right. rewrite (hup_other U2) by exact Nel. rewrite (hup_same U1), Ge. eexists _, _. reflexivity.
        * left. apply X; [intros ->; dis l|exact Hn].
      + intro HB. apply Forall_app in HB as [HB1 HB2]. constructor; [|exact HB2]. apply body_eq. split; [exact N|].
        assert (is_int es = true) as -> by (destruct es; [cbn in Le; lia|reflexivity]). split.
        * eexists. split; [exact Gl|]. constructor; cbn; auto; lens.
        * apply kids_app in Hk as [Hk _].
          assert (kids_ok hp' l 0 (es ++ [])) as Q; [|now rewrite app_nil_r in Q].
          eapply kids_suffix with (hp := hp) (hp0 := hp'); [exact Hk| |apply relinks_nil|intros y []|now rewrite app_nil_r].
          intros y Hy. apply X; intros ->; [dis l|dis (lroot e)].
    - eapply keeps_cell; [exact G|exact Gl|reflexivity|reflexivity].
  Qed.

  (** *** pop_front (node.rs 792-830) *)
  Lemma leaf_pop_front_ok l x ks hp :
    owned hp [LN l (x :: ks) []] ->
    wp (h_pop_front (NR 0 l)) hp (fun r hp' =>
      r = (x, None) /\ evolves hp [LN l (x :: ks) []] hp' [LN l ks []] /\ keeps hp hp' l).
  Proof.
    intros O. destruct (owned_node O) as (N & (c & G & C) & _). destruct C as [C1 C2 C3 C4 C5 C6].
    cbn [length map] in *.
    destruct (@slice_remove_holds K _ _ _ 0 (fst x) (map fst ks) (S (length ks)) C3) as (ka & Ek & Hka); [lens|reflexivity|].
    destruct (@slice_remove_holds V _ _ _ 0 (snd x) (map snd ks) (S (length ks)) C4) as (va & Ev & Hva); [lens|reflexivity|].
    unfold h_pop_front. st wp_len; [hgs|]. rewrite C1. st wp_check; [apply Nat.ltb_lt; lia|].
    st wp_keys; [hgs|exact C3|lens|]. st wp_slice_rem; [exact N|hgs|exact Ek|]. intros hp1 U1. cbn in U1.
    st wp_vals; [exact N|hgs|exact C4|lens|]. st wp_slice_rem; [exact N|hgs|exact Ev|]. intros hp2 U2. cbn in U2.
    apply wp_bind. cbn [rh]. apply wp_ret. st wp_len_sub; [exact N|hgs|cbn; lia|].
    intros hp3 U3. cbn in U3. unfold with_len in U3. cbn in U3. apply wp_ret. rewrite pair_eta. split; [reflexivity|].
    pose proof (hup_trans (hup_trans U1 U2) U3) as U. split.
    - eapply evolves_cell; [exact O|exact U|]. constructor; cbn; auto; lens.
    - eapply keeps_hup; [exact G|exact U|reflexivity|reflexivity].
  Qed.

  Lemma internal_pop_front_ok l h x e ks es hp :
    owned hp [LN l (x :: ks) (e :: es)] ->
    wp (h_pop_front (NR (S h) l)) hp (fun r hp' =>
      r = (x, Some (NR h (lroot e))) /\
      evolves hp [LN l (x :: ks) (e :: es)] hp' [LN l ks es; e] /\ keeps hp hp' l).
  Proof.
    intros O. destruct (owned_node O) as (N & (c & G & C) & Hk & _).
    cbn [is_int] in C. destruct C as [C1 C2 C3 C4 C5 C6]. cbn [length map] in *.
    destruct (@prep K V hp _ [l] (e :: es) O) as [ND AL]; [perm|].
    assert (Forall (body hp) (e :: es)) as HS by (eapply kids_body; eauto).
    assert (length es = S (length ks)) as Le by lens.
    destruct (@slice_remove_holds K _ _ _ 0 (fst x) (map fst ks) (S (length ks)) C3) as (ka & Ek & Hka); [lens|reflexivity|].
    destruct (@slice_remove_holds V _ _ _ 0 (snd x) (map snd ks) (S (length ks)) C4) as (va & Ev & Hva); [lens|reflexivity|].
    destruct (@slice_remove_holds loc _ _ _ 0 (lroot e) (map lroot es) (S (length ks) + 1) C5) as (ea & Ee & Hea); [lens|reflexivity|].
    pose proof ND as ND0. cbn [map app] in ND0. explode.
    assert (lroot e <> l) as Nel by (intros Q; dis l).
    destruct (AL (lroot e)) as (Nes & ce & Ge); [dis (lroot e)|].
    unfold h_pop_front. st wp_len; [hgs|]. rewrite C1. st wp_check; [apply Nat.ltb_lt; lia|].
    st wp_keys; [hgs|exact C3|lens|]. st wp_slice_rem; [exact N|hgs|exact Ek|]. intros hp1 U1. cbn in U1.
    st wp_vals; [exact N|hgs|exact C4|lens|]. st wp_slice_rem; [exact N|hgs|exact Ev|]. intros hp2 U2. cbn in U2.
    apply wp_bind. cbn [rh].
    st wp_slice; [hgs|exact C5|lens|]. st wp_slice_rem; [exact N|hgs|exact Ee|]. intros hp3 U3. cbn in U3.
    st wp_clear_parent; [exact Nes|hgs|]. intros hp4 U4.
    assert (forall y, y <> l -> y <> lroot e -> hget hp4 y = hget hp y) as X by (intros; hg; reflexivity).
    st wp_correct_links; [reflexivity|hgs|exact C2|exact (proj2 Hea)|lens|lens|assumption| | |].
    { cbn [rl]. dis l. }
    { intros y Hy. rewrite X; [|intros ->; dis l|intros ->; dis (lroot e)]. apply AL. dis y. }
    cbn [rl]. intros hp5 R. pose proof R as [R1 R2]. apply wp_ret.
    assert (hget hp5 l = hget hp4 l) as G5 by (apply R1; dis l).
    st wp_len_sub; [exact N|cbn [rl]; rewrite G5; hgs|lens|].
    intros hp' U6. cbn in U6. unfold with_len in U6. cbn in U6. apply wp_ret. rewrite pair_eta. split; [reflexivity|].
    pose proof (hup_same U6) as Gl. 
    split.
    - eapply assemble2 with (T := [l]) (T' := [l]) (S := e :: es); [exact O|perm|perm| | | | | |exact HS|].
      + constructor; [easy|constructor].
      + tauto.
      + tauto.
      + intros y Hy _ Hy'. rewrite (hup_other U6) by (intros ->; dis l). rewrite R1 by dis y. apply X; intros ->; [dis l|dis (lroot e)].
      + intros y Hy. rewrite (hup_other U6) by (intros ->; dis l). eapply linkeq_trans; [|eapply relinks_linkeq; exact R].
        destruct (Nat.eq_dec y (lroot e)) as [-> | Hn].
        * right. rewrite (hup_same U4), Ge. eexists _, _. reflexivity.
        * left. apply X; [intros ->; dis l|exact Hn].
      + intro HB. inversion HB as [|? ? HB1 HB2]; subst. constructor; [|constructor; [exact HB1|constructor]]. apply body_eq. split; [exact N|].
        assert (is_int es = true) as -> by (destruct es; [cbn in Le; lia|reflexivity]). split.
        * eexists. split; [exact Gl|]. constructor; cbn; auto; lens.
        * assert (relinks hp4 l 0 (map lroot es) hp5) as R' by exact R.
          apply kids_iff. split; [exact HB2|]. intros j y Hj. pose proof (nth_error_In _ _ Hj) as Hin.
          eapply keeps_get; [apply (hup_other U6); intros ->; dis l|].
          eapply relinks_hung; [exact R'|exact Hj|]. rewrite X; [|intros ->; dis l|intros ->; dis (lroot e)]. apply AL. dis y.
    - eapply keeps_cell; [exact G|exact Gl|reflexivity|reflexivity].
  Qed.

  (** *** Removal from a leaf (node.rs 1236-1251) *)
  Lemma leaf_remove_ok l h i x ka kz hp :
    owned hp [LN l (ka ++ x :: kz) []] -> length ka = i ->
    wp (h_leaf_remove (NR h l, i)) hp (fun r hp' =>
      r = ((NR h l, i), x) /\ evolves hp [LN l (ka ++ x :: kz) []] hp' [LN l (ka ++ kz) []] /\ keeps hp hp' l).
  Proof.
    intros O Lk. destruct (owned_node O) as (N & (c & G & C) & _). destruct C as [C1 C2 C3 C4 C5 C6].
    set (n := length (ka ++ x :: kz)) in *.
    destruct (@slice_remove_holds K _ _ _ i (fst x) (map fst ka ++ map fst kz) n C3) as (ka' & Ek & Hka);
      [unfold n; now rewrite map_length|rewrite map_app; apply slice_remove_at; lens|].
    destruct (@slice_remove_holds V _ _ _ i (snd x) (map snd ka ++ map snd kz) n C4) as (va' & Ev & Hva);
      [unfold n; now rewrite map_length|rewrite map_app; apply slice_remove_at; lens|].
    assert (n = S (length (ka ++ kz))) as En by (unfold n; lens).
    unfold h_leaf_remove. st wp_not_shared; [exact N|]. st wp_len; [hgs|]. rewrite C1.
    st wp_keys; [hgs|exact C3|rewrite map_length; exact C1|]. st wp_slice_rem; [exact N|hgs|exact Ek|]. intros hp1 U1. cbn in U1.
    st wp_vals; [exact N|hgs|exact C4|rewrite map_length; exact C1|]. st wp_slice_rem; [exact N|hgs|exact Ev|]. intros hp2 U2. cbn in U2.
    st wp_len_sub; [exact N|hgs|cbn; lia|]. intros hp3 U3. cbn in U3. unfold with_len in U3. cbn in U3.
    unfold left_edge. cbn [fst snd]. st wp_new_edge; [hgs|lens|]. apply wp_ret. rewrite pair_eta. split; [reflexivity|].
    pose proof (hup_trans (hup_trans U1 U2) U3) as U. split.
    - eapply evolves_cell; [exact O|exact U|]. constructor; cbn; auto; rewrite ?map_app; auto; lens.
    - eapply keeps_hup; [exact G|exact U|reflexivity|reflexivity].
  Qed.

  (** *** Replacing a pair (node.rs 1158-1182) *)
  Lemma replace_kv_ok l h i x y ka kz es hp :
    owned hp [LN l (ka ++ x :: kz) es] -> length ka = i ->
    wp (replace_kv (NR h l, i) y) hp (fun r hp' =>
      r = x /\ evolves hp [LN l (ka ++ x :: kz) es] hp' [LN l (ka ++ y :: kz) es] /\ keeps hp hp' l).
  Proof.
    intros O Lk. destruct (owned_node O) as (N & (c & G & C) & _). destruct C as [C1 C2 C3 C4 C5 C6].
    pose proof C3 as C3'. pose proof C4 as C4'. rewrite map_app in C3', C4'. cbn [map] in C3', C4'.
    destruct (holds_mid C3') as (K1 & _ & _). destruct (holds_mid C4') as (V1 & _ & _). rewrite map_length, Lk in K1, V1.
    assert (forall A (b : A) p q, length p = i -> pick i (p ++ b :: q) = Some (p, b, q)) as P.
    { intros A b p q <-. unfold pick. rewrite nth_error_app2, Nat.sub_diag by lia. cbn [nth_error].
      rewrite firstn_app, Nat.sub_diag, firstn_all. cbn [firstn]. rewrite app_nil_r. do 3 f_equal.
      replace (S (length p)) with (length p + 1) by lia. rewrite skipn_app. replace (length p + 1 - length p) with 1 by lia.
      rewrite skipn_all2 by lia. reflexivity. }
    destruct (@overwrite_holds K _ _ _ i (fst x) (fst y) (map fst ka) (map fst kz) C3') as (ka' & Ek & Hka); [apply P; lens|].
    destruct (@overwrite_holds V _ _ _ i (snd x) (snd y) (map snd ka) (map snd kz) C4') as (va' & Ev & Hva); [apply P; lens|].
    unfold replace_kv. st wp_not_shared; [exact N|].
    st wp_keys; [hgs|exact C3|lens|]. st wp_vals; [exact N|hgs|exact C4|lens|].
    st wp_a_read; [hgs|exact K1|]. st wp_a_write; [exact N|hgs|exact Ek|]. intros hp1 U1. cbn in U1.
    st wp_keys; [hgs|exact Hka|lens|]. st wp_vals; [exact N|hgs|exact C4|lens|].
    st wp_a_read; [hgs|exact V1|]. st wp_a_write; [exact N|hgs|exact Ev|]. intros hp2 U2. cbn in U2.
    apply wp_ret. rewrite pair_eta. split; [reflexivity|].
    pose proof (hup_trans U1 U2) as U. split.
    - eapply evolves_cell; [exact O|exact U|]. constructor; cbn; auto; rewrite ?map_app; auto; [lens|].
      revert C6. destruct (is_int es); intro; [lens|assumption].
    - eapply keeps_hup; [exact G|exact U|reflexivity|reflexivity].
  Qed.

  (** *** Levels (node.rs 266-289 after the allocation, 294-317) *)
  Lemma push_level_ok t h new hp0 hp :
    owned hp0 [t] -> hget hp0 new = None -> hup hp0 new (Some (fresh_cell K V true)) hp ->
    wp (hbind (a_write (aedges K V) new 0 (lroot t)) (fun _ =>
        hbind (first_edge (NR (S h) new)) (fun ed => hbind (correct_parent_link ed) (fun _ => hret (NR (S h) new))))) hp
      (fun r hp' => r = NR (S h) new /\ evolves hp0 [t] hp' [LN new [] [t]] /\ hung hp' new None).
  Proof.
    intros O Fn U0. pose proof (fresh_sroot Fn) as Nn.
    assert (body hp0 t) as HB by (destruct O as [O _]; now inversion O).
    destruct (body_root HB) as (Nt & ct & Gt & _). assert (lroot t <> new) as Nl by (eapply fresh_ne; eauto).
    destruct (@write_ex loc (repeat None (2 * B_)) 0 (lroot t)) as (ea & Ee); [cbn; lia|].
    st wp_a_write; [exact Nn|hgs|exact Ee|]. intros hp1 U1. cbn in U1.
    st wp_new_edge; [hgs|cbn; lia|]. 
    apply wp_bind. eapply wp_correct_parent_link; [reflexivity|hgs|reflexivity| |exact Nt|hgs|].
    { cbn. eapply at_read. eapply write_at; exact Ee. }
    cbn [rl]. intros hp' U'. apply wp_ret. split; [reflexivity|].
    assert (hget hp' new = Some (Cell true None None 0 (repeat None CAPACITY) (repeat None CAPACITY) ea)) as Gn by hgs.
    split.
    - eapply assemble2 with (T := []) (T' := [new]) (S := [t]); [exact O|perm|perm| | | | | | |].
      + constructor; [easy|constructor].
      + intros y [<- | []] _. exact Fn.
      + intros y [].
      + intros y _ H1 H2. cbn in H1, H2. rewrite (hup_other U') by intuition. rewrite (hup_other U1) by intuition. apply (hup_other U0). intuition.
      + intros y [<- | []]. right. rewrite (hup_same U'), Gt. eexists _, _. reflexivity.
      + constructor; [exact HB|constructor].
      + intros HB'. constructor; [|constructor]. apply body_eq. split; [exact Nn|]. split.
        * eexists. split; [exact Gn|]. constructor; cbn [clen ckeys cvals cedges cint length map];
            [reflexivity|reflexivity|apply holds_repeat|apply holds_repeat| |reflexivity].
          split; [|eapply write_at; exact Ee]. destruct (@nth_write _ _ _ _ _ Ee) as [E _]. rewrite E. reflexivity.
        * cbn [kids_ok]. split; [|split; [now inversion HB'|exact I]].
          eexists. split; [apply (hup_same U')|]. split; [reflexivity|]. intros p q Q. injection Q as _ <-. reflexivity.
    - eexists. split; [exact Gn|]. split; [reflexivity|]. intros p q Q. discriminate Q.
  Qed.

  Lemma pop_level_ok l h t hp :
    owned hp [LN l [] [t]] ->
    wp (h_pop_level (NR (S h) l)) hp (fun r hp' =>
      r = NR h (lroot t) /\ evolves hp [LN l [] [t]] hp' [t] /\ hung hp' (lroot t) None).
  Proof.
    intros O. destruct (owned_node O) as (N & (c & G & C) & Hk & _). cbn [is_int] in C. destruct C as [C1 C2 C3 C4 C5 C6].
    destruct (@prep K V hp _ [l] [t] O) as [ND AL]; [perm|]. cbn [map app] in ND. explode.
    assert (lroot t <> l) as Nl by (intros Q; dis l). destruct (AL (lroot t)) as (Nt & ct & Gt); [dis (lroot t)|].
    unfold h_pop_level. st wp_check; [reflexivity|]. st wp_new_edge; [hgs|lia|].
    st wp_descend; [reflexivity|hgs|exact C2|eapply at_read; exact (proj2 C5)|]. cbn [rl].
    st wp_clear_parent; [exact Nt|hgs|]. intros hp1 U1. st wp_free; [exact N|hgs|exact C2|]. intros hp2 U2.
    cbn [rl] in U2. apply wp_ret. cbn [rh]. rewrite Nat.sub_succ, Nat.sub_0_r. split; [reflexivity|].
    assert (hget hp2 (lroot t) = Some (set_link None (cpidx ct) ct)) as G2 by hgs.
    split.
    - eapply assemble2 with (T := [l]) (T' := []) (S := [t]); [exact O|perm|perm| | | | | | |].
      + constructor.
      + intros y [].
      + intros y [<- | []] _. apply (hup_same U2).
      + intros y H1' _ H2'. cbn in H1', H2'. rewrite (hup_other U2) by intuition. apply (hup_other U1). intuition.
      + intros y [<- | []]. right. rewrite G2, Gt. eexists _, _. reflexivity.
      + eapply kids_body; eauto.
      + auto.
    - eexists. split; [exact G2|]. split; [reflexivity|]. intros p q Q. discriminate Q.
  Qed.
End Ops.
