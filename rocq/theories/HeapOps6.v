(** * HeapOps6: bulk_steal_left, bulk_steal_right, move_suffix. *)
From Coq Require Import List Arith Lia Bool Permutation.
From Verif Require Import Base BTreeModel BTreeInv HeapModel HeapArr HeapRep HeapWp HeapNode HeapOps HeapOps2 HeapOps3 HeapOps4 HeapOps5 HeapDisj.
Import ListNotations.
Set Implicit Arguments.
Unset Strict Implicit.

Section Ops.
  Variables (K V : Type).
  Notation kv := (K * V)%type.
  Notation cell := (cell K V).
  Notation heap := (heap K V).
  Notation HM := (HM K V).
  Notation ltree := (ltree K V).
  Notation lroot := (@lroot K V).
  Implicit Types (hp : heap) (c : cell).

  Lemma bulk_steal_left_ok lp h i x y ka kz a z ll k1 m e1 em lr k2 e2 hp :
    owned hp [LN lp (ka ++ x :: kz) (a ++ LN ll (k1 ++ y :: m) (e1 ++ em) :: LN lr k2 e2 :: z)] ->
    length ka = i -> length a = i -> length m + 1 + length k2 <= CAPACITY ->
    (h = 0 /\ e1 = [] /\ em = [] /\ e2 = []) \/ (0 < h /\ length e1 = length k1 + 1 /\ length em = length m + 1 /\ e2 <> []) ->
    wp (h_bulk_steal_left (NR (S h) lp, i) (length m + 1)) hp (fun _ hp' =>
      evolves hp [LN lp (ka ++ x :: kz) (a ++ LN ll (k1 ++ y :: m) (e1 ++ em) :: LN lr k2 e2 :: z)] hp'
                 [LN lp (ka ++ y :: kz) (a ++ LN ll k1 e1 :: LN lr (m ++ x :: k2) (em ++ e2) :: z)] /\ keeps hp hp' lp).
  Proof.
    intros O Lk La Lc Hh.
    destruct (owned_two O) as (c & cl & cr & N & Nl & Nr & G & Gl & Gr & C & Cl & Cr & Ka & Kz & Kl & Kr & Hl & Hr & EL & ER).
    rewrite La in EL, ER.
    destruct (@prep K V hp _ [lp; ll; lr] (a ++ z ++ e1 ++ em ++ e2) O) as [ND AL]; [perm|].
    assert (lp <> ll) as D1 by dq ND lp. assert (lp <> lr) as D2 by dq ND lp. assert (ll <> lr) as D3 by dq ND ll.
    assert (length k1 + S (length m) <= CAPACITY) as LL by (pose proof (holds_len (ct_keys Cl)) as Q; rewrite map_length, app_length in Q; exact Q).
    pose proof C as [C1 C2 C3 C4 C5 C6]. pose proof Cl as [L1 L2 L3 L4 L5 L6]. pose proof Cr as [R1 R2 R3 R4 R5 R6].
    rewrite app_length in L1. cbn [length] in L1.
    pose proof C3 as C3'. pose proof C4 as C4'. pose proof L3 as L3'. pose proof L4 as L4'.
    rewrite map_app in C3', C4', L3', L4'. cbn [map] in C3', C4', L3', L4'.
    destruct (@shift_right K _ _ _ _ _ _ _ _ _ _ _ R3 L3' C3') as (ak1 & ak2 & ak3 & pk & F1 & F2 & F3 & F4 & F5 & F6); [lens|].
    destruct (@shift_right V _ _ _ _ _ _ _ _ _ _ _ R4 L4' C4') as (av1 & av2 & av3 & pv & S1 & S2 & S3 & S4 & S5 & S6); [lens|].
    rewrite !map_length in F1, F2, F3, F4, S1, S2, S3, S4. rewrite Lk in F3, F4, S3, S4.
    unfold h_bulk_steal_left, left_edge, right_edge. cbn [fst snd].
    st wp_new_edge; [hgs|rewrite ?C1; len|]. st wp_descend; [reflexivity|hgs|exact C2|exact EL|]. st wp_len; [hgs|].
    st wp_new_edge; [hgs|rewrite ?C1; len|]. st wp_descend; [reflexivity|hgs|exact C2|exact ER|]. st wp_len; [hgs|].
    rewrite L1, R1. st wp_check; [apply Nat.leb_le; lia|]. st wp_check; [apply Nat.leb_le; lia|]. cbv zeta.
    replace (length k1 + S (length m) - (length m + 1)) with (length k1) by lia.
    replace (length m + 1 - 1) with (length m) by lia.
    st wp_kv_pointers; [exact Nl|hgs| |exact L3|exact L4|]; [len|]. st wp_kv_pointers; [exact Nr|hgs| |exact R3|exact R4|]; [len|].
    st wp_kv_pointers; [exact N|hgs| |exact C3|exact C4|]; [rewrite ?C1; len|]. cbn [rl].
    st wp_a_move; [exact Nr|hgs|exact F1|]. intros hp1 U1. cbn in U1.
    st wp_a_move; [exact Nr|hgs|exact S1|]. intros hp2 U2. cbn in U2.
    st wp_check; [apply Nat.leb_le; lia|].
    st wp_move_kv; [exact D3|exact Nr|hgs|hgs|exact F2|exact S2|]. intros hp3 U3. cbn in U3.
    st wp_move_kv; [exact D2|exact Nr|hgs|hgs|exact F3|exact S3|]. intros hp4 U4. cbn in U4.
    st wp_move_kv; [exact (not_eq_sym D1)|exact N|hgs|hgs|exact F4|exact S4|]. intros hp5 U5. cbn in U5.
    st wp_len_sub; [exact Nl|hgs|lens|]. intros hp6 U6. cbn in U6. unfold with_len in U6. cbn in U6.
    st wp_len_add; [exact Nr|hgs|]. intros hp7 U7. cbn in U7. unfold with_len in U7. cbn in U7.
    assert (hget hp7 lp = Some (setk c (clen c) pk pv (cedges c))) as Gp7 by hgs.
    assert (hget hp7 ll = Some (setk cl (length k1) (ckeys cl) (cvals cl) (cedges cl))) as Gl7.
    { hg. unfold setk. rewrite L1. repeat f_equal. lia. }
    assert (hget hp7 lr = Some (setk cr (length k2 + (length m + 1)) ak3 av3 (cedges cr))) as Gr7.
    { hg. unfold setk. now rewrite R1. }
    assert (forall y, y <> lp -> y <> ll -> y <> lr -> hget hp7 y = hget hp y) as X7 by (intros; hg; reflexivity).
    clear U1 U2 U3 U4 U5 U6 U7 hp1 hp2 hp3 hp4 hp5 hp6.
    assert (forall y, In y (map lroot (e1 ++ em ++ e2)) -> y <> lp /\ y <> ll /\ y <> lr) as NT.
    { intros w Hw. split; [|split]; dq ND w. }
    assert (content (setk c (clen c) pk pv (cedges c)) true (ka ++ y :: kz) (map lroot a ++ ll :: lr :: map lroot z)) as CP.
    { constructor; cbn; auto; rewrite ?map_app; auto; lens. }
    cbn [rh]. destruct Hh as [(-> & -> & -> & ->) | (Hh & Le1 & Lem & He2)].
    - apply wp_ret. cbn [is_int app] in *.
      eapply siblings with (e1 := [] ++ []); [exact O|apply Permutation_refl|exact G|exact Gl|exact Gr|exact Gp7|exact Gl7|exact Gr7| | | | | | |exact CP| | | | | |]; try reflexivity.
      + constructor; cbn; auto. all: eapply holds_prefix; eassumption.
      + constructor; cbn; auto; rewrite ?map_app; auto; lens.
      + intros w Hw1 Hw2 Hw3 _. now apply X7.
      + intros w [].
      + intros [|j] w Hw; discriminate Hw.
      + intros [|j] w Hw; discriminate Hw.
    - assert (is_int (e1 ++ em) = true) as I1 by (destruct e1; [cbn in Le1; lia|reflexivity]).
      assert (is_int e2 = true) as I2 by (destruct e2; [congruence|reflexivity]).
      rewrite I1 in *. rewrite I2 in *. destruct h as [|h]; [lia|].
      rewrite map_length in R6.
      destruct (@cpy loc (cedges cr) 0 (cedges cr) (length m + 1) (length k2 + 1)) as (er1 & Ee1 & Ne1 & Ae1 & Be1); [rewrite (proj1 R5); lens|rewrite (proj1 R5); lens|].
      destruct (@cpy loc (cedges cl) (length k1 + 1) er1 0 (length m + 1)) as (er2 & Ee2 & Ne2 & Ae2 & Be2);
        [rewrite (proj1 L5); lens|rewrite Ne1, (proj1 R5); lens|].
      st wp_a_move; [exact Nr|exact Gr7|exact Ee1|]. intros hp8 U8. cbn in U8.
      assert (at_ er1 (length m + 1) (map lroot e2)) as A1 by (apply Ae1; [exact (proj2 R5)|lens]).
      st wp_correct_links; [reflexivity|hgs|exact R2|exact A1|lens|cbn; lia|nd ND| | |].
      { cbn [rl]. dq ND lr. }
      { intros w Hw. destruct (NT w) as (? & ? & ?); [dq ND w|]. rewrite (hup_other U8), X7 by assumption. apply AL. dq ND w. }
      cbn [rl]. intros hp9 RA. pose proof RA as [RA1 RA2]. unfold move_edges. cbn [rl].
      assert (hget hp9 ll = hget hp7 ll) as Gl9 by (rewrite RA1 by dq ND ll; hg; reflexivity).
      assert (hget hp9 lr = hget hp8 lr) as Gr9 by (apply RA1; dq ND lr). rewrite (hup_same U8) in Gr9. rewrite Gl7 in Gl9.
      st wp_a_copy; [exact D3|exact Nr|exact Gl9|exact Gr9|exact Ee2|]. intros hp10 U10. cbn in U10.
      assert (at_ er2 0 (map lroot em)) as A2.
      { apply Ae2; [|lens]. pose proof (proj2 L5) as Q. rewrite map_app in Q. apply at_app in Q as [_ Q]. rewrite map_length, Le1 in Q. exact Q. }
      eapply wp_correct_links; [reflexivity|hgs|exact R2|exact A2|lens|cbn; lia|nd ND| | |].
      { cbn [rl]. dq ND lr. }
      { intros w Hw. destruct (NT w) as (? & ? & ?); [dq ND w|]. rewrite (hup_other U10), RA1, (hup_other U8), X7 by (try assumption; dq ND w). apply AL. dq ND w. }
      cbn [rl]. intros hp' RB. pose proof RB as [RB1 RB2].
      assert (hget hp' lp = hget hp7 lp) as Gp' by (rewrite RB1 by dq ND lp; rewrite (hup_other U10) by congruence; rewrite RA1 by dq ND lp; hg; reflexivity).
      assert (hget hp' ll = hget hp7 ll) as Gl' by (rewrite RB1 by dq ND ll; rewrite (hup_other U10) by congruence; rewrite RA1 by dq ND ll; hg; reflexivity).
      assert (hget hp' lr = hget hp10 lr) as Gr' by (apply RB1; dq ND lr). rewrite (hup_same U10) in Gr'. rewrite Gp7 in Gp'. rewrite Gl7 in Gl'.
      assert (forall w, In w (map lroot (e1 ++ em ++ e2)) -> linkeq (hget hp w) (hget hp' w)) as XL.
      { intros w Hw. destruct (NT w Hw) as (? & ? & ?). rewrite <- (X7 w) by assumption. rewrite <- (hup_other (x := w) U8) by assumption.
        eapply linkeq_trans; [eapply relinks_linkeq; exact RA|]. rewrite <- (hup_other (x := w) U10) by assumption. eapply relinks_linkeq; exact RB. }
      assert (forall w, w <> lr -> ~ In w (map lroot em) -> ~ In w (map lroot e2) -> hget hp' w = hget hp7 w) as X'.
      { intros w Hw1 Hw2 Hw3. rewrite RB1, (hup_other U10), RA1, (hup_other U8) by assumption. reflexivity. }
      eapply siblings; [exact O| |exact G|exact Gl|exact Gr|exact Gp'|exact Gl'|exact Gr'| | | | | | |exact CP| | | | | |]; try reflexivity.
      + rewrite <- app_assoc. apply Permutation_refl.
      + assert (is_int e1 = true) as -> by (destruct e1; [cbn in Le1; lia|reflexivity]).
        constructor; cbn; auto; [eapply holds_prefix; exact L3'|eapply holds_prefix; exact L4'| |lens].
        rewrite map_app in L5. eapply holds_prefix; exact L5.
      + assert (is_int (em ++ e2) = true) as -> by (destruct em; [cbn in Lem; lia|reflexivity]).
        constructor; cbn; auto; rewrite ?map_app; auto; [lens| |lens].
        split; [rewrite Ne2, Ne1; exact (proj1 R5)|]. apply at_app. split; [exact A2|]. cbn [Nat.add]. rewrite map_length, Lem.
        apply Be2; [exact A1|lia].
      + intros w Hw1 Hw2 Hw3 Hw4. rewrite X' by (try assumption; dq ND w). now apply X7.
      + intros w Hw. apply XL. dq ND w.
      + intros j w Hj. pose proof (nth_error_In _ _ Hj) as Hin. destruct (NT w) as (? & ? & ?); [dq ND w|].
        apply kids_iff in Kl as [_ Kl]. eapply keeps_get; [|apply (Kl j); rewrite map_app; rewrite nth_error_app1; [exact Hj|apply nth_error_Some; congruence]].
        rewrite X' by (try assumption; dq ND w). now apply X7.
      + intros j w Hj. rewrite map_app in Hj. destruct (Nat.lt_ge_cases j (length em)) as [Lj | Lj].
        * rewrite nth_error_app1 in Hj by lens. pose proof (nth_error_In _ _ Hj) as Hin. destruct (NT w) as (? & ? & ?); [dq ND w|].
          apply (relinks_hung (first := 0) RB Hj). rewrite (hup_other U10), RA1, (hup_other U8), X7 by (try assumption; dq ND w). apply AL. dq ND w.
        * rewrite nth_error_app2 in Hj by lens. pose proof (nth_error_In _ _ Hj) as Hin. destruct (NT w) as (? & ? & ?); [dq ND w|].
          eapply keeps_get; [rewrite RB1 by dq ND w; apply (hup_other U10); assumption|].
          replace j with (length m + 1 + (j - length (map lroot em))) by lens.
          eapply relinks_hung; [exact RA|exact Hj|]. rewrite (hup_other U8), X7 by assumption. apply AL. dq ND w.
  Qed.

  Lemma bulk_steal_right_ok lp h i x y ka kz a z ll k1 m e1 em lr k2 e2 hp :
    owned hp [LN lp (ka ++ x :: kz) (a ++ LN ll k1 e1 :: LN lr (m ++ y :: k2) (em ++ e2) :: z)] ->
    length ka = i -> length a = i -> length k1 + 1 + length m <= CAPACITY ->
    (h = 0 /\ e1 = [] /\ em = [] /\ e2 = []) \/ (0 < h /\ e1 <> [] /\ length em = length m + 1 /\ length e2 = length k2 + 1) ->
    wp (h_bulk_steal_right (NR (S h) lp, i) (length m + 1)) hp (fun _ hp' =>
      evolves hp [LN lp (ka ++ x :: kz) (a ++ LN ll k1 e1 :: LN lr (m ++ y :: k2) (em ++ e2) :: z)] hp'
                 [LN lp (ka ++ y :: kz) (a ++ LN ll (k1 ++ x :: m) (e1 ++ em) :: LN lr k2 e2 :: z)] /\ keeps hp hp' lp).
  Proof.
    intros O Lk La Lc Hh.
    destruct (owned_two O) as (c & cl & cr & N & Nl & Nr & G & Gl & Gr & C & Cl & Cr & Ka & Kz & Kl & Kr & Hl & Hr & EL & ER).
    rewrite La in EL, ER.
    destruct (@prep K V hp _ [lp; ll; lr] (a ++ z ++ e1 ++ em ++ e2) O) as [ND AL]; [perm|].
    assert (lp <> ll) as D1 by dq ND lp. assert (lp <> lr) as D2 by dq ND lp. assert (ll <> lr) as D3 by dq ND ll.
    assert (length m + S (length k2) <= CAPACITY) as LL by (pose proof (holds_len (ct_keys Cr)) as Q; rewrite map_length, app_length in Q; exact Q).
    pose proof C as [C1 C2 C3 C4 C5 C6]. pose proof Cl as [L1 L2 L3 L4 L5 L6]. pose proof Cr as [R1 R2 R3 R4 R5 R6].
    rewrite app_length in R1. cbn [length] in R1.
    pose proof C3 as C3'. pose proof C4 as C4'. pose proof R3 as R3'. pose proof R4 as R4'.
    rewrite map_app in C3', C4', R3', R4'. cbn [map] in C3', C4', R3', R4'.
    destruct (@shift_left K _ _ _ _ _ _ _ _ _ _ _ L3 R3' C3') as (ak1 & ak2 & pk & rk & F1 & F2 & F3 & F4 & F5 & F6 & F7); [lens|].
    destruct (@shift_left V _ _ _ _ _ _ _ _ _ _ _ L4 R4' C4') as (av1 & av2 & pv & rv & S1 & S2 & S3 & S4 & S5 & S6 & S7); [lens|].
    rewrite !map_length in F1, F2, F3, F4, S1, S2, S3, S4. rewrite Lk in F1, F3, S1, S3.
    unfold h_bulk_steal_right, left_edge, right_edge. cbn [fst snd].
    st wp_new_edge; [hgs|rewrite ?C1; len|]. st wp_descend; [reflexivity|hgs|exact C2|exact EL|]. st wp_len; [hgs|].
    st wp_new_edge; [hgs|rewrite ?C1; len|]. st wp_descend; [reflexivity|hgs|exact C2|exact ER|]. st wp_len; [hgs|].
    rewrite L1, R1. st wp_check; [apply Nat.leb_le; lia|]. st wp_check; [apply Nat.leb_le; lia|]. cbv zeta.
    replace (length m + S (length k2) - (length m + 1)) with (length k2) by lia.
    replace (length m + 1 - 1) with (length m) by lia.
    st wp_kv_pointers; [exact Nl|hgs| |exact L3|exact L4|]; [len|]. st wp_kv_pointers; [exact Nr|hgs| |exact R3|exact R4|]; [len|].
    st wp_kv_pointers; [exact N|hgs| |exact C3|exact C4|]; [rewrite ?C1; len|]. cbn [rl].
    st wp_move_kv; [exact D1|exact Nl|hgs|hgs|exact F1|exact S1|]. intros hp1 U1. cbn in U1.
    st wp_check; [apply Nat.leb_le; lia|].
    st wp_move_kv; [exact (not_eq_sym D3)|exact Nl|hgs|hgs|exact F2|exact S2|]. intros hp2 U2. cbn in U2.
    st wp_move_kv; [exact (not_eq_sym D2)|exact N|hgs|hgs|exact F3|exact S3|]. intros hp3 U3. cbn in U3.
    st wp_a_move; [exact Nr|hgs|exact F4|]. intros hp4 U4. cbn in U4.
    st wp_a_move; [exact Nr|hgs|exact S4|]. intros hp5 U5. cbn in U5.
    st wp_len_add; [exact Nl|hgs|]. intros hp6 U6. cbn in U6. unfold with_len in U6. cbn in U6.
    st wp_len_sub; [exact Nr|hgs|lens|]. intros hp7 U7. cbn in U7. unfold with_len in U7. cbn in U7.
    assert (hget hp7 lp = Some (setk c (clen c) pk pv (cedges c))) as Gp7 by hgs.
    assert (hget hp7 ll = Some (setk cl (length k1 + (length m + 1)) ak2 av2 (cedges cl))) as Gl7.
    { hg. unfold setk. now rewrite L1. }
    assert (hget hp7 lr = Some (setk cr (length k2) rk rv (cedges cr))) as Gr7.
    { hg. unfold setk. rewrite R1. repeat f_equal. lia. }
    assert (forall y, y <> lp -> y <> ll -> y <> lr -> hget hp7 y = hget hp y) as X7 by (intros; hg; reflexivity).
    clear U1 U2 U3 U4 U5 U6 U7 hp1 hp2 hp3 hp4 hp5 hp6.
    assert (forall y, In y (map lroot (e1 ++ em ++ e2)) -> y <> lp /\ y <> ll /\ y <> lr) as NT.
    { intros w Hw. split; [|split]; dq ND w. }
    assert (content (setk c (clen c) pk pv (cedges c)) true (ka ++ y :: kz) (map lroot a ++ ll :: lr :: map lroot z)) as CP.
    { constructor; cbn; auto; rewrite ?map_app; auto; lens. }
    cbn [rh]. destruct Hh as [(-> & -> & -> & ->) | (Hh & He1 & Lem & Le2)].
    - apply wp_ret. cbn [is_int app] in *.
      eapply siblings with (e2 := [] ++ []); [exact O|apply Permutation_refl|exact G|exact Gl|exact Gr|exact Gp7|exact Gl7|exact Gr7| | | | | | |exact CP| | | | | |]; try reflexivity.
      + constructor; cbn; auto; rewrite ?map_app; auto; lens.
      + constructor; cbn; auto.
      + intros w Hw1 Hw2 Hw3 _. now apply X7.
      + intros w [].
      + intros [|j] w Hw; discriminate Hw.
      + intros [|j] w Hw; discriminate Hw.
    - assert (is_int (em ++ e2) = true) as I2 by (destruct em; [cbn in Lem; lia|reflexivity]).
      assert (is_int e1 = true) as I1 by (destruct e1; [congruence|reflexivity]).
      rewrite I1 in *. rewrite I2 in *. destruct h as [|h]; [lia|].
      rewrite map_length in L6.
      pose proof (proj2 R5) as RR. rewrite map_app in RR. apply at_app in RR as [RR1 RR2]. rewrite map_length, Lem in RR2. cbn [Nat.add] in RR2.
      destruct (@append_copy loc (cedges cr) 0 (map lroot em) (cedges cl) (map lroot e1) (2 * B_) (length m + 1) RR1) as (el & Eel & Hel);
        [lens|rewrite (proj1 R5); lens|exact L5|lens|].
      rewrite map_length, L6 in Eel. rewrite <- Nat.add_1_r in Eel.
      destruct (@cpy loc (cedges cr) (length m + 1) (cedges cr) 0 (length k2 + 1)) as (er & Eer & Ner & Aer & _); [rewrite (proj1 R5); lens|rewrite (proj1 R5); lens|].
      unfold move_edges. cbn [rl]. apply wp_bind.
      st wp_a_copy; [exact (not_eq_sym D3)|exact Nl|exact Gr7|exact Gl7|exact Eel|]. intros hp8 U8. cbn in U8.
      assert (at_ el (length k1 + 1) (map lroot em)) as A1.
      { pose proof (proj2 Hel) as Q. apply at_app in Q as [_ Q]. rewrite map_length, L6, Nat.add_0_l, <- Nat.add_1_r in Q. exact Q. }
      eapply wp_correct_links; [reflexivity|hgs|exact L2|exact A1|lens|cbn; lia|nd ND| | |].
      { cbn [rl]. dq ND ll. }
      { intros w Hw. destruct (NT w) as (? & ? & ?); [dq ND w|]. rewrite (hup_other U8), X7 by assumption. apply AL. dq ND w. }
      cbn [rl]. intros hp9 RA. pose proof RA as [RA1 RA2].
      assert (hget hp9 lr = hget hp7 lr) as Gr9 by (rewrite RA1 by dq ND lr; hg; reflexivity).
      assert (hget hp9 ll = hget hp8 ll) as Gl9 by (apply RA1; dq ND ll). rewrite (hup_same U8) in Gl9. rewrite Gr7 in Gr9.
      st wp_a_move; [exact Nr|exact Gr9|exact Eer|]. intros hp10 U10. cbn in U10.
      assert (at_ er 0 (map lroot e2)) as A2 by (apply Aer; [exact RR2|lens]).
      eapply wp_correct_links; [reflexivity|hgs|exact R2|exact A2|lens|cbn; lia|nd ND| | |].
      { cbn [rl]. dq ND lr. }
      { intros w Hw. destruct (NT w) as (? & ? & ?); [dq ND w|]. rewrite (hup_other U10), RA1, (hup_other U8), X7 by (try assumption; dq ND w). apply AL. dq ND w. }
      cbn [rl]. intros hp' RB. pose proof RB as [RB1 RB2].
      assert (hget hp' lp = hget hp7 lp) as Gp' by (rewrite RB1 by dq ND lp; rewrite (hup_other U10) by congruence; rewrite RA1 by dq ND lp; hg; reflexivity).
      assert (hget hp' ll = hget hp9 ll) as Gl' by (rewrite RB1 by dq ND ll; apply (hup_other U10); congruence).
      assert (hget hp' lr = hget hp10 lr) as Gr' by (apply RB1; dq ND lr). rewrite (hup_same U10) in Gr'. rewrite Gp7 in Gp'. rewrite Gl9 in Gl'.
      assert (forall w, In w (map lroot (e1 ++ em ++ e2)) -> linkeq (hget hp w) (hget hp' w)) as XL.
      { intros w Hw. destruct (NT w Hw) as (? & ? & ?). rewrite <- (X7 w) by assumption. rewrite <- (hup_other (x := w) U8) by assumption.
        eapply linkeq_trans; [eapply relinks_linkeq; exact RA|]. rewrite <- (hup_other (x := w) U10) by assumption. eapply relinks_linkeq; exact RB. }
      assert (forall w, w <> lr -> w <> ll -> ~ In w (map lroot em) -> ~ In w (map lroot e2) -> hget hp' w = hget hp7 w) as X'.
      { intros w Hw0 Hw1 Hw2 Hw3. rewrite RB1, (hup_other U10), RA1, (hup_other U8) by assumption. reflexivity. }
      eapply siblings; [exact O| |exact G|exact Gl|exact Gr|exact Gp'|exact Gl'|exact Gr'| | | | | | |exact CP| | | | | |]; try reflexivity.
      + rewrite <- app_assoc. apply Permutation_refl.
      + assert (is_int (e1 ++ em) = true) as -> by (destruct e1; [congruence|reflexivity]).
        constructor; cbn; auto; rewrite ?map_app; auto; lens.
      + assert (is_int e2 = true) as -> by (destruct e2; [cbn in Le2; lia|reflexivity]).
        constructor; cbn; auto; [|lens]. split; [rewrite Ner; exact (proj1 R5)|exact A2].
      + intros w Hw1 Hw2 Hw3 Hw4. rewrite X' by (try assumption; dq ND w). now apply X7.
      + intros w Hw. apply XL. dq ND w.
      + intros j w Hj. rewrite map_app in Hj. destruct (Nat.lt_ge_cases j (length e1)) as [Lj | Lj].
        * rewrite nth_error_app1 in Hj by lens. pose proof (nth_error_In _ _ Hj) as Hin. destruct (NT w) as (? & ? & ?); [dq ND w|].
          apply kids_iff in Kl as [_ Kl]. eapply keeps_get; [|apply (Kl j); exact Hj].
          rewrite X' by (try assumption; dq ND w). now apply X7.
        * rewrite nth_error_app2 in Hj by lens. pose proof (nth_error_In _ _ Hj) as Hin. destruct (NT w) as (? & ? & ?); [dq ND w|].
          eapply keeps_get; [rewrite RB1 by dq ND w; apply (hup_other U10); assumption|].
          replace j with (length k1 + 1 + (j - length (map lroot e1))) by lens.
          eapply relinks_hung; [exact RA|exact Hj|]. rewrite (hup_other U8), X7 by assumption. apply AL. dq ND w.
      + intros j w Hj. pose proof (nth_error_In _ _ Hj) as Hin. destruct (NT w) as (? & ? & ?); [dq ND w|].
        apply (relinks_hung (first := 0) RB Hj). rewrite (hup_other U10), RA1, (hup_other U8), X7 by (try assumption; dq ND w). apply AL. dq ND w.
  Qed.
End Ops.
