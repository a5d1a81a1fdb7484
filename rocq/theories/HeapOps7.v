(** * HeapOps7: move_suffix. *)
From Coq Require Import List Arith Lia Bool Permutation.
From Verif Require Import Base BTreeModel BTreeInv HeapModel HeapArr HeapRep HeapWp HeapNode HeapOps HeapOps2 HeapOps3 HeapOps4 HeapOps5 HeapDisj.
Import ListNotations.
Set Implicit Arguments.
Unset Strict Implicit.

Section Ops.
  Variables (K V : Type).
  Notation kv := (K * V)%type.
  Notation cell := (cell K V).
  Notation heap := (heap K V).
  Notation HM := (HM K V).
  Notation ltree := (ltree K V).
  Notation lroot := (@lroot K V).
  Implicit Types (hp : heap) (c : cell).

  Lemma move_suffix_ok h ll k1 k2 e1 e2 lr er hp :
    owned hp [LN ll (k1 ++ k2) (e1 ++ e2); LN lr [] er] ->
    (h = 0 /\ e1 = [] /\ e2 = [] /\ er = []) \/ (0 < h /\ length e1 = S (length k1) /\ length e2 = length k2 /\ length er = 1) ->
    wp (h_move_suffix (NR h ll) (length k1) (NR h lr)) hp (fun _ hp' =>
      evolves hp [LN ll (k1 ++ k2) (e1 ++ e2); LN lr [] er] hp' [LN ll k1 e1; LN lr k2 (er ++ e2)] /\ keeps hp hp' ll /\ keeps hp hp' lr).
  Proof.
    intros O Hh.
    destruct (@prep K V hp _ [ll; lr] (e1 ++ e2 ++ er) O) as [ND AL]; [perm|].
    destruct (owned_node O) as (Nl & (cl & Gl & Cl) & Kl & _ & _ & _ & O2 & _).
    destruct (owned_node O2) as (Nr & (cr & Gr & Cr) & Kr & _).
    assert (Forall (body hp) (e1 ++ e2 ++ er)) as HS.
    { rewrite app_assoc. apply Forall_app. split; eapply kids_body; eauto. }
    assert (ll <> lr) as D3 by dq ND ll.
    assert (length k1 + length k2 <= CAPACITY) as LL by (pose proof (holds_len (ct_keys Cl)) as Q; rewrite map_length, app_length in Q; exact Q).
    pose proof Cl as [L1 L2 L3 L4 L5 L6]. pose proof Cr as [R1 R2 R3 R4 R5 R6].
    rewrite app_length in L1. cbn [length] in R1.
    destruct (@cpy K (ckeys cl) (length k1) (ckeys cr) 0 (length k2)) as (ak & Ek & Nk & Ak & _); [rewrite (proj1 L3); len|rewrite (proj1 R3); len|].
    destruct (@cpy V (cvals cl) (length k1) (cvals cr) 0 (length k2)) as (av & Ev & Nv & Av & _); [rewrite (proj1 L4); len|rewrite (proj1 R4); len|].
    assert (holds ak (map fst k2) CAPACITY) as HK.
    { split; [rewrite Nk; apply R3|]. apply Ak; [|len]. pose proof (proj2 L3) as Q. rewrite map_app in Q. apply at_app in Q as [_ Q]. rewrite map_length in Q. exact Q. }
    assert (holds av (map snd k2) CAPACITY) as HV.
    { split; [rewrite Nv; apply R4|]. apply Av; [|len]. pose proof (proj2 L4) as Q. rewrite map_app in Q. apply at_app in Q as [_ Q]. rewrite map_length in Q. exact Q. }
    unfold h_move_suffix. cbv zeta.
    st wp_len; [hgs|]. rewrite L1. st wp_check; [apply Nat.leb_le; lia|].
    replace (length k1 + length k2 - length k1) with (length k2) by lia.
    st wp_len; [hgs|]. rewrite R1. st wp_check; [reflexivity|]. cbn [rh]. st wp_check; [apply Nat.eqb_refl|].
    st wp_kv_pointers; [exact Nl|hgs| |exact L3|exact L4|]; [rewrite L1; len|].
    st wp_kv_pointers; [exact Nr|hgs| |exact R3|exact R4|]; [rewrite R1; len|]. cbn [rl].
    st wp_move_kv; [exact D3|exact Nr|hgs|hgs|exact Ek|exact Ev|]. intros hp1 U1.
    st wp_set_len; [exact Nl|hgs|]. intros hp2 U2. unfold with_len in U2. cbn [rl] in U2.
    st wp_set_len; [exact Nr|hgs|]. intros hp3 U3. unfold with_len in U3. cbn in U3.
    assert (hget hp3 ll = Some (setk cl (length k1) (ckeys cl) (cvals cl) (cedges cl))) as Gl3 by hgs.
    assert (hget hp3 lr = Some (setk cr (length k2) ak av (cedges cr))) as Gr3 by hgs.
    assert (forall y, y <> ll -> y <> lr -> hget hp3 y = hget hp y) as X3 by (intros; hg; reflexivity).
    clear U1 U2 U3 hp1 hp2.
    assert (forall y, In y (map lroot (e1 ++ e2 ++ er)) -> y <> ll /\ y <> lr) as NT.
    { intros w Hw. split; dq ND w. }
    rewrite map_app in L3, L4.
    destruct Hh as [(-> & -> & -> & ->) | (Hh & Le1 & Le2 & Ler)].
    - apply wp_ret. cbn [is_int app map] in *. split; [|split].
      + eapply assemble2 with (T := [ll; lr]) (T' := [ll; lr]) (S := []); [exact O|perm|perm|nd ND|tauto|tauto| | |constructor|].
        * intros y Hy _ _. cbn in Hy. apply X3; intro; subst; tauto.
        * intros y [].
        * intros _. constructor; [|constructor; [|constructor]]; apply body_eq; (split; [assumption|]); (split; [|exact I]).
          -- eexists. split; [exact Gl3|]. constructor; cbn [setk clen cint ckeys cvals cedges is_int map]; auto; eapply holds_prefix; eassumption.
          -- eexists. split; [exact Gr3|]. constructor; cbn [setk clen cint ckeys cvals cedges is_int map]; auto.
      + eapply keeps_cell; [exact Gl|exact Gl3|reflexivity|reflexivity].
      + eapply keeps_cell; [exact Gr|exact Gr3|reflexivity|reflexivity].
    - assert (is_int (e1 ++ e2) = true) as I1 by (destruct e1; [cbn in Le1; lia|reflexivity]).
      assert (is_int er = true) as I2 by (destruct er; [cbn in Ler; lia|reflexivity]).
      rewrite I1 in *. rewrite I2 in *. destruct h as [|h]; [lia|].
      pose proof (proj2 L5) as LE. rewrite map_app in LE. apply at_app in LE as [LE1 LE2]. rewrite map_length, Le1, <- Nat.add_1_r in LE2. cbn [Nat.add] in LE2.
      destruct (@append_copy loc (cedges cl) (length k1 + 1) (map lroot e2) (cedges cr) (map lroot er) (2 * B_) (length k2) LE2) as (ea & Eea & Hea);
        [len|rewrite (proj1 L5); len|exact R5|len|].
      rewrite map_length, Ler in Eea.
      unfold move_edges. cbn [rl].
      st wp_a_copy; [exact D3|exact Nr|exact Gl3|exact Gr3|exact Eea|]. intros hp4 U4. cbn in U4.
      assert (at_ ea 1 (map lroot e2)) as A1.
      { pose proof (proj2 Hea) as Q. apply at_app in Q as [_ Q]. rewrite map_length, Ler in Q. exact Q. }
      eapply wp_correct_links; [reflexivity|hgs|exact R2|exact A1|len|cbn; lia|nd ND| | |].
      { cbn [rl]. dq ND lr. }
      { intros w Hw. destruct (NT w) as (? & ?); [dq ND w|]. rewrite (hup_other U4), X3 by assumption. apply AL. dq ND w. }
      cbn [rl]. intros hp' RB. pose proof RB as [RB1 RB2].
      assert (hget hp' ll = hget hp3 ll) as Gl' by (rewrite RB1 by dq ND ll; apply (hup_other U4); exact D3). rewrite Gl3 in Gl'.
      assert (hget hp' lr = hget hp4 lr) as Gr' by (apply RB1; dq ND lr). rewrite (hup_same U4) in Gr'.
      assert (forall w, w <> lr -> ~ In w (map lroot e2) -> hget hp' w = hget hp3 w) as X'.
      { intros w H1 H2. rewrite RB1 by assumption. apply (hup_other U4). assumption. }
      assert (forall w, In w (map lroot (e1 ++ e2 ++ er)) -> linkeq (hget hp w) (hget hp' w)) as XL.
      { intros w Hw. destruct (NT w Hw) as (? & ?). rewrite <- (X3 w) by assumption. rewrite <- (hup_other (x := w) U4) by assumption.
        eapply relinks_linkeq; exact RB. }
      split; [|split].
      + eapply assemble2 with (T := [ll; lr]) (T' := [ll; lr]) (S := e1 ++ e2 ++ er); [exact O|perm|perm|nd ND|tauto|tauto| |exact XL|exact HS|].
        * intros y Hy _ Hn. cbn in Hy. rewrite X'; [apply X3; intro; subst; tauto|intro; subst; tauto|].
          intro J. apply Hn. rewrite !map_app, !in_app_iff. tauto.
        * intros HB. apply Forall_app in HB as [HB1 HB2]. apply Forall_app in HB2 as [HB2 HB3].
          constructor; [|constructor; [|constructor]]; apply body_eq; (split; [assumption|]); split.
          -- eexists. split; [exact Gl'|]. assert (is_int e1 = true) as -> by (destruct e1; [cbn in Le1; lia|reflexivity]).
             rewrite map_app in L5.
             constructor; cbn [setk clen cint ckeys cvals cedges]; auto; [eapply holds_prefix; exact L3|eapply holds_prefix; exact L4|eapply holds_prefix; exact L5|len].
          -- apply kids_iff. split; [exact HB1|]. intros j y Hj. pose proof (nth_error_In _ _ Hj) as Hin.
             apply kids_iff in Kl as [_ Kl]. eapply keeps_get; [|apply Kl; rewrite map_app, nth_error_app1; [exact Hj|apply nth_error_Some; congruence]].
             destruct (NT y) as (? & ?); [dq ND y|]. rewrite X' by (try assumption; dq ND y). now apply X3.
          -- eexists. split; [exact Gr'|]. assert (is_int (er ++ e2) = true) as -> by (destruct er; [cbn in Ler; lia|reflexivity]).
             constructor; cbn [setk clen cint ckeys cvals cedges]; auto; rewrite map_app; [exact Hea|len].
          -- apply kids_iff. split; [apply Forall_app; now split|]. intros j y Hj. rewrite map_app in Hj.
             destruct (Nat.lt_ge_cases j (length er)) as [Lj | Lj].
             ++ rewrite nth_error_app1 in Hj by len. pose proof (nth_error_In _ _ Hj) as Hin.
                apply kids_iff in Kr as [_ Kr]. eapply keeps_get; [|apply Kr; exact Hj].
                destruct (NT y) as (? & ?); [dq ND y|]. rewrite X' by (try assumption; dq ND y). now apply X3.
             ++ rewrite nth_error_app2 in Hj by len. pose proof (nth_error_In _ _ Hj) as Hin. destruct (NT y) as (? & ?); [dq ND y|].
                replace (0 + j) with (1 + (j - length (map lroot er))) by (rewrite map_length; lia).
                eapply relinks_hung; [exact RB|exact Hj|]. rewrite (hup_other U4), X3 by assumption. apply AL. dq ND y.
      + eapply keeps_cell; [exact Gl|exact Gl'|reflexivity|reflexivity].
      + eapply keeps_cell; [exact Gr|exact Gr'|reflexivity|reflexivity].
  Qed.
End Ops.
