(** * HeapOps3: merge and steal. *)
From Coq Require Import List Arith Lia Bool Permutation.
From Verif Require Import Base BTreeModel BTreeInv HeapModel HeapArr HeapRep HeapWp HeapNode HeapOps HeapOps2.
Import ListNotations.
Set Implicit Arguments.
Unset Strict Implicit.

Section Ops.
  Variables (K V : Type).
  Notation kv := (K * V)%type.
  Notation cell := (cell K V).
  Notation heap := (heap K V).
  Notation HM := (HM K V).
  Notation ltree := (ltree K V).
  Notation lroot := (@lroot K V).
  Implicit Types (hp : heap) (c : cell).

  Lemma holds_edge c ks a e z : content c true ks (map lroot (a ++ e :: z)) -> arr_read (cedges c) (length a) = Some (lroot e).
  Proof.
    intros [_ _ _ _ C _]. eapply holds_read; [exact C|]. rewrite map_app, nth_error_app2 by lens.
    rewrite map_length, Nat.sub_diag. reflexivity.
  Qed.

  Lemma relinks_get hp l first els hp' k x c :
    relinks hp l first els hp' -> nth_error els k = Some x -> hget hp x = Some c ->
    hget hp' x = Some (set_link (Some l) (Some (first + k)) c).
  Proof. intros [_ R] Hk G. specialize (R k x Hk). now rewrite G in R. Qed.

  (** *** merge (node.rs 1329-1394) *)
  Lemma merge_ok lp h i x ka kz a z ll k1 e1 lr k2 e2 hp :
    owned hp [LN lp (ka ++ x :: kz) (a ++ LN ll k1 e1 :: LN lr k2 e2 :: z)] ->
    length ka = i -> length a = i -> length k1 + length k2 + 1 <= CAPACITY ->
    is_int e1 = (0 <? h) -> is_int e2 = (0 <? h) ->
    wp (h_merge (NR (S h) lp, i)) hp (fun r hp' =>
      r = (NR (S h) lp, i) /\
      evolves hp [LN lp (ka ++ x :: kz) (a ++ LN ll k1 e1 :: LN lr k2 e2 :: z)] hp'
                 [LN lp (ka ++ kz) (a ++ LN ll (k1 ++ x :: k2) (e1 ++ e2) :: z)] /\ keeps hp hp' lp).
  Proof.
    intros O Lk La Lc I1 I2. destruct (owned_node O) as (N & (c & G & C) & Hk & _).
    rewrite is_int_app in C.
    assert (arr_read (cedges c) i = Some ll) as EL by (rewrite <- La; exact (holds_edge C)).
    assert (arr_read (cedges c) (i + 1) = Some lr) as ER.
    { replace (a ++ LN ll k1 e1 :: LN lr k2 e2 :: z) with ((a ++ [LN ll k1 e1]) ++ LN lr k2 e2 :: z) in C by now rewrite <- app_assoc.
      rewrite <- La. replace (length a + 1) with (length (a ++ [LN ll k1 e1])) by lens. exact (holds_edge C). }
    destruct C as [C1 C2 C3 C4 C5 C6].
    destruct (@prep K V hp _ [lp; ll; lr] (a ++ z ++ e1 ++ e2) O) as [ND AL]; [perm|].
    apply kids_app in Hk as [Hka Hkb]. cbn [kids_ok lroot] in Hkb. destruct Hkb as (Hhl & HBl & Hhr & HBr & Hkz).
    apply body_eq in HBl as (Nl & (cl & Gl & Cl) & Hk1). apply body_eq in HBr as (Nr & (cr & Gr & Cr) & Hk2).
    cbn [HeapRep.lroot Nat.add] in Hhl, Hhr, Hkz.
    assert (Forall (body hp) (a ++ z ++ e1 ++ e2)) as HS.
    { apply Forall_app. split; [eapply kids_body; eauto|]. apply Forall_app. split; [eapply kids_body; eauto|].
      apply Forall_app. split; eapply kids_body; eauto. }
    pose proof ND as ND0. rewrite !map_app in ND0. cbn [app] in ND0. explode.
    assert (lp <> ll) as D1 by (intros Q; dis lp). assert (lp <> lr) as D2 by (intros Q; dis lp). assert (ll <> lr) as D3 by (intros Q; dis ll).
    set (n := length (ka ++ x :: kz)) in *. assert (n = S (length ka + length kz)) as En by (unfold n; lens).
    pose proof C3 as C3'. pose proof C4 as C4'. rewrite map_app in C3', C4'. cbn [map] in C3', C4'.
    destruct (@slice_remove_holds K _ _ _ i (fst x) (map fst ka ++ map fst kz) n C3') as (pk & Ek & Hpk);
      [lens|apply slice_remove_at; lens|].
    destruct (@slice_remove_holds V _ _ _ i (snd x) (map snd ka ++ map snd kz) n C4') as (pv & Ev & Hpv);
      [lens|apply slice_remove_at; lens|].
    assert (slice_remove (i + 1) (map lroot (a ++ LN ll k1 e1 :: LN lr k2 e2 :: z)) = Some (lr, map lroot a ++ ll :: map lroot z)) as SR.
    { rewrite map_app. cbn [map HeapRep.lroot].
      replace (map lroot a ++ ll :: lr :: map lroot z) with ((map lroot a ++ [ll]) ++ lr :: map lroot z) by now rewrite <- app_assoc.
      rewrite slice_remove_at by lens. now rewrite <- app_assoc. }
    destruct (@slice_remove_raw loc _ _ _ (i + 1) lr _ C5 SR) as (pe & Ee & Hpe).
    destruct Cl as [L1 L2 L3 L4 L5 L6]. destruct Cr as [R1 R2 R3 R4 R5 R6].
    destruct (@push_holds K _ _ _ (fst x) L3) as (lk & Elk & Hlk); [lens|].
    destruct (@push_holds V _ _ _ (snd x) L4) as (lv & Elv & Hlv); [lens|].
    destruct (@append_copy K (ckeys cr) 0 (map fst k2) lk (map fst k1 ++ [fst x]) CAPACITY (length k2) (proj2 R3)) as (lk' & Elk' & Hlk');
      [lens|rewrite (proj1 R3); lens|exact Hlk|lens|].
    destruct (@append_copy V (cvals cr) 0 (map snd k2) lv (map snd k1 ++ [snd x]) CAPACITY (length k2) (proj2 R4)) as (lv' & Elv' & Hlv');
      [lens|rewrite (proj1 R4); lens|exact Hlv|lens|].
    rewrite app_length in Elk', Elv'. cbn [length] in Elk', Elv'. rewrite map_length in Elk, Elv, Elk', Elv'.
    unfold h_merge, left_edge, right_edge. cbn [fst snd].
    st wp_new_edge; [hgs|lia|]. st wp_descend; [reflexivity|hgs|exact C2|exact EL|]. st wp_len; [hgs|].
    st wp_new_edge; [hgs|lia|]. st wp_descend; [reflexivity|hgs|exact C2|exact ER|]. st wp_len; [hgs|].
    rewrite L1, R1. st wp_check; [apply Nat.leb_le; lia|]. st wp_len; [hgs|]. rewrite C1. cbn [rl rh].
    st wp_keys; [hgs|exact L3|lens|]. st wp_keys; [hgs|exact C3'|lens|].
    st wp_slice_rem; [exact N|hgs|exact Ek|]. intros hp1 U1. cbn in U1.
    st wp_a_write; [exact Nl|hgs|exact Elk|]. intros hp2 U2. cbn in U2.
    st wp_keys; [hgs|exact R3|lens|]. st wp_keys; [hgs|cbn; eapply holds_prefix; exact Hlk|cbn; lens|].
    st wp_a_copy; [exact (not_eq_sym D3)|exact Nl|hgs|hgs|exact Elk'|]. intros hp3 U3. cbn in U3.
    st wp_vals; [exact Nl|hgs|exact L4|lens|]. st wp_vals; [exact N|hgs|exact C4'|lens|].
    st wp_slice_rem; [exact N|hgs|exact Ev|]. intros hp4 U4. cbn in U4.
    st wp_a_write; [exact Nl|hgs|exact Elv|]. intros hp5 U5. cbn in U5.
    st wp_vals; [exact Nr|hgs|exact R4|lens|]. st wp_vals; [exact Nl|hgs|cbn; eapply holds_prefix; exact Hlv|cbn; lens|].
    st wp_a_copy; [exact (not_eq_sym D3)|exact Nl|hgs|hgs|exact Elv'|]. intros hp6 U6. cbn in U6.
    st wp_slice_rem; [exact N|hgs|exact Ee|]. intros hp7 U7. cbn in U7.
    assert (hget hp7 lp = Some (Cell (cint c) (cpar c) (cpidx c) (clen c) pk pv pe)) as Gp7 by hgs.
    assert (hget hp7 ll = Some (Cell (cint cl) (cpar cl) (cpidx cl) (clen cl) lk' lv' (cedges cl))) as Gl7 by hgs.
    assert (hget hp7 lr = Some cr) as Gr7 by hgs.
    assert (forall y, y <> lp -> y <> ll -> hget hp7 y = hget hp y) as X7 by (intros; hg; reflexivity).
    clear U1 U2 U3 U4 U5 U6 U7 hp1 hp2 hp3 hp4 hp5 hp6.
    assert (length z = n - (i + 1)) as Lz by lens.
    assert (at_ pe (i + 1) (map lroot z)) as Az.
    { pose proof (proj2 Hpe) as Q. apply at_app in Q as [_ Q]. apply at_cons in Q as [_ Q]. rewrite map_length, La in Q.
      cbn [Nat.add] in Q. now rewrite Nat.add_1_r. }
    assert (forall y, In y (map lroot (a ++ z ++ e1 ++ e2)) -> y <> lp /\ y <> ll /\ y <> lr) as NT.
    { intros y Hy. split; [|split]; intros ->; [dis lp|dis ll|dis lr]. }
    st wp_correct_links; [reflexivity|exact Gp7|exact C2|exact Az|lens|cbn; lia|assumption| | |].
    { cbn [rl]. dis lp. }
    { intros y Hy. destruct (NT y) as (? & ? & ?); [dis y|]. rewrite X7 by assumption. apply AL. dis y. }
    cbn [rl]. intros hp8 RZ. pose proof RZ as [RZ1 RZ2].
    assert (hget hp8 lp = hget hp7 lp) as Gp8 by (apply RZ1; dis lp). rewrite Gp7 in Gp8.
    assert (hget hp8 ll = hget hp7 ll) as Gl8 by (apply RZ1; dis ll). rewrite Gl7 in Gl8.
    assert (hget hp8 lr = hget hp7 lr) as Gr8 by (apply RZ1; dis lr). rewrite Gr7 in Gr8.
    st wp_len_sub; [exact N|exact Gp8|cbn; lia|]. intros hp9 U9. cbn in U9. unfold with_len in U9. cbn in U9.
    st wp_len_add; [exact Nl|hgs|]. intros hp10 U10. cbn in U10. unfold with_len in U10. cbn in U10.
    assert (hget hp10 lp = Some (Cell (cint c) (cpar c) (cpidx c) (clen c - 1) pk pv pe)) as Gp10 by hgs.
    assert (hget hp10 ll = Some (Cell (cint cl) (cpar cl) (cpidx cl) (clen cl + (length k2 + 1)) lk' lv' (cedges cl))) as Gl10 by hgs.
    assert (hget hp10 lr = Some cr) as Gr10 by hgs.
    assert (forall y, y <> lp -> y <> ll -> hget hp10 y = hget hp8 y) as X10 by (intros; hg; reflexivity).
    clear U9 U10 hp9.
    assert (forall y, ~ In y (map lroot z) -> y <> lp -> y <> ll -> hget hp10 y = hget hp y) as X.
    { intros y Hy ? ?. rewrite X10, RZ1, X7 by assumption. reflexivity. }
    assert (forall y, y <> lp -> y <> ll -> linkeq (hget hp y) (hget hp10 y)) as XL.
    { intros y ? ?. rewrite X10, <- X7 by assumption. eapply relinks_linkeq; exact RZ. }
    assert (forall j y, nth_error (map lroot z) j = Some y -> hung hp10 y (Some (lp, S i + j))) as HZ.
    { intros j y Hj. pose proof (nth_error_In _ _ Hj) as Hin. destruct (NT y) as (? & ? & ?); [dis y|].
      destruct (AL y) as (_ & cy & Gy); [dis y|].
      eapply keeps_get; [apply X10; assumption|]. replace (S i + j) with (i + 1 + j) by lia.
      eapply relinks_hung; [exact RZ|exact Hj|]. exists cy. rewrite X7 by assumption. exact Gy. }
    clear hp8 hp7 Gp7 Gl7 Gr7 X7 RZ RZ1 RZ2 Gp8 Gl8 Gr8 X10.
    (* the parent *)
    assert (content (Cell (cint c) (cpar c) (cpidx c) (clen c - 1) pk pv pe) true (ka ++ kz)
              (map lroot (a ++ LN ll (k1 ++ x :: k2) (e1 ++ e2) :: z))) as CP.
    { rewrite map_app. cbn [map HeapRep.lroot]. constructor; cbn; rewrite ?map_app; auto; lens. }
    assert (forall hpf, 
      (forall y, In y (map lroot (a ++ z)) -> hget hpf y = hget hp10 y) ->
      hung hpf ll (Some (lp, i)) ->
      Forall (body hpf) a -> Forall (body hpf) z -> body hpf (LN ll (k1 ++ x :: k2) (e1 ++ e2)) ->
      kids_ok hpf lp 0 (a ++ LN ll (k1 ++ x :: k2) (e1 ++ e2) :: z)) as KP.
    { intros hpf E Hl Ba Bz Bl. apply kids_app. split.
      - apply kids_iff. split; [exact Ba|]. intros j y Hj. pose proof (nth_error_In _ _ Hj) as Hin.
        apply kids_iff in Hka as [_ Hka]. destruct (NT y) as (? & ? & ?); [dis y|].
        eapply keeps_get; [|exact (Hka j y Hj)]. rewrite E by dis y. apply X; [dis y|assumption|assumption].
      - cbn [kids_ok HeapRep.lroot Nat.add]. split; [rewrite La; exact Hl|]. split; [exact Bl|].
        apply kids_iff. split; [exact Bz|]. intros j y Hj. pose proof (nth_error_In _ _ Hj) as Hin.
        rewrite La. eapply keeps_get; [|exact (HZ j y Hj)]. apply E. dis y. }
    assert (map fst (k1 ++ x :: k2) = (map fst k1 ++ [fst x]) ++ map fst k2) as EF by (rewrite map_app, <- app_assoc; reflexivity).
    assert (map snd (k1 ++ x :: k2) = (map snd k1 ++ [snd x]) ++ map snd k2) as ES by (rewrite map_app, <- app_assoc; reflexivity).
    destruct h as [|h]; cbn [Nat.ltb Nat.leb] in *.
    - (* leaves *)
      destruct e1; [|discriminate I1]. destruct e2; [|discriminate I2]. cbn [is_int] in *.
      st wp_free; [exact Nr|exact Gr10|exact R2|]. cbn [rl]. intros hpf U.
      assert (hget hpf lp = Some (Cell (cint c) (cpar c) (cpidx c) (clen c - 1) pk pv pe)) as Gpf by hgs.
      assert (hget hpf ll = Some (Cell (cint cl) (cpar cl) (cpidx cl) (clen cl + (length k2 + 1)) lk' lv' (cedges cl))) as Glf by hgs.
      eapply wp_new_edge; [exact Gpf|cbn; lia|]. split; [reflexivity|]. split.
      + eapply assemble2 with (T := [lp; ll; lr]) (T' := [lp; ll]) (S := a ++ z ++ [] ++ []); [exact O|perm|perm| | | | | |exact HS|].
        * constructor; [cbn; intuition congruence|]. constructor; [easy|constructor].
        * intros y Hy Hn. cbn in Hy, Hn. tauto.
        * intros y Hy Hn. cbn in Hy, Hn. assert (y = lr) as -> by intuition. apply (hup_same U).
        * intros y Ha Hb Hc. cbn in Ha, Hb. rewrite (hup_other U) by intuition. apply X; [dis y|intuition|intuition].
        * intros y Hy. destruct (NT y Hy) as (? & ? & ?). rewrite (hup_other U) by assumption. now apply XL.
        * intros HB. apply Forall_app in HB as [HBa HBz]. apply Forall_app in HBz as [HBz _].
          constructor; [|constructor]. apply body_eq. split; [exact N|]. split; [eexists; split; [exact Gpf|]; rewrite is_int_app; exact CP|].
          apply KP; auto.
          -- intros y Hy. apply (hup_other U). apply NT. rewrite app_nil_r. dis y.
          -- eapply keeps_cell; [exact Gl|exact Glf|reflexivity|reflexivity|]. rewrite <- La. exact Hhl.
          -- apply body_eq. split; [exact Nl|]. split; [|exact I]. eexists. split; [exact Glf|].
             constructor; cbn; auto; rewrite ?EF, ?ES; auto; lens.
      + eapply keeps_cell; [exact G|exact Gpf|reflexivity|reflexivity].
    - (* internal nodes *)
      rewrite I1 in *. rewrite I2 in *.
      destruct (@append_copy loc (cedges cr) 0 (map lroot e2) (cedges cl) (map lroot e1) (2 * B_) (length k2 + 1) (proj2 R5)) as (le & Ele & Hle);
        [lens|rewrite (proj1 R5); lens|exact L5|lens|].
      rewrite L6 in Ele. rewrite <- Nat.add_1_r in Ele.
      apply wp_bind. st wp_a_copy; [exact (not_eq_sym D3)|exact Nl|exact Gr10|exact Gl10|exact Ele|]. intros hp11 U11. cbn in U11.
      assert (at_ le (length k1 + 1) (map lroot e2)) as A2.
      { pose proof (proj2 Hle) as Q. apply at_app in Q as [_ Q]. rewrite L6, Nat.add_0_l, <- Nat.add_1_r in Q. exact Q. }
      st wp_correct_links; [reflexivity|hgs|exact L2|exact A2|lens|cbn; lia|assumption| | |].
      { cbn [rl]. dis ll. }
      { intros y Hy. destruct (NT y) as (? & ? & ?); [dis y|]. rewrite (hup_other U11) by assumption.
        rewrite X by (try assumption; dis y). apply AL. dis y. }
      cbn [rl]. intros hp12 RE. pose proof RE as [RE1 RE2].
      assert (hget hp12 lp = hget hp10 lp) as Gp12 by (rewrite RE1 by dis lp; hgs). rewrite Gp10 in Gp12.
      assert (hget hp12 ll = hget hp11 ll) as Gl12 by (apply RE1; dis ll). rewrite (hup_same U11) in Gl12.
      assert (hget hp12 lr = hget hp10 lr) as Gr12 by (rewrite RE1 by dis lr; hgs). rewrite Gr10 in Gr12.
      eapply wp_free; [exact Nr|exact Gr12|exact R2|]. intros hpf U.
      assert (hget hpf lp = hget hp12 lp) as Gpf by (apply (hup_other U); assumption). rewrite Gp12 in Gpf.
      assert (hget hpf ll = hget hp12 ll) as Glf by (apply (hup_other U); assumption). rewrite Gl12 in Glf.
      eapply wp_new_edge; [exact Gpf|cbn; lia|]. split; [reflexivity|]. split.
      + eapply assemble2 with (T := [lp; ll; lr]) (T' := [lp; ll]) (S := a ++ z ++ e1 ++ e2); [exact O|perm|perm| | | | | |exact HS|].
        * constructor; [cbn; intuition congruence|]. constructor; [easy|constructor].
        * intros y Hy Hn. cbn in Hy, Hn. tauto.
        * intros y Hy Hn. cbn in Hy, Hn. assert (y = lr) as -> by intuition. apply (hup_same U).
        * intros y Ha Hb Hc. cbn in Ha, Hb. rewrite (hup_other U) by intuition. rewrite RE1 by dis y. rewrite (hup_other U11) by intuition.
          apply X; [dis y|intuition|intuition].
        * intros y Hy. destruct (NT y Hy) as (? & ? & ?). rewrite (hup_other U) by assumption.
          eapply linkeq_trans; [apply XL; assumption|]. rewrite <- (hup_other (x := y) U11) by assumption. eapply relinks_linkeq; exact RE.
        * intros HB. apply Forall_app in HB as [HBa HBz]. apply Forall_app in HBz as [HBz HBe]. 
          constructor; [|constructor]. apply body_eq. split; [exact N|]. split; [eexists; split; [exact Gpf|]; rewrite is_int_app; exact CP|].
          assert (forall y, In y (map lroot (a ++ z ++ e1)) -> hget hpf y = hget hp10 y) as Y.
          { intros y Hy. destruct (NT y) as (? & ? & ?); [dis y|]. rewrite (hup_other U) by assumption. rewrite RE1 by dis y.
            apply (hup_other U11). assumption. }
          apply KP; auto.
          -- intros y Hy. apply Y. dis y.
          -- eapply keeps_cell; [exact Gl|exact Glf|reflexivity|reflexivity|]. rewrite <- La. exact Hhl.
          -- apply body_eq. split; [exact Nl|]. split.
             ++ eexists. split; [exact Glf|]. assert (is_int (e1 ++ e2) = true) as -> by (destruct e1; [discriminate I1|reflexivity]).
                constructor; cbn; auto; rewrite ?EF, ?ES, ?map_app; auto; lens.
             ++ apply kids_iff. split; [exact HBe|]. intros j y Hj. rewrite map_app in Hj. cbn [Nat.add].
                destruct (Nat.lt_ge_cases j (length e1)) as [Lj | Lj].
                ** rewrite nth_error_app1 in Hj by lens. pose proof (nth_error_In _ _ Hj) as Hin.
                   apply kids_iff in Hk1 as [_ Hk1]. eapply keeps_get; [|exact (Hk1 j y Hj)].
                   destruct (NT y) as (? & ? & ?); [dis y|]. rewrite Y by dis y. apply X; [dis y|assumption|assumption].
                ** rewrite nth_error_app2 in Hj by lens. pose proof (nth_error_In _ _ Hj) as Hin.
                   destruct (NT y) as (? & ? & ?); [dis y|]. eapply keeps_get; [apply (hup_other U); assumption|].
                   destruct (AL y) as (_ & cy & Gy); [dis y|].
                   replace j with (length k1 + 1 + (j - length (map lroot e1))) by lens.
                   eapply relinks_hung; [exact RE|exact Hj|]. exists cy. rewrite (hup_other U11) by assumption.
                   rewrite X by (try assumption; dis y). exact Gy.
      + eapply keeps_cell; [exact G|exact Gpf|reflexivity|reflexivity].
  Qed.
End Ops.
