(** * HeapBorder: bulk stealing on trees and the border repairs. *)
From Coq Require Import List Arith Lia Bool Permutation.
From Verif Require Import Base MapSpec BTreeModel BTreeInv BTreeLemmas BTreeSurgery BTreeIterModel BTreeBulkModel BTreeBorder.
From Verif Require Import HeapModel HeapMapModel HeapArr HeapRep HeapWp HeapNode HeapOps HeapOps2 HeapOps3 HeapOps4 HeapOps5 HeapOps6 HeapOps7 HeapZip HeapRemove HeapSearch HeapInsert.
Import ListNotations.
Set Implicit Arguments.
Unset Strict Implicit.

Section Border.
  Variables (K V : Type).
  Notation kv := (K * V)%type.
  Notation cell := (cell K V).
  Notation heap := (heap K V).
  Notation HM := (HM K V).
  Notation ltree := (ltree K V).
  Notation lroot := (@lroot K V).
  Notation erase := (@erase K V).
  Implicit Types (hp : heap).

  Lemma some_inj A (x y : A) : Some x = Some y -> x = y.
  Proof. congruence. Qed.
  (** a pair of a node with its two children *)
  Lemma view_t h (t : ltree) i : kids any (S h) (erase t) -> i < length (lks t) ->
    exists ka x kz a t1 t2 z, t = LN (lroot t) (ka ++ x :: kz) (a ++ t1 :: t2 :: z) /\ length ka = i /\ length a = i /\
      length z = length kz /\ Forall (fun e => kids any h (erase e)) a /\ kids any h (erase t1) /\ kids any h (erase t2) /\ Forall (fun e => kids any h (erase e)) z.
  Proof.
    destruct t as [l ks es]. cbn [lks HeapRep.lroot]. intros Hk Hi. rewrite erase_eq in Hk. cbn [kids edges] in Hk. destruct Hk as [Hn Hf].
    rewrite map_length in Hn. unfold nlen in Hn. cbn [kvs] in Hn.
    assert (Forall (fun e => kids any h (erase e)) es) as F.
    { clear - Hf. induction es as [|e es IH]; [constructor|]. cbn [map] in Hf. inversion Hf; subst. constructor; [tauto|auto]. }
    destruct (@split_firstn _ ks i) as (ka & k' & -> & Lk); [lia|]. destruct k' as [|x kz]; [rewrite app_length in Hi; cbn in Hi; lia|].
    rewrite app_length in Hn. cbn [length] in Hn.
    destruct (@split_firstn _ es i) as (a & e' & -> & La); [lia|]. rewrite app_length in Hn.
    destruct e' as [|t1 [|t2 z]]; cbn [length] in Hn; try lia.
    apply Forall_app in F as [Fa F]. inversion F as [|? ? F1 F']; subst. inversion F' as [|? ? F2 Fz]; subst.
    exists ka, x, kz, a, t1, t2, z. split; [reflexivity|]. repeat (split; [first [assumption | lia]|]). assumption.
  Qed.

  (** below the new child everything is as before *)
  Lemma go_down hp hp1 hp2 t f e e' :
    evolves hp [t] hp1 [lfill f e] -> keeps hp hp1 (lroot t) -> lroot t = lfl f ->
    evolves hp1 [e] hp2 [e'] -> lroot e' = lroot e -> keeps hp1 hp2 (lroot e) ->
    evolves hp [t] hp2 [lfill f e'] /\ keeps hp hp2 (lroot t).
  Proof.
    intros E1 K1 R E2 R2 K2.
    destruct (@evolves_plug K V hp1 hp2 [f] e [] e' [] (ev_own E1) E2 R2 K2) as [E3 K3]. cbn [lplug] in E3, K3.
    split; [eapply evolves_trans; [exact E1|exact E3]|]. eapply keeps_trans; [exact K1|]. rewrite R. exact K3.
  Qed.

  Lemma bulk_left_t h lp ka x kz a t1 t2 z i count hp :
    owned hp [LN lp (ka ++ x :: kz) (a ++ t1 :: t2 :: z)] -> length ka = i -> length a = i ->
    kids any h (erase t1) -> kids any h (erase t2) -> 1 <= count -> count <= length (lks t1) -> length (lks t2) + count <= CAPACITY ->
    exists y t1' t2', lroot t1' = lroot t1 /\ lroot t2' = lroot t2 /\ kids any h (erase t1') /\ kids any h (erase t2') /\
      bulk_steal_left h (erase (LN lp (ka ++ x :: kz) (a ++ t1 :: t2 :: z))) i count = Some (erase (LN lp (ka ++ y :: kz) (a ++ t1' :: t2' :: z))) /\
      wp (h_bulk_steal_left (NR (S h) lp, i) count) hp (fun _ hp' =>
        evolves hp [LN lp (ka ++ x :: kz) (a ++ t1 :: t2 :: z)] hp' [LN lp (ka ++ y :: kz) (a ++ t1' :: t2' :: z)] /\ keeps hp hp' lp).
  Proof.
    intros O Lk La K1 K2 C1 C2 C3. rewrite erase_view.
    pose proof (kids_les K1) as S1. pose proof (kids_les K2) as S2.
    destruct (@bulk_left_full K V h ka x kz (map erase a) (erase t1) (erase t2) (map erase z) count) as (y0 & l' & r' & Eb & _ & _ & _ & _ & _);
      [rewrite map_length; lia|exact K1|exact K2|rewrite nlen_erase; lia|].
    destruct t1 as [ll k0 e0], t2 as [lr k2 e2]. cbn [lks les HeapRep.lroot] in *.
    destruct (@split_firstn _ k0 (length k0 - count)) as (k1 & k' & -> & L1); [lia|].
    rewrite app_length in *. destruct k' as [|y m]; cbn [length] in *; [lia|].
    assert (count = length m + 1) as -> by lia.
    assert (exists e1 em, e0 = e1 ++ em /\ ((h = 0 /\ e1 = [] /\ em = [] /\ e2 = []) \/ (0 < h /\ length e1 = length k1 + 1 /\ length em = length m + 1 /\ e2 <> []))) as (e1 & em & -> & Hh).
    { destruct S1 as [[-> ->] | [H1 H2]], S2 as [[? S2] | [H3 H4]]; try lia.
      - exists [], []. split; [reflexivity|]. left. auto.
      - destruct (@split_firstn _ e0 (length k1 + 1)) as (e1 & em & -> & L2); [lia|]. rewrite app_length in H2. exists e1, em. split; [reflexivity|].
        right. split; [lia|]. split; [lia|]. split; [lia|]. intros ->. cbn in H4. lia. }
    exists y, (LN ll k1 e1), (LN lr (m ++ x :: k2) (em ++ e2)). split; [reflexivity|]. split; [reflexivity|].
    assert (bulk_steal_left h (at_kv ka x kz (map erase a) (erase (LN ll (k1 ++ y :: m) (e1 ++ em))) (erase (LN lr k2 e2)) (map erase z)) i (length m + 1)
      = Some (erase (LN lp (ka ++ y :: kz) (a ++ LN ll k1 e1 :: LN lr (m ++ x :: k2) (em ++ e2) :: z)))) as E.
    { unfold bulk_steal_left. destruct (@at_kv_picks K V ka x kz (map erase a) (erase (LN ll (k1 ++ y :: m) (e1 ++ em))) (erase (LN lr k2 e2)) (map erase z)) as (P1 & P2 & _);
        [rewrite map_length; lia|]. rewrite map_length, La in P1, P2. rewrite P1, P2.
      rewrite !erase_eq. unfold nlen. cbn [kvs edges]. rewrite app_length. cbn [length].
      destruct (Nat.eqb_spec (length m + 1) 0); [lia|]. destruct (Nat.ltb_spec (length k1 + S (length m)) (length m + 1)); [lia|]. cbn [orb].
      replace (length k1 + S (length m) - (length m + 1)) with (length k1) by lia. rewrite pick_app.
      rewrite !map_app. cbn [map]. rewrite ?erase_eq, ?map_app.
      destruct Hh as [(-> & -> & -> & ->) | (Hh & Le1 & Lem & He2)]; [reflexivity|]. destruct h as [|h]; [lia|].
      rewrite firstn_app, skipn_app, map_length, Le1, Nat.sub_diag. rewrite firstn_all2, skipn_all2 by (rewrite map_length; lia). cbn [firstn skipn app].
      rewrite app_nil_r. reflexivity. }
    assert (kids any h (erase (LN ll k1 e1)) /\ kids any h (erase (LN lr (m ++ x :: k2) (em ++ e2)))) as [Q1 Q2].
    { destruct (@bulk_steal_left_eq K V any h ka x kz (map erase a) (erase (LN ll (k1 ++ y :: m) (e1 ++ em))) (erase (LN lr k2 e2)) (map erase z) (length m + 1))
        as (y1 & l1 & r1 & Eb1 & _ & _ & Q1 & Q2 & _); [rewrite map_length; lia|exact K1|exact K2|rewrite nlen_erase; cbn [lks]; rewrite app_length; cbn [length]; lia|].
      rewrite map_length, La in Eb1. rewrite E in Eb1. rewrite erase_view in Eb1. apply some_inj in Eb1. apply at_kv_inj in Eb1 as (_ & <- & <-). auto. }
    split; [exact Q1|]. split; [exact Q2|]. split; [exact E|].
    apply bulk_steal_left_ok; auto. lia.
  Qed.

  Lemma bulk_right_t h lp ka x kz a t1 t2 z i count hp :
    owned hp [LN lp (ka ++ x :: kz) (a ++ t1 :: t2 :: z)] -> length ka = i -> length a = i ->
    kids any h (erase t1) -> kids any h (erase t2) -> 1 <= count -> count <= length (lks t2) -> length (lks t1) + count <= CAPACITY ->
    exists y t1' t2', lroot t1' = lroot t1 /\ lroot t2' = lroot t2 /\ kids any h (erase t1') /\ kids any h (erase t2') /\
      bulk_steal_right h (erase (LN lp (ka ++ x :: kz) (a ++ t1 :: t2 :: z))) i count = Some (erase (LN lp (ka ++ y :: kz) (a ++ t1' :: t2' :: z))) /\
      wp (h_bulk_steal_right (NR (S h) lp, i) count) hp (fun _ hp' =>
        evolves hp [LN lp (ka ++ x :: kz) (a ++ t1 :: t2 :: z)] hp' [LN lp (ka ++ y :: kz) (a ++ t1' :: t2' :: z)] /\ keeps hp hp' lp).
  Proof.
    intros O Lk La K1 K2 C1 C2 C3. rewrite erase_view.
    pose proof (kids_les K1) as S1. pose proof (kids_les K2) as S2.
    destruct t1 as [ll k1 e1], t2 as [lr k0 e0]. cbn [lks les HeapRep.lroot] in *.
    destruct (@split_firstn _ k0 (count - 1)) as (m & k' & -> & L1); [lia|].
    rewrite app_length in *. destruct k' as [|y k2]; cbn [length] in *; [lia|].
    assert (count = length m + 1) as -> by lia.
    assert (exists em e2, e0 = em ++ e2 /\ ((h = 0 /\ e1 = [] /\ em = [] /\ e2 = []) \/ (0 < h /\ e1 <> [] /\ length em = length m + 1 /\ length e2 = length k2 + 1))) as (em & e2 & -> & Hh).
    { destruct S1 as [[-> ->] | [H1 H2]], S2 as [[? S2] | [H3 H4]]; try lia.
      - exists [], []. split; [exact S2|]. left. auto.
      - destruct (@split_firstn _ e0 (length m + 1)) as (em & e2 & -> & L2); [lia|]. rewrite app_length in H4. exists em, e2. split; [reflexivity|].
        right. split; [lia|]. split; [|split; lia]. intros ->. cbn in H2. lia. }
    exists y, (LN ll (k1 ++ x :: m) (e1 ++ em)), (LN lr k2 e2). split; [reflexivity|]. split; [reflexivity|].
    assert (bulk_steal_right h (at_kv ka x kz (map erase a) (erase (LN ll k1 e1)) (erase (LN lr (m ++ y :: k2) (em ++ e2))) (map erase z)) i (length m + 1)
      = Some (erase (LN lp (ka ++ y :: kz) (a ++ LN ll (k1 ++ x :: m) (e1 ++ em) :: LN lr k2 e2 :: z)))) as E.
    { unfold bulk_steal_right. destruct (@at_kv_picks K V ka x kz (map erase a) (erase (LN ll k1 e1)) (erase (LN lr (m ++ y :: k2) (em ++ e2))) (map erase z)) as (P1 & P2 & _);
        [rewrite map_length; lia|]. rewrite map_length, La in P1, P2. rewrite P1, P2.
      rewrite !erase_eq. unfold nlen. cbn [kvs edges]. rewrite app_length. cbn [length].
      destruct (Nat.eqb_spec (length m + 1) 0); [lia|]. destruct (Nat.ltb_spec (length m + S (length k2)) (length m + 1)); [lia|]. cbn [orb].
      replace (length m + 1 - 1) with (length m) by lia. rewrite pick_app.
      rewrite !map_app. cbn [map]. rewrite ?erase_eq, ?map_app.
      destruct Hh as [(-> & -> & -> & ->) | (Hh & He1 & Lem & Le2)]; [reflexivity|]. destruct h as [|h]; [lia|].
      rewrite firstn_app, skipn_app, map_length, Lem, Nat.sub_diag. rewrite firstn_all2, skipn_all2 by (rewrite map_length; lia). cbn [firstn skipn app].
      rewrite app_nil_r. reflexivity. }
    assert (kids any h (erase (LN ll (k1 ++ x :: m) (e1 ++ em))) /\ kids any h (erase (LN lr k2 e2))) as [Q1 Q2].
    { destruct (@bulk_steal_right_eq K V any h ka x kz (map erase a) (erase (LN ll k1 e1)) (erase (LN lr (m ++ y :: k2) (em ++ e2))) (map erase z) (length m + 1))
        as (y1 & l1 & r1 & Eb1 & _ & _ & Q1 & Q2 & _); [rewrite map_length; lia|exact K1|exact K2|rewrite nlen_erase; cbn [lks]; rewrite app_length; cbn [length]; lia|].
      rewrite map_length, La in Eb1. rewrite E in Eb1. rewrite erase_view in Eb1. apply some_inj in Eb1. apply at_kv_inj in Eb1 as (_ & <- & <-). auto. }
    split; [exact Q1|]. split; [exact Q2|]. split; [exact E|].
    apply bulk_steal_right_ok; auto. lia.
  Qed.

  Lemma merge_v h lp ka x kz a t1 t2 z i hp :
    owned hp [LN lp (ka ++ x :: kz) (a ++ t1 :: t2 :: z)] -> length ka = i -> length a = i ->
    kids any h (erase t1) -> kids any h (erase t2) -> length (lks t1) + length (lks t2) + 1 <= CAPACITY ->
    exists t1', lroot t1' = lroot t1 /\ kids any h (erase t1') /\
      merge (erase (LN lp (ka ++ x :: kz) (a ++ t1 :: t2 :: z))) i = Some (erase (LN lp (ka ++ kz) (a ++ t1' :: z))) /\
      wp (h_merge (NR (S h) lp, i)) hp (fun r hp' => r = (NR (S h) lp, i) /\
        evolves hp [LN lp (ka ++ x :: kz) (a ++ t1 :: t2 :: z)] hp' [LN lp (ka ++ kz) (a ++ t1' :: z)] /\ keeps hp hp' lp).
  Proof.
    intros O Lk La K1 K2 N. rewrite erase_view. pose proof (kids_is_int K1) as S1. pose proof (kids_is_int K2) as S2.
    pose proof (@joined_kids K V any h _ x _ K1 K2) as KJ. destruct t1 as [ll k1 e1], t2 as [lr k2 e2]. cbn [lks les] in *.
    assert (joined (erase (LN ll k1 e1)) x (erase (LN lr k2 e2)) = erase (LN ll (k1 ++ x :: k2) (e1 ++ e2))) as EJ.
    { unfold joined. rewrite !erase_eq. cbn [kvs edges]. now rewrite map_app. }
    exists (LN ll (k1 ++ x :: k2) (e1 ++ e2)). split; [reflexivity|]. split; [now rewrite <- EJ|]. split.
    - rewrite <- La, <- (map_length erase a). rewrite merge_eq by (rewrite map_length; lia). rewrite EJ.
      f_equal. rewrite (erase_eq lp). now rewrite map_app.
    - apply merge_ok; auto.
  Qed.

  Lemma descend_fill (f : lframe K V) (e : ltree) : descend (erase (lfill f e)) (length (lfa f)) = Some (erase e, eframe f).
  Proof.
    unfold descend. unfold lfill. rewrite erase_eq. cbn [edges kvs]. rewrite map_app. cbn [map].
    rewrite <- (map_length erase (lfa f)). rewrite pick_app. reflexivity.
  Qed.

  Lemma fix_right_loop_t h : forall (t : ltree) n' hp fuel, h < fuel -> owned hp [t] -> kids any h (erase t) ->
    fix_right_loop h (erase t) = Some n' ->
    wp (h_fix_right_loop fuel (NR h (lroot t))) hp (fun _ hp' => exists t', erase t' = n' /\ lroot t' = lroot t /\ evolves hp [t] hp' [t'] /\ keeps hp hp' (lroot t)).
  Proof.
    induction h as [|h IH]; intros t n' hp [|fuel] Hf O Hk E; try lia.
    - cbn in E |- *. injection E as <-. exists t. split; [reflexivity|]. split; [reflexivity|]. split; [now apply evolves_refl|apply keeps_refl].
    - cbn [fix_right_loop] in E. rewrite nlen_erase in E. destruct (Nat.eqb_spec (length (lks t)) 0) as [Z|Z]; [discriminate E|].
      destruct (@view_t h t (length (lks t) - 1) Hk) as (ka & x & kz & a & t1 & t2 & z & Et & Lk & La & Lz & Fa & K1 & K2 & Fz); [lia|].
      assert (kz = []) as ->. { destruct kz; [reflexivity|]. rewrite Et in Lk. cbn [lks] in Lk. rewrite app_length in Lk. cbn [length] in Lk. lia. }
      destruct z; [|cbn in Lz; lia]. set (i := length (lks t) - 1) in *.
      cbn [h_fix_right_loop rh]. unfold last_kv. apply wp_bind. st wp_len_t; [exact O|]. st wp_check; [apply Nat.ltb_lt; lia|].
      eapply wp_kv_t; [exact O|lia|]. fold i. remember (lroot t) as lp eqn:El. clearbody i. rewrite Et in O, E |- *. clear Et El Hk Z.
      st wp_can_merge; [exact O|exact Lk|exact La|].
      destruct (@at_kv_picks K V ka x [] (map erase a) (erase t1) (erase t2) []) as (_ & _ & _ & N2); [rewrite map_length; lia|].
      rewrite map_length, La in N2.
      assert (can_merge (erase (LN lp (ka ++ [x]) (a ++ [t1; t2]))) i = Some (length (lks t1) + length (lks t2) + 1 <=? CAPACITY)) as CM.
      { rewrite erase_view, <- La, <- (map_length erase a). rewrite can_merge_eq by (rewrite map_length; lia). now rewrite !nlen_erase. }
      rewrite CM in E. destruct (Nat.leb_spec (length (lks t1) + length (lks t2) + 1) CAPACITY) as [Hm | Hm].
      + destruct (@merge_v h lp ka x [] a t1 t2 [] i hp O Lk La K1 K2 Hm) as (t1' & R1 & Q1 & Em & Wm).
        rewrite Em in E. apply wp_bind. eapply wp_mono; [exact Wm|]. intros r hp1 (-> & E1 & KP).
        pose (f := LF lp (ka ++ []) a []). change (LN lp (ka ++ []) (a ++ [t1'])) with (lfill f t1') in *.
        rewrite <- La in E. change (length a) with (length (lfa f)) in E. rewrite descend_fill in E.
        st (wp_down_t (lf := f)); [exact (ev_own E1)|exact La|].
        destruct (fix_right_loop h (erase t1')) as [n1|] eqn:E2; [|discriminate E]. injection E as <-.
        eapply wp_mono; [apply (IH t1' n1 hp1 fuel); [lia|exact (owned_focus (c := [f]) (ev_own E1))|exact Q1|exact E2]|].
        intros _ hp2 (t' & <- & R' & E3 & K3). exists (lfill f t'). split; [apply erase_fill|]. split; [reflexivity|].
        exact (go_down E1 KP eq_refl E3 R' K3).
      + rewrite erase_view in E. change (i + 1) with (i + 1) in E. rewrite Nat.add_1_r in E.
        change (nth_error (edges (at_kv ka x [] (map erase a) (erase t1) (erase t2) [])) (S i)) with (nth_error (edges (at_kv ka x [] (map erase a) (erase t1) (erase t2) [])) (S i)) in E.
        cbn [map] in E. rewrite N2 in E. rewrite nlen_erase in E.
        unfold right_edge at 1. cbn [fst snd].
        st wp_edge_of; [exact O|rewrite app_length; cbn [length]; lia|].
        replace (a ++ [t1; t2]) with ((a ++ [t1]) ++ [t2]) in O by (rewrite <- app_assoc; reflexivity).
        st wp_down; [exact O|rewrite app_length; cbn [length]; lia|].
        st wp_len_t; [exact (owned_focus (c := [LF lp (ka ++ [x]) (a ++ [t1]) []]) O)|].
        assert (exists y t1' t2', lroot t1' = lroot t1 /\ lroot t2' = lroot t2 /\ kids any h (erase t2') /\
          (if length (lks t2) <? MIN_LEN + 1 then bulk_steal_left h (at_kv ka x [] (map erase a) (erase t1) (erase t2) []) i (MIN_LEN + 1 - length (lks t2))
           else Some (at_kv ka x [] (map erase a) (erase t1) (erase t2) [])) = Some (erase (lfill (LF lp (ka ++ [y]) (a ++ [t1']) []) t2')) /\
          wp (if length (lks t2) <? MIN_LEN + 1 then h_bulk_steal_left (NR (S h) lp, i) (MIN_LEN + 1 - length (lks t2)) else hret tt) hp (fun _ hp' =>
            evolves hp [LN lp (ka ++ [x]) ((a ++ [t1]) ++ [t2])] hp' [lfill (LF lp (ka ++ [y]) (a ++ [t1']) []) t2'] /\ keeps hp hp' lp)) as (y & t1' & t2' & R1 & R2 & Q2 & Eb & Wb).
        { rewrite <- app_assoc in O |- *. cbn [app] in O |- *. unfold lfill. cbn [lfl lfk lfa lfz].
          destruct (Nat.ltb_spec (length (lks t2)) (MIN_LEN + 1)) as [Hs | Hs].
          - assert (MIN_LEN + 1 - length (lks t2) <= length (lks t1)) as Hle.
            { unfold CAPACITY, MIN_LEN, B_ in *. lia. }
            destruct (@bulk_left_t h lp ka x [] a t1 t2 [] i (MIN_LEN + 1 - length (lks t2)) hp O Lk La K1 K2) as (y & t1' & t2' & R1 & R2 & _ & Q2 & Eb & Wb);
              [lia|exact Hle|unfold CAPACITY, MIN_LEN, B_ in *; lia|].
            exists y, t1', t2'. split; [exact R1|]. split; [exact R2|]. split; [exact Q2|]. rewrite erase_view in Eb. rewrite <- app_assoc. split; [exact Eb|exact Wb].
          - exists x, t1, t2. split; [reflexivity|]. split; [reflexivity|]. split; [exact K2|]. rewrite <- app_assoc. split; [cbn [app]; now rewrite erase_view|].
            apply wp_ret. split; [now apply evolves_refl|apply keeps_refl]. }
        rewrite Eb in E. pose (f := LF lp (ka ++ [y]) (a ++ [t1']) []). fold f in E, Wb.
        replace (S i) with (length (lfa f)) in E by (unfold f; cbn [lfa]; rewrite app_length; cbn [length]; lia). rewrite descend_fill in E.
        destruct (fix_right_loop h (erase t2')) as [n1|] eqn:E2; [|discriminate E]. injection E as <-.
        apply wp_bind. eapply wp_mono; [exact Wb|]. intros _ hp1 (E1 & KP).
        unfold right_edge. cbn [fst snd]. st wp_edge_of; [exact (ev_own E1)|unfold f; cbn [lfk]; rewrite app_length; cbn [length]; lia|].
        st (wp_down_t (lf := f)); [exact (ev_own E1)|unfold f; cbn [lfa]; rewrite app_length; cbn [length]; lia|].
        eapply wp_mono; [apply (IH t2' n1 hp1 fuel); [lia|exact (owned_focus (c := [f]) (ev_own E1))|exact Q2|exact E2]|].
        intros _ hp2 (t' & <- & R' & E3 & K3). exists (lfill f t'). split; [apply erase_fill|]. split; [reflexivity|].
        rewrite <- app_assoc in E1. exact (go_down E1 KP eq_refl E3 R' K3).
  Qed.

  Lemma fix_left_loop_t h : forall (t : ltree) n' hp fuel, h < fuel -> owned hp [t] -> kids any h (erase t) ->
    fix_left_loop h (erase t) = Some n' ->
    wp (h_fix_left_loop fuel (NR h (lroot t))) hp (fun _ hp' => exists t', erase t' = n' /\ lroot t' = lroot t /\ evolves hp [t] hp' [t'] /\ keeps hp hp' (lroot t)).
  Proof.
    induction h as [|h IH]; intros t n' hp [|fuel] Hf O Hk E; try lia.
    - cbn in E |- *. injection E as <-. exists t. split; [reflexivity|]. split; [reflexivity|]. split; [now apply evolves_refl|apply keeps_refl].
    - cbn [fix_left_loop] in E. rewrite nlen_erase in E. destruct (Nat.eqb_spec (length (lks t)) 0) as [Z|Z]; [discriminate E|].
      destruct (@view_t h t 0 Hk) as (ka & x & kz & a & t1 & t2 & z & Et & Lk & La & Lz & Fa & K1 & K2 & Fz); [lia|].
      destruct ka; [|cbn in Lk; lia]. destruct a; [|cbn in La; lia]. clear Lk La. cbn [app] in Et.
      cbn [h_fix_left_loop rh]. unfold first_kv. apply wp_bind. st wp_len_t; [exact O|]. st wp_check; [apply Nat.ltb_lt; lia|].
      eapply wp_kv_t; [exact O|lia|]. remember (lroot t) as lp eqn:El. rewrite Et in O, E |- *. clear Et El Hk Z.
      st (@wp_can_merge K V h lp [] x kz [] t1 t2 z []); [exact O|reflexivity|reflexivity|].
      destruct (@at_kv_picks K V [] x kz [] (erase t1) (erase t2) (map erase z)) as (_ & _ & N1 & _); [reflexivity|].
      assert (can_merge (erase (LN lp (x :: kz) (t1 :: t2 :: z))) 0 = Some (length (lks t1) + length (lks t2) + 1 <=? CAPACITY)) as CM.
      { change (erase (LN lp (x :: kz) (t1 :: t2 :: z))) with (at_kv [] x kz [] (erase t1) (erase t2) (map erase z)).
        rewrite (@can_merge_eq K V [] x kz []) by reflexivity. now rewrite !nlen_erase. }
      rewrite CM in E. destruct (Nat.leb_spec (length (lks t1) + length (lks t2) + 1) CAPACITY) as [Hm | Hm].
      + destruct (@merge_v h lp [] x kz [] t1 t2 z 0 hp O eq_refl eq_refl K1 K2 Hm) as (t1' & R1 & Q1 & Em & Wm).
        cbn [app] in Em, Wm. rewrite Em in E. apply wp_bind. eapply wp_mono; [exact Wm|]. intros r hp1 (-> & E1 & KP).
        pose (f := LF lp kz [] z). change (LN lp kz (t1' :: z)) with (lfill f t1') in *.
        change 0 with (length (lfa f)) in E at 1. rewrite descend_fill in E.
        st (wp_down_t (lf := f)); [exact (ev_own E1)|reflexivity|].
        destruct (fix_left_loop h (erase t1')) as [n1|] eqn:E2; [|discriminate E]. injection E as <-.
        eapply wp_mono; [apply (IH t1' n1 hp1 fuel); [lia|exact (owned_focus (c := [f]) (ev_own E1))|exact Q1|exact E2]|].
        intros _ hp2 (t' & <- & R' & E3 & K3). exists (lfill f t'). split; [apply erase_fill|]. split; [reflexivity|].
        exact (go_down E1 KP eq_refl E3 R' K3).
      + change (erase (LN lp (x :: kz) (t1 :: t2 :: z))) with (at_kv [] x kz [] (erase t1) (erase t2) (map erase z)) in E.
        cbn [length] in N1. rewrite N1 in E. rewrite nlen_erase in E.
        unfold left_edge at 1. cbn [fst snd].
        st wp_edge_of; [exact O|cbn [length]; lia|].
        st (@wp_down K V h lp (x :: kz) [] t1 (t2 :: z) []); [exact O|reflexivity|].
        st wp_len_t; [exact (owned_focus (c := [LF lp (x :: kz) [] (t2 :: z)]) O)|].
        assert (exists y t1' t2', lroot t1' = lroot t1 /\ lroot t2' = lroot t2 /\ kids any h (erase t1') /\
          (if length (lks t1) <? MIN_LEN + 1 then bulk_steal_right h (at_kv [] x kz [] (erase t1) (erase t2) (map erase z)) 0 (MIN_LEN + 1 - length (lks t1))
           else Some (at_kv [] x kz [] (erase t1) (erase t2) (map erase z))) = Some (erase (lfill (LF lp (y :: kz) [] (t2' :: z)) t1')) /\
          wp (if length (lks t1) <? MIN_LEN + 1 then h_bulk_steal_right (NR (S h) lp, 0) (MIN_LEN + 1 - length (lks t1)) else hret tt) hp (fun _ hp' =>
            evolves hp [LN lp (x :: kz) (t1 :: t2 :: z)] hp' [lfill (LF lp (y :: kz) [] (t2' :: z)) t1'] /\ keeps hp hp' lp)) as (y & t1' & t2' & R1 & R2 & Q2 & Eb & Wb).
        { destruct (Nat.ltb_spec (length (lks t1)) (MIN_LEN + 1)) as [Hs | Hs].
          - assert (MIN_LEN + 1 - length (lks t1) <= length (lks t2)) as Hle.
            { unfold CAPACITY, MIN_LEN, B_ in *. lia. }
            destruct (@bulk_right_t h lp [] x kz [] t1 t2 z 0 (MIN_LEN + 1 - length (lks t1)) hp O eq_refl eq_refl K1 K2) as (y & t1' & t2' & R1 & R2 & Q1 & _ & Eb & Wb);
              [lia|exact Hle|unfold CAPACITY, MIN_LEN, B_ in *; lia|].
            exists y, t1', t2'. split; [exact R1|]. split; [exact R2|]. split; [exact Q1|]. split; [exact Eb|exact Wb].
          - exists x, t1, t2. split; [reflexivity|]. split; [reflexivity|]. split; [exact K1|]. split; [reflexivity|].
            apply wp_ret. split; [now apply evolves_refl|apply keeps_refl]. }
        rewrite Eb in E. pose (f := LF lp (y :: kz) [] (t2' :: z)). fold f in E, Wb.
        change 0 with (length (lfa f)) in E at 1. rewrite descend_fill in E.
        destruct (fix_left_loop h (erase t1')) as [n1|] eqn:E2; [|discriminate E]. injection E as <-.
        apply wp_bind. eapply wp_mono; [exact Wb|]. intros _ hp1 (E1 & KP).
        unfold left_edge. cbn [fst snd]. st wp_edge_of; [exact (ev_own E1)|unfold f; cbn [lfk length]; lia|].
        st (wp_down_t (lf := f)); [exact (ev_own E1)|reflexivity|].
        eapply wp_mono; [apply (IH t1' n1 hp1 fuel); [lia|exact (owned_focus (c := [f]) (ev_own E1))|exact Q2|exact E2]|].
        intros _ hp2 (t' & <- & R' & E3 & K3). exists (lfill f t'). split; [apply erase_fill|]. split; [reflexivity|].
        exact (go_down E1 KP eq_refl E3 R' K3).
  Qed.

  Lemma fix_right_edge_t h : forall (t : ltree) n' hp fuel, h < fuel -> owned hp [t] -> kids any h (erase t) ->
    fix_right_edge h (erase t) = Ret n' ->
    wp (h_fix_right_edge fuel (NR h (lroot t))) hp (fun _ hp' => exists t', erase t' = n' /\ lroot t' = lroot t /\ evolves hp [t] hp' [t'] /\ keeps hp hp' (lroot t)).
  Proof.
    induction h as [|h IH]; intros t n' hp [|fuel] Hf O Hk E; try lia.
    - cbn in E |- *. injection E as <-. exists t. split; [reflexivity|]. split; [reflexivity|]. split; [now apply evolves_refl|apply keeps_refl].
    - cbn [fix_right_edge] in E. rewrite nlen_erase in E. cbn [h_fix_right_edge rh]. unfold last_edge.
      destruct (@down_t K V any h t (length (lks t)) Hk (le_n _)) as (t0 & f0 & Et & L0 & R0 & K0 & D0 & _ & Hk0 & FO & _).
      assert (nth_error (edges (erase t)) (length (lks t)) = Some (erase t0)) as N0.
      { rewrite edges_erase. apply map_nth_error. rewrite <- L0. rewrite Et. cbn [lfill les]. rewrite nth_error_app2 by lia. now rewrite Nat.sub_diag. }
      rewrite N0 in E. rewrite nlen_erase in E.
      apply wp_bind. st wp_len_t; [exact O|]. eapply wp_edge_t; [exact O|lia|].
      apply wp_bind. rewrite Et at 1. unfold lfill at 1. cbn [HeapRep.lroot]. eapply (wp_down_t (lf := f0)); [rewrite Et in O; exact O|exact L0|].
      assert (owned hp [t0]) as O0 by (rewrite Et in O; exact (owned_focus (c := [f0]) O)).
      st wp_len_t; [exact O0|].
      assert (exists f e n1, lfl f = lroot t /\ length (lfa f) = length (lks t) /\ kids any h (erase e) /\ fix_right_edge h (erase e) = Ret n1 /\ n' = fill (eframe f) n1 /\
        wp (if length (lks t0) <? MIN_LEN then hbind (left_kv (NR (S h) (lroot t), length (lks t))) (fun k => hbind (of_option k) (fun hh => hbind (h_bulk_steal_left hh (MIN_LEN - length (lks t0))) (fun _ => right_edge hh)))
            else hret (NR (S h) (lroot t), length (lks t))) hp (fun e' hp' => e' = (NR (S h) (lroot t), length (lks t)) /\ evolves hp [t] hp' [lfill f e] /\ keeps hp hp' (lroot t)))
        as (f & e & n1 & Rf & Lf & Qe & E2 & -> & Wb).
      { destruct (Nat.ltb_spec (length (lks t0)) MIN_LEN) as [Hs | Hs].
        - destruct (Nat.eqb_spec (length (lks t)) 0) as [Z|Z]; [discriminate E|].
          destruct (@view_t h t (length (lks t) - 1) Hk) as (ka & x & kz & a & t1 & t2 & z & Ev & Lk & La & Lz & Fa & K1 & K2 & Fz); [lia|].
          assert (kz = []) as ->. { destruct kz; [reflexivity|]. rewrite Ev in Lk. cbn [lks] in Lk. rewrite app_length in Lk. cbn [length] in Lk. lia. }
          destruct z; [|cbn in Lz; lia].
          assert (t2 = t0) as ->.
          { assert (nth_error (les t) (length (lks t)) = Some t2) as A1.
            { rewrite Ev at 1. cbn [les]. replace (length (lks t)) with (length a + 1) by lia. rewrite nth_error_app2 by lia. replace (length a + 1 - length a) with 1 by lia. reflexivity. }
            assert (nth_error (les t) (length (lks t)) = Some t0) as A2.
            { rewrite <- L0. rewrite Et. cbn [lfill les]. rewrite nth_error_app2 by lia. now rewrite Nat.sub_diag. }
            congruence. }
          set (i := length (lks t) - 1) in *. remember (lroot t) as lp eqn:El.
          destruct (bulk_steal_left h (erase t) i (MIN_LEN - length (lks t0))) as [n2|] eqn:Eb; [|discriminate E].
          assert (MIN_LEN - length (lks t0) <= length (lks t1)) as Hle.
          { rewrite Ev in Eb. rewrite erase_view in Eb. unfold bulk_steal_left in Eb.
            destruct (@at_kv_picks K V ka x [] (map erase a) (erase t1) (erase t0) []) as (P1 & P2 & _); [rewrite map_length; lia|].
            rewrite map_length, La in P1, P2. cbn [map] in Eb. rewrite P1, P2 in Eb. rewrite nlen_erase in Eb.
            destruct (Nat.ltb_spec (length (lks t1)) (MIN_LEN - length (lks t0))); [|assumption]. rewrite orb_true_r in Eb. discriminate Eb. }
          pose proof O as O1. rewrite Ev in O1.
          destruct (@bulk_left_t h lp ka x [] a t1 t0 [] i (MIN_LEN - length (lks t0)) hp O1 Lk La K1 K2) as (y & t1' & t2' & R1 & R2 & _ & Q2 & Eb2 & Wb);
            [lia|exact Hle|unfold CAPACITY, MIN_LEN, B_ in *; lia|].
          rewrite Ev in Eb. rewrite Eb2 in Eb. apply some_inj in Eb. subst n2. rewrite Ev. clear Eb2.
          pose (f := LF lp (ka ++ [y]) (a ++ [t1']) []).
          assert (LN lp (ka ++ [y]) (a ++ [t1'; t2']) = lfill f t2') as EF by (unfold lfill, f; cbn [lfl lfk lfa lfz]; now rewrite <- app_assoc).
          rewrite EF in E. rewrite nlen_erase in E.
          replace (length (lks (lfill f t2'))) with (length (lfa f)) in E by (cbn [lfill lks]; unfold f; cbn [lfa lfk]; rewrite !app_length; cbn [length]; lia). rewrite descend_fill in E.
          destruct (fix_right_edge h (erase t2')) as [n1| | | |] eqn:E2; try discriminate E. injection E as <-.
          exists f, t2', n1. split; [reflexivity|].
          assert (length (lks t) = i + 1) as Li by lia. cbn [lks]. rewrite app_length. cbn [length].
          split; [unfold f; cbn [lfa]; rewrite app_length; cbn [length]; lia|]. split; [exact Q2|]. split; [exact E2|]. split; [reflexivity|].
          unfold left_kv. cbn [fst snd]. apply wp_bind. destruct (Nat.ltb_spec 0 (length ka + 1)); [|lia].
          st wp_kv_of; [exact O1|rewrite app_length; cbn [length]; lia|]. apply wp_ret. apply wp_bind. apply wp_ret.
          replace (length ka + 1 - 1) with i by lia. rewrite EF in Wb. apply wp_bind. eapply wp_mono; [exact Wb|]. intros _ hp1 (E1 & KP).
          unfold right_edge. cbn [fst snd]. eapply wp_edge_of; [exact (ev_own E1)|unfold f; cbn [lfk]; rewrite app_length; cbn [length]; lia|].
          split; [f_equal; lia|]. split; [exact E1|exact KP].
        - rewrite nlen_erase in E. rewrite D0 in E.
          destruct (fix_right_edge h (erase t0)) as [n1| | | |] eqn:E2; try discriminate E. injection E as <-.
          exists f0, t0, n1. split; [exact R0|]. split; [exact L0|]. split; [exact Hk0|]. split; [exact E2|]. split; [reflexivity|].
          apply wp_ret. split; [reflexivity|]. rewrite <- Et. split; [now apply evolves_refl|apply keeps_refl]. }
      apply wp_bind. eapply wp_mono; [exact Wb|]. intros e' hp1 (-> & E1 & KP).
      apply wp_bind. rewrite <- Rf at 1. eapply (wp_down_t (lf := f)); [exact (ev_own E1)|exact Lf|].
      eapply wp_mono; [apply (IH e n1 hp1 fuel); [lia|exact (owned_focus (c := [f]) (ev_own E1))|exact Qe|exact E2]|].
      intros _ hp2 (t' & <- & R' & E3 & K3). exists (lfill f t'). split; [apply erase_fill|]. split; [exact Rf|].
      exact (go_down E1 KP (eq_sym Rf) E3 R' K3).
  Qed.

  Lemma fix_top_t h : forall (t : ltree) n' h' hp fuel, h < fuel -> owned hp [t] -> hung hp (lroot t) None -> kids any h (erase t) ->
    fix_top h (erase t) = Some (n', h') ->
    wp (h_fix_top fuel (NR h (lroot t))) hp (fun r hp' => exists t', r = NR h' (lroot t') /\ erase t' = n' /\ evolves hp [t] hp' [t'] /\ hung hp' (lroot t') None /\ kids any h' n').
  Proof.
    induction h as [|h IH]; intros t n' h' hp [|fuel] Hf O HR Hk E; try lia.
    - cbn in E |- *. injection E as <- <-. exists t. split; [reflexivity|]. split; [reflexivity|]. split; [now apply evolves_refl|]. split; [exact HR|exact Hk].
    - cbn [fix_top] in E. rewrite nlen_erase in E. cbn [h_fix_top rh]. st wp_len_t; [exact O|].
      destruct (Nat.ltb_spec 0 (length (lks t))) as [P|P].
      + injection E as <- <-. apply wp_ret. exists t. split; [reflexivity|]. split; [reflexivity|]. split; [now apply evolves_refl|]. split; [exact HR|exact Hk].
      + destruct t as [l ks es]. cbn [lks HeapRep.lroot] in *. destruct ks; [|cbn in P; lia].
        rewrite erase_eq in E, Hk. cbn [kids edges] in Hk. destruct Hk as [Hn Hf']. rewrite map_length in Hn. unfold nlen in Hn. cbn [kvs length] in Hn.
        destruct es as [|e [|]]; cbn [length] in Hn; try lia. cbn [map] in Hf', E. inversion Hf' as [|? ? [_ He] _]; subst.
        cbn [pop_level edges] in E. apply wp_bind. eapply wp_mono; [apply pop_level_ok; exact O|]. intros r hp1 (-> & E1 & H1).
        eapply wp_mono; [apply (IH e n' h' hp1 fuel); [lia|exact (ev_own E1)|exact H1|exact He|exact E]|].
        intros r hp2 (t' & -> & <- & E2 & H2 & Hk'). exists t'. split; [reflexivity|]. split; [reflexivity|]. split; [eapply evolves_trans; eauto|]. now split.
  Qed.

  Lemma fix_border_t loop hloop h (t : ltree) n' h' hp :
    (forall h (t : ltree) n' hp fuel, h < fuel -> owned hp [t] -> kids any h (erase t) -> loop h (erase t) = Some n' ->
      wp (hloop fuel (NR h (lroot t))) hp (fun _ hp' => exists t', erase t' = n' /\ lroot t' = lroot t /\ evolves hp [t] hp' [t'] /\ keeps hp hp' (lroot t))) ->
    (forall n1 h1 n2, fix_top h (erase t) = Some (n1, h1) -> loop h1 n1 = Some n2 -> kids any h1 n2) ->
    owned hp [t] -> hung hp (lroot t) None -> kids any h (erase t) -> fix_border loop (erase t) h = Some (n', h') ->
    wp (h_fix_border hloop (NR h (lroot t))) hp (fun r hp' => exists t', r = NR h' (lroot t') /\ erase t' = n' /\ evolves hp [t] hp' [t'] /\ hung hp' (lroot t') None /\ kids any h' n').
  Proof.
    intros L LK O HR Hk E. unfold fix_border in E. destruct (fix_top h (erase t)) as [[n1 h1]|] eqn:E1; [|discriminate E].
    destruct (loop h1 n1) as [n2|] eqn:E2; [|discriminate E]. unfold h_fix_border. cbn [rh].
    apply wp_bind. eapply wp_mono; [apply (@fix_top_t h t n1 h1 hp); [lia|exact O|exact HR|exact Hk|exact E1]|].
    intros r hp1 (t1 & -> & <- & V1 & H1 & Hk1). cbn [rh].
    pose proof (L h1 t1 n2 hp1 (S h1) (Nat.lt_succ_diag_r _) (ev_own V1) Hk1 E2) as Wl. pose proof (LK _ _ _ eq_refl E2) as Hk2.
    apply wp_bind. eapply wp_mono; [exact Wl|]. intros _ hp2 (t2 & <- & R2 & V2 & KP).
    rewrite <- R2. eapply wp_mono; [apply (@fix_top_t h1 t2 n' h' hp2); [lia|exact (ev_own V2)|rewrite R2; exact (keeps_none KP H1)|exact Hk2|exact E]|].
    intros r hp3 (t3 & -> & <- & V3 & H3 & Hk3). exists t3. split; [reflexivity|]. split; [reflexivity|]. split; [eapply evolves_trans; [exact V1|]; eapply evolves_trans; eauto|]. now split.
  Qed.

  Lemma fix_right_border_t h (t : ltree) n' h' hp :
    owned hp [t] -> hung hp (lroot t) None -> rb fair h (erase t) -> nlen (erase t) <= CAPACITY -> fix_right_border (erase t) h = Some (n', h') ->
    wp (h_fix_border (@h_fix_right_loop K V) (NR h (lroot t))) hp (fun r hp' => exists t', r = NR h' (lroot t') /\ erase t' = n' /\ evolves hp [t] hp' [t'] /\ hung hp' (lroot t') None /\ kids any h' n').
  Proof.
    intros O HR Rb Lc E. apply (@fix_border_t (@fix_right_loop K V)); auto.
    - intros. now apply fix_right_loop_t.
    - intros n1 h1 n2 E1 E2. destruct (@fix_top_ok K V (rb fair) h (@rb_shape K V fair)) with (n := erase t) as (n1' & h1' & E1' & R1 & _ & L1 & P1 & _); auto.
      { intros. eapply rb_single; eauto. }
      rewrite E1 in E1'. injection E1' as <- <-.
      destruct (@fix_right_loop_ok K V h1 n1 R1 P1 L1) as (n2' & E2' & Hk & _). rewrite E2 in E2'. injection E2' as <-. eapply kids_shape; exact Hk.
    - eapply rb_shape; exact Rb.
  Qed.
  Lemma fix_left_border_t h (t : ltree) n' h' hp :
    owned hp [t] -> hung hp (lroot t) None -> lb fair h (erase t) -> nlen (erase t) <= CAPACITY -> fix_left_border (erase t) h = Some (n', h') ->
    wp (h_fix_border (@h_fix_left_loop K V) (NR h (lroot t))) hp (fun r hp' => exists t', r = NR h' (lroot t') /\ erase t' = n' /\ evolves hp [t] hp' [t'] /\ hung hp' (lroot t') None /\ kids any h' n').
  Proof.
    intros O HR Rb Lc E. apply (@fix_border_t (@fix_left_loop K V)); auto.
    - intros. now apply fix_left_loop_t.
    - intros n1 h1 n2 E1 E2. destruct (@fix_top_ok K V (lb fair) h (@lb_shape K V fair)) with (n := erase t) as (n1' & h1' & E1' & R1 & _ & L1 & P1 & _); auto.
      { intros. eapply lb_single; eauto. }
      rewrite E1 in E1'. injection E1' as <- <-.
      destruct (@fix_left_loop_ok K V h1 n1 R1 P1 L1) as (n2' & E2' & Hk & _). rewrite E2 in E2'. injection E2' as <-. eapply kids_shape; exact Hk.
    - eapply lb_shape; exact Rb.
  Qed.

  (** counting *)
  Lemma dfs_edges_t h fuel0 l ks us hp :
    (forall (t : ltree) us hp, owned hp (t :: us) -> kids any h (erase t) -> wp (h_dfs fuel0 (NR h (lroot t))) hp (fun n hp' => n = dfs h (erase t) /\ hp' = hp)) ->
    forall z a e res fuel, owned hp (LN l ks (a ++ e :: z) :: us) -> Forall (fun e => kids any h (erase e)) (e :: z) -> length ks = length a + length z -> length z < fuel ->
      wp (h_dfs_edges (h_dfs fuel0) fuel (NR (S h) l, length a) res) hp (fun n hp' => n = res + list_sum (map (dfs h) (map erase (e :: z))) /\ hp' = hp).
  Proof.
    intro S. induction z as [|e2 z IH]; intros a e res [|fuel] O F L Hf; try lia; inversion F as [|? ? Fe Fz]; subst.
    - cbn [h_dfs_edges]. st wp_down; [exact O|reflexivity|].
      pose proof (owned_focus (c := [LF l ks a []]) O) as O1. apply wp_bind. eapply wp_mono; [apply (S e us hp O1 Fe)|]. intros n hp' [-> ->].
      unfold right_kv. cbn [fst snd]. apply wp_bind. st wp_len_of; [exact O|]. rewrite L. cbn [length]. rewrite Nat.add_0_r.
      destruct (Nat.ltb_spec (length a) (length a)); [lia|]. apply wp_ret. apply wp_ret. split; [|reflexivity]. cbn [map]. unfold list_sum. cbn [fold_right]. lia.
    - cbn [h_dfs_edges]. st wp_down; [exact O|reflexivity|].
      pose proof (owned_focus (c := [LF l ks a (e2 :: z)]) O) as O1. apply wp_bind. eapply wp_mono; [apply (S e us hp O1 Fe)|]. intros n hp' [-> ->].
      unfold right_kv. cbn [fst snd]. apply wp_bind. st wp_len_of; [exact O|]. rewrite L. cbn [length] in *.
      destruct (Nat.ltb_spec (length a) (length a + Datatypes.S (length z))); [|lia].
      st wp_kv_of; [exact O|lia|]. apply wp_ret. unfold right_edge. cbn [fst snd]. st wp_edge_of; [exact O|lia|].
      replace (length a + 1) with (length (a ++ [e])) by (rewrite app_length; reflexivity).
      replace (a ++ e :: e2 :: z) with ((a ++ [e]) ++ e2 :: z) in O by (rewrite <- app_assoc; reflexivity).
      eapply wp_mono; [apply IH; [exact O|exact Fz|rewrite app_length; cbn [length]; lia|lia]|]. intros n hp' [-> ->]. split; [|reflexivity]. cbn [map]. unfold list_sum. cbn [fold_right]. lia.
  Qed.
  Lemma dfs_t h : forall (t : ltree) us hp fuel, h < fuel -> owned hp (t :: us) -> kids any h (erase t) ->
    wp (h_dfs fuel (NR h (lroot t))) hp (fun n hp' => n = dfs h (erase t) /\ hp' = hp).
  Proof.
    induction h as [|h IH]; intros t us hp [|fuel] Hf O Hk; try lia; cbn [h_dfs rh]; (st wp_len_t; [exact O|]).
    - apply wp_ret. cbn [dfs]. rewrite nlen_erase. auto.
    - destruct t as [l ks es]. cbn [HeapRep.lroot lks]. unfold first_edge. st wp_edge_of; [exact O|lia|].
      pose proof Hk as Hk0. rewrite erase_eq in Hk. cbn [kids edges] in Hk. destruct Hk as [Hn Hf']. rewrite map_length in Hn. unfold nlen in Hn. cbn [kvs] in Hn.
      destruct es as [|e es]; [cbn in Hn; lia|].
      assert (Forall (fun e => kids any h (erase e)) (e :: es)) as F.
      { clear - Hf'. revert Hf'. generalize (e :: es). intros l0 Hf. induction l0 as [|x l0 IH]; [constructor|]. cbn [map] in Hf. inversion Hf; subst. constructor; [tauto|auto]. }
      assert (length ks <= CAPACITY) as Lc by (apply owned_arity in O; tauto). cbn [length] in Hn.
      eapply wp_mono; [apply (@dfs_edges_t h fuel l ks us hp) with (a := []); [|exact O|exact F|cbn [length]; lia|unfold CAPACITY, B_ in *; lia]|].
      + intros t us' hp' O' K'. apply IH with (us := us'); [lia|exact O'|exact K'].
      + intros n hp' [-> ->]. split; [|reflexivity]. cbn [dfs]. rewrite erase_eq. reflexivity.
  Qed.

  (** split_off's descent *)
  Lemma owned_swap hp (a b : ltree) : owned hp [a; b] -> owned hp [b; a].
  Proof. apply owned_perm. apply perm_swap. Qed.
  Lemma split_loop_t q h : forall (tl tr : ltree) l' r' hp fuel, h < fuel -> owned hp [tl; tr] -> kids any h (erase tl) -> kids any h (erase tr) ->
    split_loop q h (erase tl) (erase tr) = Some (l', r') ->
    wp (h_split_loop fuel q (NR h (lroot tl)) (NR h (lroot tr))) hp (fun _ hp' => exists tl' tr', erase tl' = l' /\ erase tr' = r' /\
      lroot tl' = lroot tl /\ lroot tr' = lroot tr /\ evolves hp [tl; tr] hp' [tl'; tr'] /\ keeps hp hp' (lroot tl) /\ keeps hp hp' (lroot tr)).
  Proof.
    induction h as [|h IH]; intros tl tr l' r' hp [|fuel] Hf O Hkl Hkr E; try lia.
    - destruct tl as [ll ks es], tr as [lr kr er]. cbn [kids] in Hkl, Hkr. rewrite edges_erase in Hkl, Hkr. cbn [les] in Hkl, Hkr.
      destruct es; [|discriminate Hkl]. destruct er; [|discriminate Hkr]. cbn [HeapRep.lroot].
      cbn [split_loop] in E. rewrite kvs_erase in E. cbn [lks] in E. unfold move_suffix in E. rewrite !nlen_erase in E. cbn [lks] in E.
      pose proof (search_linear_len q ks) as [Ls1 Ls2]. set (i := fst (search_linear q ks)) in *.
      destruct (Nat.ltb_spec (length ks) i); [lia|]. destruct kr; [|discriminate E]. cbn [length Nat.eqb negb orb] in E.
      destruct (@split_firstn _ ks i Ls1) as (k1 & k2 & Ek & Lk).
      cbn [h_split_loop rh]. unfold h_search_linear. apply wp_bind. st (@wp_keys_t K V 0 (LN ll ks []) [LN lr [] []]); [exact O|]. cbn [lks]. apply wp_ret. rewrite key_linear_eq. fold i.
      apply wp_bind. apply wp_mono with (Q := fun e hp' => e = (NR 0 ll, i) /\ hp' = hp).
      { destruct (snd (search_linear q ks)).
        - st wp_kv_of; [exact O|auto|]. unfold left_edge. cbn [fst snd]. eapply wp_edge_of; [exact O|exact Ls1|]. auto.
        - eapply wp_edge_of; [exact O|exact Ls1|]. auto. }
      intros e hp' [-> ->]. cbn [fst snd]. clearbody i. subst ks i.
      apply wp_bind. eapply wp_mono; [apply (@move_suffix_ok K V 0 ll k1 k2 [] [] lr [] hp); [exact O|left; auto]|].
      intros _ hp1 (V1 & KA & KB). apply wp_ret. rewrite !kvs_erase, !edges_erase in E. cbn [lks les map] in E. rewrite !firstn_nil, skipn_nil in E.
      rewrite firstn_app, skipn_app, Nat.sub_diag, firstn_all, skipn_all in E. cbn [firstn skipn app] in E. rewrite app_nil_r in E. injection E as <- <-.
      exists (LN ll k1 []), (LN lr k2 []). split; [reflexivity|]. split; [reflexivity|]. split; [reflexivity|]. split; [reflexivity|]. split; [exact V1|]. now split.
    - destruct tl as [ll ks es], tr as [lr kr er]. cbn [HeapRep.lroot].
      pose proof (kids_les Hkl) as Sl. pose proof (kids_les Hkr) as Sr. cbn [les lks] in Sl, Sr. destruct Sl as [[? _]|[_ Sl]]; [lia|]. destruct Sr as [[? _]|[_ Sr]]; [lia|].
      cbn [split_loop] in E. rewrite kvs_erase in E. cbn [lks] in E. unfold move_suffix in E. rewrite !nlen_erase in E. cbn [lks] in E.
      pose proof (search_linear_len q ks) as [Ls1 Ls2]. set (i := fst (search_linear q ks)) in *.
      destruct (Nat.ltb_spec (length ks) i); [lia|]. destruct kr; [|discriminate E]. cbn [length Nat.eqb negb orb] in E, Sr.
      destruct (@split_firstn _ ks i Ls1) as (k1 & k2 & Ek & Lk).
      destruct (@split_firstn _ es i) as (ea & e' & Ee & Le); [lia|]. destruct e' as [|el e2]; [exfalso; subst es; rewrite app_nil_r in Sl; lia|].
      destruct er as [|er [|]]; cbn [length] in Sr; try lia.
      cbn [h_split_loop rh]. unfold h_search_linear. apply wp_bind. st (@wp_keys_t K V (S h) (LN ll ks es) [LN lr [] [er]]); [exact O|]. cbn [lks]. apply wp_ret. rewrite key_linear_eq. fold i.
      apply wp_bind. apply wp_mono with (Q := fun e hp' => e = (NR (S h) ll, i) /\ hp' = hp).
      { destruct (snd (search_linear q ks)).
        - st wp_kv_of; [exact O|auto|]. unfold left_edge. cbn [fst snd]. eapply wp_edge_of; [exact O|exact Ls1|]. auto.
        - eapply wp_edge_of; [exact O|exact Ls1|]. auto. }
      intros e hp' [-> ->]. cbn [fst snd]. clearbody i.
      assert (es = (ea ++ [el]) ++ e2) as Ee2 by (rewrite <- app_assoc; exact Ee). clear Ee. subst ks es i.
      rewrite !app_length in Sl. cbn [length] in Sl.
      apply wp_bind. eapply wp_mono; [apply (@move_suffix_ok K V (S h) ll k1 k2 (ea ++ [el]) e2 lr [er] hp); [exact O|right; rewrite app_length; cbn [length]; lia]|].
      intros _ hp1 (V1 & KA & KB). cbn [app] in V1.
      pose (fl := LF ll k1 ea []). pose (fr := LF lr k2 [] e2). change (LN ll k1 (ea ++ [el])) with (lfill fl el) in V1. change (LN lr k2 (er :: e2)) with (lfill fr er) in V1.
      rewrite !kvs_erase, !edges_erase in E. cbn [lks les] in E.
      rewrite firstn_app, skipn_app, Nat.sub_diag, firstn_all, skipn_all in E. cbn [firstn skipn app] in E. rewrite app_nil_r in E.
      rewrite map_app, firstn_app, skipn_app, map_length, app_length in E. cbn [length] in E. rewrite Le, Nat.sub_diag in E.
      rewrite firstn_all2, skipn_all2 in E by (rewrite map_length, app_length; cbn [length]; lia). cbn [firstn skipn app map] in E. rewrite app_nil_r in E.
      change (Node k1 (map erase (ea ++ [el]))) with (erase (lfill fl el)) in E. change (Node k2 (erase er :: map erase e2)) with (erase (lfill fr er)) in E.
      rewrite <- Le in E. change (length ea) with (length (lfa fl)) in E. rewrite descend_fill in E.
      change 0 with (length (lfa fr)) in E. rewrite descend_fill in E.
      destruct (split_loop q h (erase el) (erase er)) as [[el' er']|] eqn:E2; [|discriminate E]. injection E as <- <-.
      pose proof (ev_own V1) as O1.
      assert (owned hp1 [lfill fl el; er]) as O2 by (apply owned_swap; exact (owned_focus (c := [fr]) (owned_swap O1))).
      assert (owned hp1 [el; er]) as O3 by exact (owned_focus (c := [fl]) O2).
      st (wp_down_t (lf := fl)); [exact O1|exact Le|]. unfold first_edge. st wp_edge_of; [exact (owned_swap O1)|lia|].
      st (wp_down_t (lf := fr)); [exact (owned_swap O1)|reflexivity|].
      assert (kids any h (erase el) /\ kids any h (erase er)) as [Kel Ker].
      { clear - Hkl Hkr. rewrite erase_eq in Hkl, Hkr. cbn [kids edges map] in Hkl, Hkr. destruct Hkl as [_ Fl], Hkr as [_ Fr].
        rewrite !map_app in Fl. apply Forall_app in Fl as [Fl _]. apply Forall_app in Fl as [_ Fl]. cbn [map] in Fl. inversion Fl; inversion Fr; tauto. }
      eapply wp_mono; [apply (IH el er (el') (er') hp1 fuel); [lia|exact O3|exact Kel|exact Ker|exact E2]|].
      intros _ hp2 (tl2 & tr2 & <- & <- & R1 & R2 & V2 & K1 & K2).
      destruct (@evolves_plug K V hp1 hp2 [fl] el [er] tl2 [tr2] O2 V2 R1 K1) as [V3 K3]. cbn [lplug] in V3, K3.
      assert (evolves hp1 [er; lfill fl el] hp2 [tr2; lfill fl tl2]) as V4 by (eapply evolves_perm; [apply perm_swap|apply perm_swap|exact V3]).
      destruct (@evolves_plug K V hp1 hp2 [fr] er [lfill fl el] tr2 [lfill fl tl2] (owned_swap O1) V4 R2 K2) as [V5 K5]. cbn [lplug] in V5, K5.
      exists (lfill fl tl2), (lfill fr tr2). split; [apply erase_fill|]. split; [apply erase_fill|]. split; [reflexivity|]. split; [reflexivity|].
      split; [eapply evolves_trans; [exact V1|]; eapply evolves_perm; [apply perm_swap|apply perm_swap|exact V5]|].
      split; eapply keeps_trans; eauto.
  Qed.
End Border.
