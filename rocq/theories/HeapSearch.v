(** * HeapSearch: search, leaf edges and removal of an entry on the heap.
    Nothing here needs the comparison to be an order. *)
From Coq Require Import List Arith Lia Bool Permutation.
From Verif Require Import Base MapSpec BTreeModel BTreeInv BTreeLemmas BTreeSearch BTreeSurgery BTreeRemove.
From Verif Require Import HeapModel HeapArr HeapRep HeapWp HeapNode HeapOps HeapOps2 HeapOps3 HeapOps4 HeapZip HeapRemove.
Import ListNotations.
Set Implicit Arguments.
Unset Strict Implicit.

Section Search.
  Variables (K V : Type).
  Notation kv := (K * V)%type.
  Notation cell := (cell K V).
  Notation heap := (heap K V).
  Notation HM := (HM K V).
  Notation ltree := (ltree K V).
  Notation lroot := (@lroot K V).
  Notation erase := (@erase K V).
  Implicit Types (hp : heap).

  Lemma key_linear_eq q (ks : list kv) : key_linear q (map fst ks) = search_linear q ks.
  Proof. induction ks as [|e ks IH]; [reflexivity|]. cbn. now rewrite IH. Qed.
  Lemma search_linear_len q (ks : list kv) : fst (search_linear q ks) <= length ks /\ (snd (search_linear q ks) = true -> fst (search_linear q ks) < length ks).
  Proof.
    induction ks as [|e ks [IH1 IH2]]; cbn; [split; [lia|discriminate]|].
    destruct (q (fst e)); cbn; [split; lia|split; [lia|discriminate]|].
    destruct (search_linear q ks) as [i b]. cbn in *. split; [lia|]. intro. specialize (IH2 H). lia.
  Qed.

  (** one level down *)
  Lemma down_t P h (t : ltree) i : kids P (S h) (erase t) -> i <= length (lks t) ->
    exists t' lf, t = lfill lf t' /\ length (lfa lf) = i /\ lfl lf = lroot t /\ lfk lf = lks t /\ descend (erase t) i = Some (erase t', eframe lf) /\
      P (nlen (erase t')) /\ kids P h (erase t') /\ frame_ok (eframe lf) /\
      Forall (sub P h) (fl (eframe lf)) /\ Forall (sub P h) (fr (eframe lf)).
  Proof.
    intros Hk Hi. destruct (@descend_ok K V P h (erase t) i Hk) as (e & f & Hd); [now rewrite nlen_erase|].
    destruct (@descend_kids K V P (fun _ _ => True) h (erase t) i e f Hk Hd) as (_ & _ & H1 & H2 & [H3 H4] & H5 & _).
    destruct (descend_loc Hd) as (t' & lf & -> & -> & -> & L). exists t', lf. repeat (split; [auto|]). auto.
  Qed.

  Definition hfound (r : hsearch) : bool := match r with HFound _ => true | HGoDown _ => false end.

  Lemma search_t q h : forall (t : ltree) hp us fuel, h < fuel -> owned hp (t :: us) -> kids any h (erase t) ->
    wp (h_search_tree fuel q (NR h (lroot t))) hp (fun r hp' => hp' = hp /\
      exists t' c' h' i, t = lplug t' c' /\ h' + length c' = h /\
        ((r = HFound (NR h' (lroot t'), i) /\ i < length (lks t') /\
          forall c0, search_tree q h (erase t) c0 = Some (Found (Handle (erase t') h' (ectx c' ++ c0) i))) \/
         (r = HGoDown (NR h' (lroot t'), i) /\ h' = 0 /\ i <= length (lks t') /\
          forall c0, search_tree q h (erase t) c0 = Some (GoDown (Handle (erase t') h' (ectx c' ++ c0) i))))).
  Proof.
    induction h as [|h IH]; intros t hp us fuel Fu O Hk; (destruct fuel as [|fuel]; [lia|]);
      cbn [h_search_tree search_tree rh]; unfold h_search_linear.
    - apply wp_bind. st wp_keys_t; [exact O|]. apply wp_ret. rewrite key_linear_eq, kvs_erase.
      destruct (search_linear_len q (lks t)) as [L1 L2]. destruct (search_linear q (lks t)) as [i b]. cbn [fst snd] in *.
      destruct b.
      + st wp_kv_t; [exact O|auto|]. apply wp_ret. split; [reflexivity|]. exists t, [], 0, i.
        split; [reflexivity|]. split; [reflexivity|]. left. auto.
      + st wp_edge_t; [exact O|auto|]. apply wp_ret. split; [reflexivity|]. exists t, [], 0, i.
        split; [reflexivity|]. split; [reflexivity|]. right. auto.
    - apply wp_bind. st wp_keys_t; [exact O|]. apply wp_ret. rewrite key_linear_eq, kvs_erase.
      destruct (search_linear_len q (lks t)) as [L1 L2]. destruct (search_linear q (lks t)) as [i b]. cbn [fst snd] in *.
      destruct b.
      + st wp_kv_t; [exact O|auto|]. apply wp_ret. split; [reflexivity|]. exists t, [], (S h), i.
        split; [reflexivity|]. split; [cbn; lia|]. left. auto.
      + st wp_edge_t; [exact O|auto|].
        destruct (@down_t any h t i Hk L1) as (t' & lf & E & La & Ef & _ & Hd & _ & Hk' & _).
        rewrite Hd, <- Ef. rewrite E in O. st wp_down_t; [exact O|exact La|].
        unfold lfill in O. destruct (owned_child O) as (O' & _).
        eapply wp_mono; [apply (IH t' hp us fuel); [lia|exact O'|exact Hk']|].
        intros r hp' (-> & t2 & c2 & h2 & j & E2 & L & D). split; [reflexivity|]. exists t2, (c2 ++ [lf]), h2, j.
        split; [rewrite lplug_app, <- E2; cbn; exact E|]. split; [rewrite app_length; cbn; lia|].
        destruct D as [(-> & L3 & D) | (-> & L3 & L4 & D)]; [left|right]; repeat (split; [auto|]); intro c0;
          rewrite (D (eframe lf :: c0)), ectx_app; cbn [ectx map]; now rewrite <- app_assoc.
  Qed.

  Lemma first_leaf_t P h : forall (t : ltree) hp us fuel, h < fuel -> owned hp (t :: us) -> kids P h (erase t) ->
    wp (h_first_leaf_edge fuel (NR h (lroot t))) hp (fun r hp' => hp' = hp /\
      exists t' c', t = lplug t' c' /\ length c' = h /\ r = (NR 0 (lroot t'), 0) /\ kids P 0 (erase t') /\
        forall c0, first_leaf_edge h (erase t) c0 = Some (Handle (erase t') 0 (ectx c' ++ c0) 0)).
  Proof.
    induction h as [|h IH]; intros t hp us fuel Fu O Hk; (destruct fuel as [|fuel]; [lia|]); cbn [h_first_leaf_edge first_leaf_edge rh].
    - eapply wp_edge_t; [exact O|lia|]. split; [reflexivity|]. exists t, []. repeat (split; [auto|]). auto.
    - st wp_edge_t; [exact O|lia|].
      destruct (@down_t P h t 0 Hk ltac:(lia)) as (t' & lf & E & La & Ef & _ & Hd & _ & Hk' & _).
      rewrite Hd, <- Ef. rewrite E in O. st wp_down_t; [exact O|exact La|].
      unfold lfill in O. destruct (owned_child O) as (O' & _).
      eapply wp_mono; [apply (IH t' hp us fuel); [lia|exact O'|exact Hk']|].
      intros r hp' (-> & t2 & c2 & E2 & L & -> & H0 & D). split; [reflexivity|]. exists t2, (c2 ++ [lf]).
      split; [rewrite lplug_app, <- E2; cbn; exact E|]. split; [rewrite app_length; cbn; lia|]. split; [reflexivity|].
      split; [exact H0|]. intro c0. rewrite (D (eframe lf :: c0)), ectx_app; cbn [ectx map]; now rewrite <- app_assoc.
  Qed.
  Lemma last_leaf_t P h : forall (t : ltree) hp us fuel, h < fuel -> owned hp (t :: us) -> kids P h (erase t) ->
    wp (h_last_leaf_edge fuel (NR h (lroot t))) hp (fun r hp' => hp' = hp /\
      exists t' c', t = lplug t' c' /\ length c' = h /\ r = (NR 0 (lroot t'), length (lks t')) /\ kids P 0 (erase t') /\
        forall c0, last_leaf_edge h (erase t) c0 = Some (Handle (erase t') 0 (ectx c' ++ c0) (length (lks t')))).
  Proof.
    induction h as [|h IH]; intros t hp us fuel Fu O Hk; (destruct fuel as [|fuel]; [lia|]); cbn [h_last_leaf_edge last_leaf_edge rh].
    - st wp_len_t; [exact O|]. eapply wp_edge_t; [exact O|lia|]. split; [reflexivity|]. exists t, [].
      repeat (split; [auto|]). intro c0. now rewrite nlen_erase.
    - unfold last_edge. apply wp_bind. st wp_len_t; [exact O|]. eapply wp_edge_t; [exact O|lia|].
      destruct (@down_t P h t (length (lks t)) Hk ltac:(lia)) as (t' & lf & E & La & Ef & _ & Hd & _ & Hk' & _).
      rewrite nlen_erase, Hd. replace (NR (S h) (lroot t)) with (NR (S h) (lfl lf)) by now rewrite Ef.
      rewrite E in O. st wp_down_t; [exact O|exact La|].
      unfold lfill in O. destruct (owned_child O) as (O' & _).
      eapply wp_mono; [apply (IH t' hp us fuel); [lia|exact O'|exact Hk']|].
      intros r hp' (-> & t2 & c2 & E2 & L & -> & H0 & D). split; [reflexivity|]. exists t2, (c2 ++ [lf]).
      split; [rewrite lplug_app, <- E2; cbn; exact E|]. split; [rewrite app_length; cbn; lia|]. split; [reflexivity|].
      split; [exact H0|]. intro c0. rewrite (D (eframe lf :: c0)), ectx_app; cbn [ectx map]; now rewrite <- app_assoc.
  Qed.

  Lemma wp_bind_assoc2 A B C D E (m : HM A) (f : A -> HM B) (g : A -> B -> HM C) (g2 : A -> B -> C -> HM D) (k : A -> C -> E) hp Q :
    wp (hbind (hbind m (fun a => hbind (f a) (fun b => hbind (g a b) (fun c => hbind (g2 a b c) (fun _ => hret (a, c)))))) (fun r => hret (k (fst r) (snd r)))) hp Q ->
    wp (hbind m (fun a => hbind (f a) (fun b => hbind (g a b) (fun c => hbind (g2 a b c) (fun _ => hret (k a c)))))) hp Q.
  Proof.
    unfold wp, hbind, hret. destruct (m hp) as [[a hp1]|]; auto. destruct (f a hp1) as [[b hp2]|]; auto.
    destruct (g a b hp2) as [[c hp3]|]; auto. destruct (g2 a b c hp3) as [[d hp4]|]; auto.
  Qed.

  (** overwriting a pair *)
  Lemma swap_kv_ok l i x y ka kz (es : list ltree) hp :
    owned hp [LN l (ka ++ x :: kz) es] -> length ka = i ->
    wp (hbind (a_read (akeys K V) l i) (fun ok => hbind (a_write (akeys K V) l i (fst y)) (fun _ =>
        hbind (a_read (avals K V) l i) (fun ov => hbind (a_write (avals K V) l i (snd y)) (fun _ => hret (ok, ov)))))) hp (fun r hp' =>
      r = x /\ evolves hp [LN l (ka ++ x :: kz) es] hp' [LN l (ka ++ y :: kz) es] /\ keeps hp hp' l).
  Proof.
    intros O Lk. destruct (owned_node O) as (N & (c & G & C) & _). destruct C as [C1 C2 C3 C4 C5 C6].
    pose proof C3 as C3'. pose proof C4 as C4'. rewrite map_app in C3', C4'. cbn [map] in C3', C4'.
    destruct (holds_mid C3') as (K1 & _ & _). destruct (holds_mid C4') as (V1 & _ & _). rewrite map_length, Lk in K1, V1.
    destruct (@overwrite_holds K _ _ _ i (fst x) (fst y) (map fst ka) (map fst kz) C3') as (ka' & Ek & Hka); [apply pick_app'; lens|].
    destruct (@overwrite_holds V _ _ _ i (snd x) (snd y) (map snd ka) (map snd kz) C4') as (va' & Ev & Hva); [apply pick_app'; lens|].
    st wp_a_read; [hgs|exact K1|]. st wp_a_write; [exact N|hgs|exact Ek|]. intros hp1 U1. cbn in U1.
    st wp_a_read; [hgs|exact V1|]. st wp_a_write; [exact N|hgs|exact Ev|]. intros hp2 U2. cbn in U2.
    apply wp_ret. rewrite pair_eta. split; [reflexivity|].
    pose proof (hup_trans U1 U2) as U. split.
    - eapply evolves_cell; [exact O|exact U|]. constructor; cbn; auto; rewrite ?map_app; auto; [lens|].
      revert C6. destruct (is_int es); intro; [lens|assumption].
    - eapply keeps_hup; [exact G|exact U|reflexivity|reflexivity].
  Qed.

  (** map.rs 2575-2618 *)
  Lemma remove_kv_t (T t : ltree) c h i x hp :
    T = lplug t c -> owned hp [T] -> hung hp (lroot T) None ->
    hok fair root_fair (h + length c) (erase T) (Handle (erase t) h (ectx c) i) -> nth_error (lks t) i = Some x ->
    wp (h_remove_kv (NR (h + length c) (lroot T)) (NR h (lroot t), i)) hp (fun r hp' =>
      exists T' H', remove_kv (h + length c) (Handle (erase t) h (ectx c) i) = Ret (x, (erase T', H')) /\
        r = (x, NR H' (lroot T')) /\ evolves hp [T] hp' [T'] /\ hung hp' (lroot T') None).
  Proof.
    intros ET O HR (_ & _ & Hb & Hk & Hc) Hx. cbn [hn hh hc hi] in *. rewrite ET in O, HR |- *.
    apply nth_error_split in Hx as (ka & kz & Ek & La).
    unfold h_remove_kv, remove_kv. cbn [fst snd rh hh hn hi hc]. destruct h as [|h].
    - (* leaf *)
      pose proof (kids_les Hk) as Hl. destruct t as [l ks es]. cbn [lks les HeapRep.lroot] in *.
      destruct Hl as [[_ ->] | [? _]]; [|lia]. subst ks.
      apply wp_bind. st wp_mono; [apply (@leaf_remove_ok K V l 0 i x ka kz); [exact (owned_focus O)|exact La]|].
      intros r hp1 (-> & E1 & KP1). apply wp_ret. cbn [fst snd].
      destruct (@evolves_plug K V hp hp1 c _ [] (LN l (ka ++ kz) []) [] O E1 eq_refl KP1) as [E1' KP'].
      rewrite (@lplug_root K V c (LN l (ka ++ kz) []) (LN l (ka ++ x :: kz) [])) by reflexivity.
      apply wp_bind. cbn [rh].
      eapply wp_mono; [apply (@fix_underflow_t K V c 0 (LN l (ka ++ kz) []) hp1 (S (length c)));
        [exact (ev_own E1')| |lia|reflexivity|exact Hc|]|].
      { rewrite (@lplug_root K V c (LN l (ka ++ x :: kz) []) (LN l (ka ++ kz) []) eq_refl). apply KP'. exact HR. }
      { rewrite nlen_erase in *. cbn [lks] in *. unfold bound in *. destruct (ectx c); unfold root_fair, hole, fair, REAL_MIN, B_ in *; lens. }
      intros r hp2 (T' & H' & E & -> & E2 & H2). apply wp_ret. exists T', H'.
      rewrite !erase_eq in *. cbn [kvs edges map] in *. rewrite slice_remove_app by exact La. cbn [Nat.add] in *. rewrite E.
      split; [reflexivity|]. split; [reflexivity|]. split; [exact (evolves_trans E1' E2)|exact H2].
    - (* internal node *)
      destruct (@down_t fair h t (i + 1) Hk) as (e & lf & Et & Lf & El & Elk & Hd & He & Hke & FO & Fa & Fz).
      { rewrite Ek. lens. }
      pose proof (owned_focus O) as Ot.
      apply wp_bind. st wp_not_shared_t; [exact Ot|]. st wp_keys_t; [exact Ot|]. st wp_vals_t; [exact Ot|].
      unfold right_edge. cbn [fst snd]. st wp_edge_t; [exact Ot|rewrite Ek; lens|].
      rewrite Hd. rewrite <- El. pose proof Ot as Ot'. rewrite Et in Ot'. st wp_down_t; [exact Ot'|exact Lf|].
      unfold lfill in Ot'. destruct (owned_child Ot') as (Oe & _).
      st wp_mono; [apply (@first_leaf_t fair h e hp [] (S h)); [lia|exact Oe|exact Hke]|]. cbn [rh].
      intros r hp0 (-> & t' & c1 & Ee & L1 & -> & K0 & FL).
      destruct (@first_leaf_ok K V fair (fun _ => fair) h (erase e) [] He Hke I) as (c1' & lf' & E' & Ec' & _ & _ & _ & _ & Hok & _).
      rewrite (FL []) in E'. injection E' as <-. cbn [hc] in Ec'. rewrite !app_nil_r in Ec'. subst c1'.
      destruct Hok as (_ & _ & Hbl & Hkl & Hcl). cbn [hn hh hc hi] in *. rewrite app_nil_r in *.
      assert (fair (nlen (erase t'))) as Ft by (destruct (ectx c1); exact Hbl). rewrite nlen_erase in Ft.
      assert (T = lplug t' (c1 ++ lf :: c)) as ET2 by (rewrite ET, Et, Ee, lplug_app; reflexivity).
      rewrite <- ET, ET2 in O, HR. 
      unfold right_kv. cbn [fst snd]. pose proof (owned_focus O) as Ot2.
      apply wp_bind. st wp_len_t; [exact Ot2|].
      destruct (Nat.ltb_spec 0 (length (lks t'))) as [Hp | Hp]; [|unfold fair, REAL_MIN, B_ in Ft; lia].
      st wp_kv_t; [exact Ot2|exact Hp|]. apply wp_ret. st wp_option; [reflexivity|].
      pose proof (kids_les K0) as Hl0. destruct t' as [l' ks' es']. cbn [lks les HeapRep.lroot] in *.
      destruct Hl0 as [[_ ->] | [? _]]; [|lia]. destruct ks' as [|y k0]; [cbn in Hp; lia|].
      st wp_mono; [apply (@leaf_remove_ok K V l' 0 0 y [] k0); [exact Ot2|reflexivity]|].
      intros r hp1 (-> & E1 & KP1). cbn [fst snd app] in *.
      destruct (@evolves_plug K V hp hp1 (c1 ++ lf :: c) _ [] (LN l' k0 []) [] O E1 eq_refl KP1) as [E1' KP1'].
      pose proof (ev_own E1') as O1. rewrite lplug_app in O1. cbn [lplug] in O1. pose proof (owned_focus O1) as O1f.
      unfold lfill in O1f. rewrite Elk, Ek in O1f. cbn [rl].
      apply wp_bind_assoc2. apply wp_bind.
      eapply wp_mono; [apply (@swap_kv_ok (lfl lf) i x y ka kz _ hp1 O1f La)|].
      intros r hp2 (-> & E2 & KP2). apply wp_ret. cbn [fst snd rh].
      pose (lf2 := LF (lfl lf) (ka ++ y :: kz) (lfa lf) (lfz lf)).
      assert (lfill lf (lplug (LN l' k0 []) c1) = LN (lfl lf) (ka ++ x :: kz) (lfa lf ++ lplug (LN l' k0 []) c1 :: lfz lf)) as EX
        by (unfold lfill; now rewrite Elk, Ek).
      assert (evolves hp1 [lplug (LN l' k0 []) (c1 ++ lf :: c)] hp2 [lplug (LN l' k0 []) (c1 ++ lf2 :: c)] /\
              keeps hp1 hp2 (lroot (lplug (LN l' k0 []) (c1 ++ lf :: c)))) as [E2' KP2'].
      { rewrite !lplug_app. cbn [lplug]. apply evolves_plug; [exact O1| | |].
        - rewrite EX. exact E2.
        - reflexivity.
        - exact KP2. }
      assert (lroot (lplug t c) = lroot (lplug (LN l' k0 []) (c1 ++ lf2 :: c))) as ER.
      { rewrite <- ET, ET2, !lplug_app. cbn [lplug]. apply lplug_root. reflexivity. }
      rewrite ER.
      assert (length (c1 ++ lf2 :: c) = S h + length c) as EL by (rewrite app_length; cbn; lia).
      apply wp_bind.
      pose proof (@fix_underflow_t K V (c1 ++ lf2 :: c) 0 (LN l' k0 []) hp2 (S (S h + length c))) as FU.
      rewrite EL in FU. cbn [Nat.add] in FU. eapply wp_mono; [apply FU; [exact (ev_own E2')| |lia|reflexivity| |]|].
      { rewrite <- ER, <- ET, ET2.
        rewrite (@lplug_root K V (c1 ++ lf :: c) (LN l' k0 []) (LN l' (y :: k0) []) eq_refl). apply KP2'.
        rewrite (@lplug_root K V (c1 ++ lf :: c) (LN l' (y :: k0) []) (LN l' k0 []) eq_refl). apply KP1'. exact HR. }
      { rewrite ectx_app. cbn [ectx map]. eapply cok_swap with (f := eframe lf); [reflexivity|reflexivity| |].
        { cbn. rewrite Elk, Ek. lens. }
        assert (cok fair root_fair h (eframe lf :: ectx c)) as Hc2.
        { cbn [cok]. split; [exact FO|]. split; [exact Fa|]. split; [exact Fz|]. split; [|exact Hc].
          cbn [eframe fk]. rewrite nlen_erase in Hb. rewrite Elk. exact Hb. }
        assert (forall c2 h2, cok fair (fun _ => fair) h2 c2 -> cok fair root_fair (h2 + length c2) (eframe lf :: ectx c) ->
                 cok fair root_fair h2 (c2 ++ eframe lf :: ectx c)) as Hg.
        { clear. induction c2 as [|g c2 IH]; intros h2 H1 H2; [rewrite Nat.add_0_r in H2; exact H2|].
          cbn [app cok length] in *. destruct H1 as (A1 & A2 & A3 & A4 & A5). repeat (split; [assumption|]). split.
          - destruct c2; exact A4.
          - apply IH; auto. now replace (S h2 + length c2) with (h2 + S (length c2)) by lia. }
        apply Hg; [exact Hcl|]. rewrite ectx_length, L1. exact Hc2. }
      { rewrite nlen_erase. cbn [lks]. rewrite ectx_app. unfold bound. cbn [length] in Ft.
        destruct (ectx c1 ++ ectx (lf2 :: c)) eqn:E0; [now destruct (ectx c1)|]. unfold hole, fair, REAL_MIN, B_ in *. lia. }
      intros r hp3 (T' & H' & E & -> & E3 & H3). apply wp_ret. cbn [fst snd]. exists T', H'. split.
      + rewrite kvs_erase, Ek, pick_app' by exact La. rewrite (FL []). cbn [hi hn hc]. rewrite app_nil_r.
        rewrite kvs_erase, edges_erase. cbn [lks les map]. unfold slice_remove, pick. cbn [nth_error firstn skipn app].
        rewrite ectx_app in E. match type of E with ?X = _ => match goal with
          |- context [fix_underflow ?a ?b ?n ?d] => change (fix_underflow a b n d) with X end end.
        rewrite E. reflexivity.
      + split; [now destruct x|]. split; [|exact H3]. rewrite <- ET, ET2. exact (evolves_trans E1' (evolves_trans E2' E3)).
  Qed.
End Search.
