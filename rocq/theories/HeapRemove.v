(** * HeapRemove: removal on the heap does what it does on trees. *)
From Coq Require Import List Arith Lia Bool Permutation.
From Verif Require Import Base MapSpec BTreeModel BTreeInv BTreeLemmas BTreeSearch BTreeSurgery BTreeRemove.
From Verif Require Import HeapModel HeapArr HeapRep HeapWp HeapNode HeapOps HeapOps2 HeapOps3 HeapOps4 HeapZip.
Import ListNotations.
Set Implicit Arguments.
Unset Strict Implicit.

Section Rem.
  Variables (K V : Type).
  Notation kv := (K * V)%type.
  Notation cell := (cell K V).
  Notation heap := (heap K V).
  Notation HM := (HM K V).
  Notation ltree := (ltree K V).
  Notation lroot := (@lroot K V).
  Notation erase := (@erase K V).
  Implicit Types (hp : heap).

  (** ** layer 1 on explicit nodes *)
  Lemma steal_left_at h (pa : list kv) x pz a k1 y e1 oe k2 e2 z :
    length pa = length a -> (h = 0 /\ oe = []) \/ (0 < h /\ length oe = 1 /\ length e1 = length k1 + 1) ->
    steal_left h (at_kv pa x pz a (Node (k1 ++ [y]) (e1 ++ oe)) (Node k2 e2) z) (length a) =
    Some (at_kv pa y pz a (Node k1 e1) (Node (x :: k2) (oe ++ e2)) z).
  Proof.
    intros L H. destruct (@at_kv_picks K V pa x pz a (Node (k1 ++ [y]) (e1 ++ oe)) (Node k2 e2) z L) as (E1 & E2 & _).
    unfold steal_left. rewrite E1, E2. unfold pop, nlen. cbn [kvs edges]. rewrite rev_app_distr. cbn [rev app].
    rewrite app_length. cbn [length]. replace (length k1 + 1 - 1) with (length k1) by lia.
    rewrite (firstn_app_len _ [y]) by reflexivity.
    destruct H as [[-> ->] | (Hh & Lo & Le)].
    - rewrite app_nil_r. reflexivity.
    - destruct h as [|h]; [lia|]. destruct oe as [|e [|]]; try (cbn in Lo; lia).
      rewrite nth_error_app2, Le, Nat.sub_diag by lia. cbn [nth_error]. rewrite firstn_app_len by lia. reflexivity.
  Qed.
  Lemma steal_right_at h (pa : list kv) x pz a k1 y e1 oe k2 e2 z :
    length pa = length a -> (h = 0 /\ oe = []) \/ (0 < h /\ length oe = 1 /\ length e1 = length k1 + 1) ->
    steal_right h (at_kv pa x pz a (Node k1 e1) (Node (y :: k2) (oe ++ e2)) z) (length a) =
    Some (at_kv pa y pz a (Node (k1 ++ [x]) (e1 ++ oe)) (Node k2 e2) z).
  Proof.
    intros L H. destruct (@at_kv_picks K V pa x pz a (Node k1 e1) (Node (y :: k2) (oe ++ e2)) z L) as (E1 & E2 & _).
    unfold steal_right. rewrite E1, E2. unfold pop_front, slice_remove, pick. cbn [kvs edges nth_error firstn skipn app].
    destruct H as [[-> ->] | (Hh & Lo & Le)].
    - cbn [push app kvs edges]. rewrite app_nil_r. reflexivity.
    - destruct h as [|h]; [lia|]. destruct oe as [|e [|]]; try (cbn in Lo; lia).
      cbn [app nth_error firstn skipn push kvs edges]. unfold nlen. cbn [kvs]. rewrite <- Le, firstn_all. reflexivity.
  Qed.

  Lemma wp_bind_assoc A B C (m : HM A) (f : A -> HM B) (g : B -> HM C) hp Q :
    wp (hbind (hbind m f) g) hp Q -> wp (hbind m (fun a => hbind (f a) g)) hp Q.
  Proof. unfold wp, hbind. destruct (m hp) as [[a hp1]|]; auto. Qed.

  (** the pair [j] of an owned node and the children around it *)
  Lemma wp_can_merge h lp ka x kz a t1 t2 z us i hp (Q : bool -> heap -> Prop) :
    owned hp (LN lp (ka ++ x :: kz) (a ++ t1 :: t2 :: z) :: us) -> length ka = i -> length a = i ->
    Q (length (lks t1) + length (lks t2) + 1 <=? CAPACITY) hp -> wp (h_can_merge (NR (S h) lp, i)) hp Q.
  Proof.
    intros O Lk La H. unfold h_can_merge, left_edge, right_edge. cbn [fst snd].
    st wp_edge_of; [exact O|lens|]. st wp_down; [exact O|exact La|].
    destruct (owned_child O) as (O1 & _).
    st wp_len_t; [exact O1|]. st wp_edge_of; [exact O|lens|].
    replace (a ++ t1 :: t2 :: z) with ((a ++ [t1]) ++ t2 :: z) in O by now rewrite <- app_assoc.
    st wp_down; [exact O|lens|]. destruct (owned_child O) as (O2 & _). st wp_len_t; [exact O2|]. apply wp_ret. exact H.
  Qed.

  (** shape of the children, from the layer-1 invariant *)
  Lemma kids_les P h (t : ltree) : kids P h (erase t) ->
    (h = 0 /\ les t = []) \/ (0 < h /\ length (les t) = S (length (lks t))).
  Proof.
    destruct h as [|h]; cbn [kids].
    - rewrite edges_erase. intro E. left. split; [reflexivity|]. now apply map_eq_nil in E.
    - intros [E _]. right. rewrite edges_erase, map_length, nlen_erase in E. split; [lia|exact E].
  Qed.
  Lemma kids_is_int P h (t : ltree) : kids P h (erase t) -> is_int (les t) = (0 <? h).
  Proof.
    intro H. destruct (kids_les H) as [[-> ->] | [H1 H2]]; [reflexivity|].
    destruct h; [lia|]. destruct (les t); [discriminate H2|reflexivity].
  Qed.

  Lemma erase_view lp ka x kz a t1 t2 z :
    erase (LN lp (ka ++ x :: kz) (a ++ t1 :: t2 :: z)) = at_kv ka x kz (map erase a) (erase t1) (erase t2) (map erase z).
  Proof. rewrite erase_eq, map_app. reflexivity. Qed.

  (** *** steal and merge, at a view *)
  Lemma steal_left_t h lp ka x kz a t1 t2 z i hp :
    owned hp [LN lp (ka ++ x :: kz) (a ++ t1 :: t2 :: z)] -> length ka = i -> length a = i ->
    kids any h (erase t1) -> kids any h (erase t2) -> 1 <= length (lks t1) -> length (lks t2) < CAPACITY ->
    exists p', lroot p' = lp /\
      steal_left h (erase (LN lp (ka ++ x :: kz) (a ++ t1 :: t2 :: z))) i = Some (erase p') /\
      wp (h_steal_left (NR (S h) lp, i)) hp (fun _ hp' =>
        evolves hp [LN lp (ka ++ x :: kz) (a ++ t1 :: t2 :: z)] hp' [p'] /\ keeps hp hp' lp).
  Proof.
    intros O Lk La K1 K2 N1 N2. rewrite erase_view. pose proof (kids_les K1) as S1. pose proof (kids_les K2) as S2.
    destruct t1 as [ll k e], t2 as [lr k2 e2]. cbn [lks les] in *.
    destruct k as [|y k1] using rev_ind; [cbn in N1; lia|]. clear IHk1. rewrite app_length in S1. cbn [length] in S1.
    assert (exists e1 oe, e = e1 ++ oe /\ ((h = 0 /\ e1 = [] /\ oe = [] /\ e2 = []) \/ (0 < h /\ length oe = 1 /\ length e1 = length k1 + 1 /\ e2 <> [])))
      as (e1 & oe & -> & Hc).
    { destruct S1 as [[-> ->] | [H1 H2]].
      - exists [], []. split; [reflexivity|]. left. destruct S2 as [[_ ->] | [? _]]; [auto|lia].
      - destruct e as [|o e1] using rev_ind; [cbn in H2; lia|]. clear IHe1. exists e1, [o]. split; [reflexivity|].
        right. rewrite app_length in H2. cbn in H2. split; [exact H1|]. split; [reflexivity|]. split; [lia|].
        destruct S2 as [[-> _] | [_ E]]; [lia|]. intros ->. discriminate E. }
    exists (LN lp (ka ++ y :: kz) (a ++ LN ll k1 e1 :: LN lr (x :: k2) (oe ++ e2) :: z)).
    split; [reflexivity|]. split.
    - rewrite erase_view, !erase_eq, !map_app. rewrite <- La, <- (map_length erase a). rewrite steal_left_at; [reflexivity| |].
      + rewrite map_length. lia.
      + rewrite !map_length. destruct Hc as [(-> & -> & -> & ->) | (H1 & H2 & H3 & _)]; [left; auto|right; auto].
    - apply steal_left_ok; auto. destruct Hc as [?|(?&?&?&?)]; [left; auto|right; auto].
  Qed.
  Lemma steal_right_t h lp ka x kz a t1 t2 z i hp :
    owned hp [LN lp (ka ++ x :: kz) (a ++ t1 :: t2 :: z)] -> length ka = i -> length a = i ->
    kids any h (erase t1) -> kids any h (erase t2) -> 1 <= length (lks t2) -> length (lks t1) < CAPACITY ->
    exists p', lroot p' = lp /\
      steal_right h (erase (LN lp (ka ++ x :: kz) (a ++ t1 :: t2 :: z))) i = Some (erase p') /\
      wp (h_steal_right (NR (S h) lp, i)) hp (fun _ hp' =>
        evolves hp [LN lp (ka ++ x :: kz) (a ++ t1 :: t2 :: z)] hp' [p'] /\ keeps hp hp' lp).
  Proof.
    intros O Lk La K1 K2 N1 N2. rewrite erase_view. pose proof (kids_les K1) as S1. pose proof (kids_les K2) as S2.
    destruct t1 as [ll k1 e1], t2 as [lr k e]. cbn [lks les] in *.
    destruct k as [|y k2]; [cbn in N1; lia|]. cbn [length] in S2.
    assert (exists oe e2, e = oe ++ e2 /\ ((h = 0 /\ e1 = [] /\ oe = [] /\ e2 = []) \/ (0 < h /\ length oe = 1 /\ length e1 = length k1 + 1)))
      as (oe & e2 & -> & Hc).
    { destruct S2 as [[-> ->] | [H1 H2]].
      - exists [], []. split; [reflexivity|]. left. destruct S1 as [[_ ->] | [? _]]; [auto|lia].
      - destruct e as [|o e2]; [cbn in H2; lia|]. exists [o], e2. split; [reflexivity|].
        right. split; [exact H1|]. split; [reflexivity|]. destruct S1 as [[-> _] | [_ E]]; lia. }
    exists (LN lp (ka ++ y :: kz) (a ++ LN ll (k1 ++ [x]) (e1 ++ oe) :: LN lr k2 e2 :: z)).
    split; [reflexivity|]. split.
    - rewrite erase_view, !erase_eq, !map_app. rewrite <- La, <- (map_length erase a). rewrite steal_right_at; [reflexivity| |].
      + rewrite map_length. lia.
      + rewrite !map_length. destruct Hc as [(-> & -> & -> & ->) | (H1 & H2 & H3)]; [left; auto|right; auto].
    - apply steal_right_ok; auto. destruct Hc as [?|(?&?&?)]; [left; auto|right; split; auto; split; auto].
      intros ->. cbn in *. lia.
  Qed.
  Lemma merge_t h lp ka x kz a t1 t2 z i hp :
    owned hp [LN lp (ka ++ x :: kz) (a ++ t1 :: t2 :: z)] -> length ka = i -> length a = i ->
    kids any h (erase t1) -> kids any h (erase t2) -> length (lks t1) + length (lks t2) + 1 <= CAPACITY ->
    exists p', lroot p' = lp /\
      merge (erase (LN lp (ka ++ x :: kz) (a ++ t1 :: t2 :: z))) i = Some (erase p') /\
      wp (h_merge (NR (S h) lp, i)) hp (fun r hp' => r = (NR (S h) lp, i) /\
        evolves hp [LN lp (ka ++ x :: kz) (a ++ t1 :: t2 :: z)] hp' [p'] /\ keeps hp hp' lp).
  Proof.
    intros O Lk La K1 K2 N. rewrite erase_view. pose proof (kids_is_int K1) as S1. pose proof (kids_is_int K2) as S2.
    destruct t1 as [ll k1 e1], t2 as [lr k2 e2]. cbn [lks les] in *.
    exists (LN lp (ka ++ kz) (a ++ LN ll (k1 ++ x :: k2) (e1 ++ e2) :: z)). split; [reflexivity|]. split.
    - rewrite <- La, <- (map_length erase a). rewrite merge_eq by (rewrite map_length; lia).
      rewrite !erase_eq, map_app. cbn [map]. unfold joined. rewrite !erase_eq. cbn [kvs edges]. rewrite map_app. reflexivity.
    - apply merge_ok; auto.
  Qed.

  (** handle_underfull_node (map.rs 2631-2660) *)
  Lemma underfull_t h t f c hp :
    owned hp [lplug t (f :: c)] -> hung hp (lroot (lplug t (f :: c))) None ->
    frame_ok (eframe f) -> Forall (sub fair h) (map erase (lfa f)) -> Forall (sub fair h) (map erase (lfz f)) ->
    kids fair h (erase t) -> 1 <= length (lfk f) -> length (lks t) < 5 ->
    wp (h_handle_underfull (NR h (lroot t))) hp (fun u hp' => exists p', lroot p' = lfl f /\
      evolves hp [lplug t (f :: c)] hp' [lplug p' c] /\ keeps hp hp' (lroot (lplug t (f :: c))) /\
      ((u = HMerged (NR (S h) (lfl f)) /\ handle_underfull_node h (erase t) (ectx (f :: c)) = Some (Merged (erase p') (ectx c))) \/
       (u = HStole (NR (S h) (lfl f)) /\ handle_underfull_node h (erase t) (ectx (f :: c)) = Some (Stole (erase p') (ectx c))))).
  Proof.
    intros O HR FO Fa Fz Kt Lf Lt. unfold frame_ok, eframe in FO. cbn in FO. rewrite !map_length in FO.
    unfold h_handle_underfull. st wp_ascend; [exact O|exact HR|]. cbn [lpar].
    pose proof O as O0. cbn [lplug] in O0. apply owned_focus in O0.
    assert (exists il j ka x kz a t1 t2 z, lfill f t = LN (lfl f) (ka ++ x :: kz) (a ++ t1 :: t2 :: z) /\
      length ka = j /\ length a = j /\ kids fair h (erase t1) /\ kids fair h (erase t2) /\
      (if 0 <? fidx (eframe f) then Some (true, fidx (eframe f) - 1)
        else if fidx (eframe f) <? length (lfk f) then Some (false, fidx (eframe f)) else None) = Some (il, j) /\
      ((il = true /\ 0 < length (lfa f) /\ j = length (lfa f) - 1 /\ t2 = t /\ fair (length (lks t1))) \/
       (il = false /\ length (lfa f) = 0 /\ j = 0 /\ t1 = t /\ fair (length (lks t2)))))
      as (il & j & ka & x & kz & a & t1 & t2 & z & EV & Lk & La & K1 & K2 & EC & HC).
    { rewrite fidx_eframe. destruct (Nat.ltb_spec 0 (length (lfa f))) as [Hi | Hi].
      - destruct (@pick_lt _ (length (lfa f) - 1) (lfk f)) as (ka & x & kz & P); [lia|]. apply pick_some in P as [E L].
        destruct (lfa f) as [|t1 a] eqn:Ea using rev_ind; [cbn in Hi; lia|]. clear IHa.
        rewrite map_app in Fa. apply Forall_app in Fa as [_ Fa]. inversion Fa as [|? ? [H1 H2] _]; subst.
        rewrite app_length in *. cbn [length] in *.
        exists true, (length a + 1 - 1), ka, x, kz, a, t1, t, (lfz f).
        unfold lfill. rewrite E, Ea, <- app_assoc. cbn [app]. rewrite nlen_erase in H1.
        repeat (split; [first [reflexivity | assumption | lia]|]). left. repeat (split; [lia || reflexivity|]). exact H1.
      - destruct (Nat.ltb_spec (length (lfa f)) (length (lfk f))) as [Hj | Hj]; [|lia].
        assert (length (lfa f) = 0) as E0 by lia. rewrite E0 in *.
        destruct (lfk f) as [|x kz] eqn:Ek; [cbn in Lf; lia|].
        destruct (lfa f) as [|] eqn:Ea; [|discriminate E0]. destruct (lfz f) as [|t2 z] eqn:Ez; [cbn in FO; lia|].
        cbn in Fz. inversion Fz as [|? ? [H1 H2] _]; subst. rewrite nlen_erase in H1.
        exists false, 0, [], x, kz, [], t, t2, z. unfold lfill. rewrite Ek, Ea, Ez. cbn [app].
        repeat (split; [first [reflexivity | assumption | lia]|]). right. repeat (split; [lia || reflexivity|]). exact H1. }
    assert (lplug t (f :: c) = lplug (LN (lfl f) (ka ++ x :: kz) (a ++ t1 :: t2 :: z)) c) as EP by (cbn [lplug]; now rewrite EV).
    rewrite EP in *. rewrite EV in O0. pose proof (owned_one O0) as O1.
    assert (length (ka ++ x :: kz) = length (lfk f)) as Ek by (injection EV as <- _; reflexivity).
    assert (kids any h (erase t1)) as S1 by (eapply kids_shape; exact K1).
    assert (kids any h (erase t2)) as S2 by (eapply kids_shape; exact K2).
    (* the choice *)
    assert (forall (Q : option (bool * hhandle) -> heap -> Prop), Q (Some (il, (NR (S h) (lfl f), j))) hp ->
      wp (hbind (left_kv (NR (S h) (lfl f), length (lfa f))) (fun lk => match lk with
              | Some h0 => hret (Some (true, h0))
              | None => hbind (right_kv (NR (S h) (lfl f), length (lfa f))) (fun rk =>
                        hret (match rk with Some h0 => Some (false, h0) | None => None end)) end)) hp Q) as CH.
    { intros Q HQ. unfold left_kv, right_kv. cbn [fst snd]. destruct HC as [(-> & H1 & -> & -> & _) | (-> & H1 & -> & -> & _)].
      - destruct (Nat.ltb_spec 0 (length (lfa f))); [|lia]. apply wp_bind. st wp_kv_of; [exact O0|lia|].
        apply wp_ret. apply wp_ret. exact HQ.
      - rewrite H1. change (0 <? 0) with false. st wp_ret. apply wp_bind. st wp_len_of; [exact O0|]. rewrite Ek.
        destruct (Nat.ltb_spec 0 (length (lfk f))); [|lia]. st wp_kv_of; [exact O0|lia|]. apply wp_ret. apply wp_ret. exact HQ. }
    apply wp_bind_assoc. apply wp_bind. apply CH. clear CH.
    st wp_can_merge; [exact O0|exact Lk|exact La|].
    cbn [ectx map handle_underfull_node]. rewrite <- erase_fill, EV.
    rewrite nlen_erase. cbn [lks]. rewrite Ek, EC.
    assert (can_merge (erase (LN (lfl f) (ka ++ x :: kz) (a ++ t1 :: t2 :: z))) j = Some (length (lks t1) + length (lks t2) + 1 <=? CAPACITY)) as ->.
    { rewrite erase_view. rewrite <- La, <- (map_length erase a). rewrite can_merge_eq by (rewrite map_length; lia). now rewrite !nlen_erase. }
    destruct (Nat.leb_spec (length (lks t1) + length (lks t2) + 1) CAPACITY) as [Hm | Hm].
    - destruct (@merge_t h (lfl f) ka x kz a t1 t2 z j hp O1 Lk La S1 S2 Hm) as (p' & R & E & W).
      rewrite E. apply wp_bind. eapply wp_mono; [exact W|].
      intros r hp' (-> & EV' & KP). apply wp_ret. cbn [fst]. exists p'. split; [exact R|].
      destruct (@evolves_plug K V hp hp' c _ [] p' [] O EV' R KP) as [E1 E2]. split; [exact E1|]. split; [exact E2|].
      left. split; reflexivity.
    - unfold fair in HC. destruct HC as [(-> & H1 & H2 & -> & H3) | (-> & H1 & H2 & -> & H3)]; unfold REAL_MIN, CAPACITY, B_ in *.
      + destruct (@steal_left_t h (lfl f) ka x kz a t1 t z j hp O1 Lk La S1 S2) as (p' & R & E & W); [lia|unfold CAPACITY, B_; lia|].
        rewrite E. apply wp_bind. eapply wp_mono; [exact W|].
        intros r hp' (EV' & KP). apply wp_ret. cbn [fst]. exists p'. split; [exact R|].
        destruct (@evolves_plug K V hp hp' c _ [] p' [] O EV' R KP) as [E1 E2]. split; [exact E1|]. split; [exact E2|].
        right. split; reflexivity.
      + destruct (@steal_right_t h (lfl f) ka x kz a t t2 z j hp O1 Lk La S1 S2) as (p' & R & E & W); [lia|unfold CAPACITY, B_; lia|].
        rewrite E. apply wp_bind. eapply wp_mono; [exact W|].
        intros r hp' (EV' & KP). apply wp_ret. cbn [fst]. exists p'. split; [exact R|].
        destruct (@evolves_plug K V hp hp' c _ [] p' [] O EV' R KP) as [E1 E2]. split; [exact E1|]. split; [exact E2|].
        right. split; reflexivity.
  Qed.

  (** layer 1: what a merge leaves *)
  Lemma merged_kids h (n : node K V) f c p' c' :
    frame_ok f -> Forall (sub fair h) (fl f) -> Forall (sub fair h) (fr f) -> kids fair h n ->
    1 <= length (fk f) -> REAL_MIN - 1 <= nlen n ->
    handle_underfull_node h n (f :: c) = Some (Merged p' c') ->
    kids fair (S h) p' /\ S (nlen p') = length (fk f) /\ c' = c.
  Proof.
    intros FO Fa Fz Kn Lf Hh. cbn [handle_underfull_node].
    assert (exists il j, (if 0 <? fidx f then Some (true, fidx f - 1)
                      else if fidx f <? nlen (fill f n) then Some (false, fidx f) else None) = Some (il, j) /\
                    j < length (fk f) /\ (fidx f = j \/ fidx f = S j)) as (il & j & -> & Hj & Hil).
    { unfold frame_ok in FO. destruct (Nat.ltb_spec 0 (fidx f)).
      - exists true, (fidx f - 1). split; auto. unfold fidx in *. split; [lia|]. right. lia.
      - exists false, (fidx f). rewrite nlen_fill. destruct (Nat.ltb_spec (fidx f) (length (fk f))); [|lia]. split; auto. }
    destruct (@fill_view K V h f n j FO Fa Fz Kn Hj Hil) as (pa & x & pz & a & l & r & z & Ev & Hpa & Ha & Hz & Hsa & Hsz & Hlr).
    rewrite Ev, <- Ha. assert (length pa = length a) as Hl by lia. rewrite can_merge_eq by exact Hl.
    assert (length (fk f) = length pa + S (length pz)) as Ef by (rewrite <- (nlen_fill f n), Ev; apply at_kv_nlen).
    assert (kids fair h l /\ kids fair h r /\ 5 <= nlen l + nlen r + 1) as (Kl & Kr & Hmin).
    { destruct Hlr as [(_ & -> & [H1 H2]) | (_ & -> & [H1 H2])]; split; auto; split; auto;
        unfold fair, REAL_MIN, B_ in *; lia. }
    destruct (Nat.leb_spec (nlen l + nlen r + 1) CAPACITY) as [Hm | Hm].
    - rewrite merge_eq by exact Hl. intro E. injection E as <- <-. split; [|split; [|reflexivity]].
      + apply at_one_kids; auto. split; [|now apply joined_kids]. rewrite joined_nlen.
        unfold fair, REAL_MIN, B_ in *. lia.
      + unfold nlen. cbn [kvs]. rewrite app_length. lia.
    - intro G. destruct (if il then _ else _); discriminate G.
  Qed.

  Lemma plug_nil_frame (n : node K V) c : c = [] -> plug n c = n.
  Proof. now intros ->. Qed.

  (** the loop of map.rs 2602-2618 *)
  Lemma fix_underflow_t c : forall h t hp fuel,
    owned hp [lplug t c] -> hung hp (lroot (lplug t c)) None -> length c < fuel ->
    kids fair h (erase t) -> cok fair root_fair h (ectx c) -> bound hole root_fair h (ectx c) (nlen (erase t)) ->
    wp (h_fix_underflow fuel (NR (h + length c) (lroot (lplug t c))) (NR h (lroot t))) hp (fun r hp' =>
      exists T' H', fix_underflow (h + length c) h (erase t) (ectx c) = Ret (erase T', H') /\ r = NR H' (lroot T') /\
        evolves hp [lplug t c] hp' [T'] /\ hung hp' (lroot T') None).
  Proof.
    induction c as [|f c IH]; intros h t hp fuel O HR Fu Kt Kc Bt; (destruct fuel as [|fuel]; [lia|]); cbn [h_fix_underflow].
    - cbn [length Nat.add lplug] in *. rewrite Nat.add_0_r in *.
      st wp_len_t; [exact O|]. cbn [fix_underflow ectx map handle_underfull_node plug]. rewrite nlen_erase.
      destruct (length (lks t) <? CAPACITY / 2).
      + apply wp_bind. unfold h_handle_underfull. st (@wp_ascend K V h t []); [exact O|exact HR|]. cbn [lpar]. apply wp_ret. apply wp_ret.
        exists t, h. split; [reflexivity|]. split; [reflexivity|]. split; [now apply evolves_refl|exact HR].
      + apply wp_ret. exists t, h. split; [reflexivity|]. split; [reflexivity|]. split; [now apply evolves_refl|exact HR].
    - cbn [length] in *. destruct Kc as (FO & Fa & Fz & Bf & Kc). cbn [ectx map bound] in Bt.
      pose proof (owned_focus O) as Ot. st wp_len_t; [exact Ot|].
      cbn [ectx map fix_underflow]. fold (ectx c). rewrite nlen_erase in *. change (CAPACITY / 2) with 5.
      destruct (Nat.ltb_spec (length (lks t)) 5) as [Hlt | Hge].
      2:{ apply wp_ret. exists (lplug t (f :: c)), (h + S (length c)).
          split; [|split; [reflexivity|split; [now apply evolves_refl|exact HR]]].
          rewrite erase_plug. reflexivity. }
      assert (1 <= length (lfk f)) as Lf.
      { destruct (ectx c); cbn [bound eframe fk] in Bf; unfold root_fair, fair, REAL_MIN, B_ in Bf; lia. }
      apply wp_bind. eapply wp_mono; [apply underfull_t; [exact O|exact HR|exact FO|exact Fa|exact Fz|exact Kt|exact Lf|exact Hlt]|].
      intros u hp1 (p' & Rp & E1 & KP & D). cbn [ectx map] in D. fold (ectx c) in D.
      assert (hung hp1 (lroot (lplug p' c)) None) as HR1.
      { rewrite (@lplug_root K V c (lfill f t) p' Rp). now apply KP. }
      destruct D as [[-> EH] | [-> EH]]; rewrite EH.
      + apply wp_bind. rewrite <- Rp. eapply wp_len_t; [exact (owned_focus (ev_own E1))|].
        assert (kids fair (S h) (erase p') /\ S (nlen (erase p')) = length (lfk f)) as [Kp Np].
        { destruct (@merged_kids h (erase t) (eframe f) (ectx c) (erase p') (ectx c)) as (M1 & M2 & _); auto.
          unfold hole in Bt. rewrite nlen_erase. apply Bt. }
        rewrite nlen_erase in *.
        destruct (Nat.eqb_spec (length (lks p')) 0) as [E0 | E0].
        * assert (c = []) as ->.
          { destruct c; [reflexivity|]. cbn [bound ectx map] in Bf. unfold fair, REAL_MIN, B_ in Bf. cbn [eframe fk] in Bf. lia. }
          cbn [lplug length ectx map plug] in *. rewrite Nat.add_1_r in *.
          destruct p' as [lp ks es]. cbn [lks HeapRep.lroot] in *. destruct ks; [|discriminate E0].
          destruct Kp as [Kl _]. cbn in Kl. rewrite map_length in Kl. destruct es as [|e [|]]; try discriminate Kl.
          replace (lroot (lfill f t)) with lp by (rewrite Rp; reflexivity).
          eapply wp_mono; [apply pop_level_ok; exact (ev_own E1)|].
          intros r hp2 (-> & E2 & H2). exists e, h. split; [|split; [reflexivity|split; [exact (evolves_trans E1 E2)|exact H2]]].
          unfold pop_level. cbn. now rewrite Nat.sub_0_r.
        * replace (h + S (length c)) with (S h + length c) by lia.
          rewrite <- (@lplug_root K V c (lfill f t) p' Rp) at 1.
          eapply wp_mono; [apply (IH (S h) p' hp1 fuel); [exact (ev_own E1)|exact HR1|lia|exact Kp|exact Kc|]|].
          { rewrite nlen_erase. destruct c; cbn [bound ectx map eframe fk] in *; unfold root_fair, hole, fair, REAL_MIN, B_ in *; lia. }
          intros r hp2 (T' & H' & E & -> & E2 & H2). exists T', H'. split; [exact E|]. split; [reflexivity|].
          split; [exact (evolves_trans E1 E2)|exact H2].
      + apply wp_ret. exists (lplug p' c), (h + S (length c)). split; [rewrite erase_plug; reflexivity|].
        split; [f_equal; symmetry; exact (@lplug_root K V c (lfill f t) p' Rp)|]. split; [exact E1|exact HR1].
  Qed.
End Rem.
