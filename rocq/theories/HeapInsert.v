(** * HeapInsert: insertion on the heap does what it does on trees, and its
    failures leak exactly the new node that has no place yet. *)
From Coq Require Import List Arith Lia Bool Permutation.
From Verif Require Import Base MapSpec BTreeModel BTreeInv BTreeLemmas BTreeSearch BTreeInsert.
From Verif Require Import HeapModel HeapArr HeapRep HeapWp HeapNode HeapOps HeapOps2 HeapOps3 HeapOps4 HeapZip HeapRemove HeapSearch.
Import ListNotations.
Set Implicit Arguments.
Unset Strict Implicit.

Section Ins.
  Variables (K V : Type).
  Notation kv := (K * V)%type.
  Notation cell := (cell K V).
  Notation heap := (heap K V).
  Notation HM := (HM K V).
  Notation ltree := (ltree K V).
  Notation lroot := (@lroot K V).
  Notation erase := (@erase K V).
  Implicit Types (hp : heap).

  (** the subtree at a path *)
  Fixpoint lat (t : ltree) (p : list nat) : option ltree :=
    match p with
    | [] => Some t
    | j :: p' => match nth_error (les t) j with Some e => lat e p' | None => None end
    end.
  Lemma lat_plug c : forall t p, lat (lplug t c) (cpath (ectx c) ++ p) = lat t p.
  Proof.
    induction c as [|f c IH]; intros t p; [reflexivity|]. cbn [lplug ectx map]. fold (ectx c).
    rewrite cpath_cons, <- app_assoc, IH. cbn [app lat lfill les]. rewrite fidx_eframe.
    rewrite nth_error_app2, Nat.sub_diag by lia. reflexivity.
  Qed.
  (** the node at a path holds what layer 1 says *)
  Lemma lat_erase p : forall t t', lat t p = Some t' -> forall i, kv_at (erase t) (p, i) = nth_error (lks t') i.
  Proof.
    induction p as [|j p IH]; intros t t' H i.
    - injection H as <-. rewrite kv_at_nil, kvs_erase. reflexivity.
    - cbn [lat] in H. destruct (nth_error (les t) j) as [e|] eqn:E; [|discriminate H].
      rewrite (@kv_at_cons K V (erase t) j p i (erase e)); [now apply IH|]. rewrite edges_erase. now apply map_nth_error.
  Qed.

  Lemma split_firstn A (l : list A) i : i <= length l -> exists a z, l = a ++ z /\ length a = i.
  Proof. intro H. exists (firstn i l), (skipn i l). rewrite firstn_skipn, firstn_length. split; [reflexivity|lia]. Qed.

  Lemma internal_fit_t l h i x e ks es hp :
    owned hp [LN l ks es; e] -> es <> [] -> i <= length ks -> length ks < CAPACITY ->
    wp (h_internal_insert_fit (NR (S h) l) i x (NR h (lroot e))) hp (fun _ hp' =>
      evolves hp [LN l ks es; e] hp' [LN l (slice_insert i x ks) (slice_insert (i + 1) e es)] /\ keeps hp hp' l).
  Proof.
    intros O He Li Lc. destruct (owned_arity O) as [_ [? | La]]; [contradiction|].
    destruct (split_firstn Li) as (ka & kz & -> & Lk). destruct (@split_firstn _ es (i + 1)) as (a & z & -> & Le); [lia|].
    rewrite !slice_insert_at by assumption. apply internal_insert_fit_ok; auto.
  Qed.

  Section Alloc.
    Variable W : Type.
    Variable nalloc : bool -> W -> option reserve_error * W.
    Variable place : heap -> W -> loc.
    Hypothesis place_fresh : forall hp w, hget hp (place hp w) = None.

    Lemma lift_ok A (m : HM A) hp (w : W) (Q : A -> heap -> Prop) : wp m hp Q -> exists a hp', lift m hp w = (Ret a, hp', w) /\ Q a hp'.
    Proof. unfold wp, lift. destruct (m hp) as [[a hp']|]; [eauto|contradiction]. Qed.
    Lemma abind_ret A C (m : AM K V W A) (f : A -> AM K V W C) a hp (w : W) hp' (w' : W) : m hp w = (Ret a, hp', w') -> abind m f hp w = f a hp' w'.
    Proof. unfold abind. now intros ->. Qed.

    Lemma new_box_ok int hp (w : W) :
      match nalloc int w with
      | (None, w') => exists hp', new_box nalloc place int hp w = (Ret (place hp w'), hp', w') /\
          hget hp (place hp w') = None /\ hup hp (place hp w') (Some (fresh_cell K V int)) hp'
      | (Some e, w') => new_box nalloc place int hp w = (Err e, hp, w')
      end.
    Proof.
      unfold new_box. destruct (nalloc int w) as [[e|] w']; [reflexivity|]. eexists. split; [reflexivity|].
      split; [apply place_fresh|]. apply hup_set. eapply fresh_sroot. apply place_fresh.
    Qed.

    Lemma leaf_insert_t t i x hp (w : W) :
      owned hp [t] -> les t = [] -> i <= length (lks t) ->
      match leaf_insert nalloc i x (erase t) w with
      | (Ret (Fit n, (b, j)), w') => exists t' hp',
          h_leaf_insert nalloc place (NR 0 (lroot t), i) x hp w = (Ret (HFit K V (NR 0 (lroot t), j), (lroot t, j)), hp', w') /\
          erase t' = n /\ lroot t' = lroot t /\ evolves hp [t] hp' [t'] /\ keeps hp hp' (lroot t) /\ b = false /\ j = i
      | (Ret (Split nl y nr, (b, j)), w') => exists tl tr hp',
          h_leaf_insert nalloc place (NR 0 (lroot t), i) x hp w =
            (Ret (HSplit (NR 0 (lroot t)) y (NR 0 (lroot tr)), (lroot (if b then tr else tl), j)), hp', w') /\
          erase tl = nl /\ erase tr = nr /\ lroot tl = lroot t /\ evolves hp [t] hp' [tl; tr] /\ keeps hp hp' (lroot t)
      | (Err e, w') => h_leaf_insert nalloc place (NR 0 (lroot t), i) x hp w = (Err e, hp, w')
      | _ => False
      end.
    Proof.
      intros O El Li. destruct (owned_arity (us := []) (hp := hp) (l := lroot t) (ks := lks t) (es := les t)) as [Lc _].
      { rewrite <- ltree_eta. exact O. }
      destruct t as [l ks es]. cbn [les lks HeapRep.lroot] in *. subst es. unfold leaf_insert, h_leaf_insert.
      rewrite nlen_erase. cbn [lks].
      destruct (@lift_ok _ (n_len (NR 0 l)) hp w (fun n hp' => n = length ks /\ hp' = hp)) as (n & hp1 & E & -> & ->).
      { eapply wp_len_of; [exact O|]. auto. }
      rewrite (abind_ret _ E). clear E.
      destruct (Nat.ltb_spec (length ks) CAPACITY) as [Hl | Hl].
      - edestruct (@lift_ok _ (hbind (h_leaf_insert_fit (NR 0 l) i x) (fun p => hbind (new_kv (NR 0 l) i) (fun k => hret (HFit K V k, p)))) hp w
          (fun r hp' => r = (HFit K V (NR 0 l, i), (l, i)) /\ evolves hp [LN l ks []] hp' [LN l (slice_insert i x ks) []] /\ keeps hp hp' l)) as (r & hp' & E & -> & E1 & KP).
        { st wp_mono; [apply leaf_insert_fit_ok; [exact O|exact Li|exact Hl]|]. intros p hp1 (-> & E1 & KP).
          st wp_kv_of; [exact (ev_own E1)|rewrite length_slice_insert; lia|]. apply wp_ret. auto. }
        exists (LN l (slice_insert i x ks) []), hp'. split; [exact E|]. split; [reflexivity|].
        split; [reflexivity|]. split; [exact E1|]. split; [exact KP|]. split; reflexivity.
      - assert (length ks = 11) as L11 by (unfold CAPACITY, B_ in *; lia).
        destruct (@lift_ok _ (hbind (new_kv (NR 0 l) B_) (fun _ => not_shared (NR 0 l))) hp w (fun _ hp' => hp' = hp)) as (u & hp1 & E & ->).
        { st wp_kv_of; [exact O|unfold B_; lia|]. eapply wp_not_shared; [|reflexivity]. apply (owned_node O). }
        rewrite (abind_ret _ E). clear E u.
        pose proof (new_box_ok false hp w) as NB. destruct (nalloc false w) as [[e|] w'].
        { unfold abind. now rewrite NB. }
        destruct NB as (hp1 & NB & Fn & U). rewrite (abind_ret _ NB). clear NB. set (new := place hp w') in *.
        unfold split_node. rewrite kvs_erase, edges_erase. cbn [lks les map].
        destruct (@pick_lt _ B_ ks) as (ka & y & kz & P); [unfold B_; lia|]. rewrite P. apply pick_some in P as [-> Lk].
        rewrite firstn_nil, skipn_nil. rewrite app_length in L11, Li. cbn [length] in L11, Li. unfold B_ in Lk.
        destruct (Nat.leb_spec i B_) as [Hi | Hi]; unfold B_ in Hi.
        + edestruct lift_ok as (r & hp2 & E & Q); [|rewrite E; revert Q].
          { st wp_mono; [apply (@leaf_split_ok K V l 0 B_ y ka kz new hp hp1); [exact O|exact Lk|exact Fn|exact U]|].
            intros y' hp2 (-> & E1 & KP1 & _). apply wp_bind.
            pose proof (ev_own E1) as O1. st wp_edge_of; [exact O1|lia|].
            eapply wp_mono; [apply (@leaf_insert_fit_ok K V l 0 i x ka); [exact (owned_one O1)|lia|unfold CAPACITY, B_; lia]|].
            intros p hp3 (-> & E2 & KP2). apply wp_ret.
            pose proof (evolves_frame1 E2 O1) as E2'.
            refine (_ : (fun r hp3 => r = (HSplit (NR 0 l) y (NR 0 new), (l, i)) /\ evolves hp [LN l (ka ++ y :: kz) []] hp3 [LN l (slice_insert i x ka) []; LN new kz []] /\ keeps hp hp3 l) _ hp3).
            cbv beta. split; [reflexivity|]. split; [exact (evolves_trans E1 E2')|exact (keeps_trans KP1 KP2)]. }
          intros (-> & E1 & KP). exists (LN l (slice_insert i x ka) []), (LN new kz []), hp2.
          split; [reflexivity|]. split; [reflexivity|]. split; [reflexivity|]. split; [reflexivity|]. auto.
        + edestruct lift_ok as (r & hp2 & E & Q); [|rewrite E; revert Q].
          { st wp_mono; [apply (@leaf_split_ok K V l 0 B_ y ka kz new hp hp1); [exact O|exact Lk|exact Fn|exact U]|].
            intros y' hp2 (-> & E1 & KP1 & _). apply wp_bind. cbn [rh].
            assert (evolves hp [LN l (ka ++ y :: kz) []] hp2 [LN new kz []; LN l ka []]) as E1s.
            { eapply evolves_perm; [apply Permutation_refl| |exact E1]. apply perm_swap. }
            pose proof (ev_own E1s) as O1. st wp_edge_of; [exact O1|unfold B_; lia|].
            eapply wp_mono; [apply (@leaf_insert_fit_ok K V new 0 (i - (B_ + 1)) x kz); [exact (owned_one O1)|unfold B_; lia|unfold CAPACITY, B_; lia]|].
            intros p hp3 (-> & E2 & KP2). apply wp_ret.
            pose proof (evolves_frame1 E2 O1) as E2'.
            assert (hget hp3 l = hget hp2 l) as Gl.
            { destruct (owned_node (owned_perm (perm_swap _ _ _) O1)) as (_ & (cl & G & _) & _ & _ & _ & NI & _).
              apply (frame_locs E2 G). exact NI. }
            refine (_ : (fun r hp3 => r = (HSplit (NR 0 l) y (NR 0 new), (new, i - (B_ + 1))) /\ evolves hp [LN l (ka ++ y :: kz) []] hp3 [LN l ka []; LN new (slice_insert (i - (B_ + 1)) x kz) []] /\ keeps hp hp3 l) _ hp3).
            cbv beta. split; [reflexivity|]. split; [|exact (keeps_trans KP1 (keeps_get Gl))].
            eapply evolves_perm; [apply Permutation_refl|apply perm_swap|exact (evolves_trans E1s E2')]. }
          intros (-> & E1 & KP). exists (LN l ka []), (LN new (slice_insert (i - (B_ + 1)) x kz) []), hp2.
          split; [reflexivity|]. split; [reflexivity|]. split; [reflexivity|]. split; [reflexivity|]. auto.
    Qed.

    Lemma slice_insert_after A (a z : list A) (t u : A) i : length a = i -> slice_insert (i + 1) u (a ++ t :: z) = a ++ t :: u :: z.
    Proof.
      intro H. replace (a ++ t :: z) with ((a ++ [t]) ++ z) by (now rewrite <- app_assoc).
      rewrite slice_insert_at by (rewrite app_length; cbn [length]; lia). now rewrite <- app_assoc.
    Qed.

    Lemma evolves_mid hp hp' (a b b' : ltree) : evolves hp [a] hp' [b; b'] -> forall t, owned hp [a; t] -> evolves hp [a; t] hp' [b; t; b'].
    Proof.
      intros E t O. destruct (@evolves_frame _ _ _ _ _ _ [t] E O) as [E' _]. cbn [app] in E'.
      eapply evolves_perm; [apply Permutation_refl| |exact E']. constructor. apply perm_swap.
    Qed.

    (** node.rs 1094-1124; [tl] is the child the new edge goes after *)
    Lemma internal_insert_t l ks a tl z tr i x (right : bool) h hp (w : W) :
      owned hp [LN l ks (a ++ tl :: z); tr] -> length a = i ->
      let t := LN l ks (a ++ tl :: z) in
      match internal_insert nalloc i x (erase tr) right (erase t) w with
      | (Ret (Fit n, (b, j)), w') => exists t' hp',
          h_internal_insert nalloc place (NR (S h) l, i) x (NR h (lroot tr)) hp w = (Ret (HFit K V (NR (S h) l, i)), hp', w') /\
          erase t' = n /\ lroot t' = l /\ evolves hp [t; tr] hp' [t'] /\ keeps hp hp' l /\
          nth_error (les t') j = Some (if right then tr else tl)
      | (Ret (Split nl y nr, (b, j)), w') => exists pl pr hp',
          h_internal_insert nalloc place (NR (S h) l, i) x (NR h (lroot tr)) hp w =
            (Ret (HSplit (NR (S h) l) y (NR (S h) (lroot pr))), hp', w') /\
          erase pl = nl /\ erase pr = nr /\ lroot pl = l /\ evolves hp [t; tr] hp' [pl; pr] /\ keeps hp hp' l /\
          nth_error (les (if b then pr else pl)) j = Some (if right then tr else tl)
      | (Err e, w') => h_internal_insert nalloc place (NR (S h) l, i) x (NR h (lroot tr)) hp w = (Err e, hp, w')
      | _ => False
      end.
    Proof.
      intros O La t. destruct (owned_arity O) as [Lc [E0 | Ar]]; [destruct a; discriminate E0|].
      rewrite app_length in Ar. cbn [length] in Ar.
      unfold internal_insert, h_internal_insert. unfold t at 1. rewrite nlen_erase. cbn [lks rh].
      assert (lift (W := W) (check (S h =? S h)) hp w = (Ret tt, hp, w)) as E by (rewrite Nat.eqb_refl; reflexivity).
      rewrite (abind_ret _ E). clear E.
      destruct (@lift_ok _ (n_len (NR (S h) l)) hp w (fun n hp' => n = length ks /\ hp' = hp)) as (n & hp1 & E & -> & ->).
      { eapply wp_len_of; [exact O|]. auto. }
      rewrite (abind_ret _ E). clear E.
      assert (a ++ tl :: z <> []) as Hne by (destruct a; discriminate).
      destruct (Nat.ltb_spec (length ks) CAPACITY) as [Hl | Hl].
      - edestruct (@lift_ok _ (hbind (h_internal_insert_fit (NR (S h) l) i x (NR h (lroot tr))) (fun _ => hbind (new_kv (NR (S h) l) i) (fun k => hret (HFit K V k)))) hp w
          (fun r hp' => r = HFit K V (NR (S h) l, i) /\ evolves hp [t; tr] hp' [LN l (slice_insert i x ks) (slice_insert (i + 1) tr (a ++ tl :: z))] /\ keeps hp hp' l))
          as (r & hp' & E & -> & E1 & KP).
        { st wp_mono; [apply internal_fit_t; [exact O|exact Hne|lia|exact Hl]|]. intros _ hp1 (E1 & KP).
          st wp_kv_of; [exact (ev_own E1)|rewrite length_slice_insert; lia|]. apply wp_ret. auto. }
        eexists _, hp'. split; [exact E|]. split; [|split; [|split; [exact E1|split; [exact KP|]]]].
        + unfold internal_insert_fit, t. rewrite !erase_eq. cbn [kvs edges]. now rewrite map_slice_insert.
        + reflexivity.
        + cbn [les]. rewrite slice_insert_after by exact La. destruct right.
          * rewrite nth_error_app2 by lia. replace (i + 1 - length a) with 1 by lia. reflexivity.
          * rewrite nth_error_app2 by lia. replace (i - length a) with 0 by lia. reflexivity.
      - assert (length ks = 11) as L11 by (unfold CAPACITY, B_ in *; lia).
        destruct (@lift_ok _ (new_kv (NR (S h) l) B_) hp w (fun _ hp' => hp' = hp)) as (u & hp1 & E & ->).
        { eapply wp_kv_of; [exact O|unfold B_; lia|]. reflexivity. }
        rewrite (abind_ret _ E). clear E u.
        pose proof (new_box_ok true hp w) as NB. destruct (nalloc true w) as [[e|] w'].
        { unfold abind. now rewrite NB. }
        destruct NB as (hp1 & NB & Fn & U). rewrite (abind_ret _ NB). clear NB. set (new := place hp w') in *.
        assert (forall d, nth_error (a ++ tl :: z) i = Some d -> d = tl) as Hi0.
        { intros d. rewrite nth_error_app2 by lia. replace (i - length a) with 0 by lia. cbn [nth_error]. congruence. }
        assert (nth_error (a ++ tl :: z) i = Some tl) as Hi.
        { rewrite nth_error_app2 by lia. replace (i - length a) with 0 by lia. reflexivity. }
        clear Hi0. unfold split_node, t. rewrite kvs_erase, edges_erase. cbn [lks les].
        assert (length (a ++ tl :: z) = 12) as L12 by (rewrite app_length; cbn [length]; lia).
        assert (i <= 11) as Li by lia. fold t.
        destruct (@pick_lt _ B_ ks) as (ka & y & kz & P); [unfold B_; lia|]. rewrite P. apply pick_some in P as [Ek Lk].
        destruct (@split_firstn _ (a ++ tl :: z) (B_ + 1)) as (ea & ez & Ee & Le); [unfold B_; lia|].
        assert (firstn (B_ + 1) (map erase (a ++ tl :: z)) = map erase ea) as F1.
        { rewrite Ee, map_app. apply firstn_app_len. now rewrite map_length. }
        assert (skipn (B_ + 1) (map erase (a ++ tl :: z)) = map erase ez) as F2.
        { rewrite Ee, map_app. apply skipn_app_len. now rewrite map_length. }
        rewrite F1, F2. clear F1 F2. unfold t in *. clear t. rewrite Ee, Ek in *. clear Ek Ee.
        rewrite app_length in L11, L12. cbn [length] in L11. unfold B_ in Lk, Le.
        assert (is_int ea = true /\ is_int ez = true) as [I1 I2] by (destruct ea, ez; cbn [length] in *; try lia; auto).
        assert (ea <> [] /\ ez <> []) as [N1 N2] by (destruct ea, ez; cbn [length] in *; try lia; split; discriminate).
        destruct (Nat.leb_spec i B_) as [Hib | Hib]; unfold B_ in Hib.
        + edestruct lift_ok as (r & hp2 & E & Q); [|rewrite E; revert Q].
          { st wp_mono; [apply (@internal_split_ok K V l h B_ y ka kz ea ez new hp hp1); [exact (owned_one O)|exact Lk|exact Le|exact Fn|exact U]|].
            intros y' hp2 (-> & E1 & KP1 & _). apply wp_bind.
            pose proof (evolves_mid E1 O) as E1'. pose proof (ev_own E1') as O1. st wp_edge_of; [exact O1|lia|].
            assert (owned hp2 [LN l ka ea; tr]) as O1'.
            { apply (owned_app hp2 [LN l ka ea; tr] [LN new kz ez]) in O1. apply O1. }
            eapply wp_mono; [apply (@internal_fit_t l h i x tr ka ea); [exact O1'|exact N1|lia|unfold CAPACITY, B_; lia]|].
            intros _ hp3 (E2 & KP2). apply wp_ret.
            destruct (@evolves_frame _ _ _ _ _ _ [LN new kz ez] E2 O1) as [E2' _]. cbn [app] in E2'.
            refine (_ : (fun r hp3 => r = HSplit (NR (S h) l) y (NR (S h) new) /\
              evolves hp [LN l (ka ++ y :: kz) (ea ++ ez); tr] hp3 [LN l (slice_insert i x ka) (slice_insert (i + 1) tr ea); LN new kz ez] /\ keeps hp hp3 l) _ hp3).
            cbv beta. split; [reflexivity|]. split; [exact (evolves_trans E1' E2')|exact (keeps_trans KP1 KP2)]. }
          intros (-> & E1 & KP). exists (LN l (slice_insert i x ka) (slice_insert (i + 1) tr ea)), (LN new kz ez), hp2.
          split; [reflexivity|]. split; [|split; [reflexivity|split; [reflexivity|split; [exact E1|split; [exact KP|]]]]].
          * unfold internal_insert_fit. rewrite !erase_eq. cbn [kvs edges]. now rewrite map_slice_insert.
          * cbn [les]. destruct right; [apply si_nth_eq; lia|]. rewrite si_nth_lt by lia.
            rewrite nth_error_app1 in Hi by lia. exact Hi.
        + edestruct lift_ok as (r & hp2 & E & Q); [|rewrite E; revert Q].
          { st wp_mono; [apply (@internal_split_ok K V l h B_ y ka kz ea ez new hp hp1); [exact (owned_one O)|exact Lk|exact Le|exact Fn|exact U]|].
            intros y' hp2 (-> & E1 & KP1 & _). apply wp_bind. cbn [rh].
            assert (evolves hp [LN l (ka ++ y :: kz) (ea ++ ez); tr] hp2 [LN new kz ez; tr; LN l ka ea]) as E1s.
            { eapply evolves_perm; [apply Permutation_refl| |exact (evolves_mid E1 O)].
              etransitivity; [apply perm_swap|]. etransitivity; [constructor; apply perm_swap|]. apply perm_swap. }
            pose proof (ev_own E1s) as O1. st wp_edge_of; [exact O1|unfold B_; lia|].
            assert (owned hp2 [LN new kz ez; tr]) as O1'.
            { apply (owned_app hp2 [LN new kz ez; tr] [LN l ka ea]) in O1. apply O1. }
            eapply wp_mono; [apply (@internal_fit_t new h (i - (B_ + 1)) x tr kz ez); [exact O1'|exact N2|unfold B_; lia|unfold CAPACITY, B_; lia]|].
            intros _ hp3 (E2 & KP2). apply wp_ret.
            destruct (@evolves_frame _ _ _ _ _ _ [LN l ka ea] E2 O1) as [E2' Fr]. cbn [app] in E2'.
            assert (hget hp3 l = hget hp2 l) as Gl by (apply Fr; left; reflexivity).
            refine (_ : (fun r hp3 => r = HSplit (NR (S h) l) y (NR (S h) new) /\
              evolves hp [LN l (ka ++ y :: kz) (ea ++ ez); tr] hp3 [LN l ka ea; LN new (slice_insert (i - (B_ + 1)) x kz) (slice_insert (i - (B_ + 1) + 1) tr ez)] /\ keeps hp hp3 l) _ hp3).
            cbv beta. split; [reflexivity|]. split; [|exact (keeps_trans KP1 (keeps_get Gl))].
            eapply evolves_perm; [apply Permutation_refl|apply perm_swap|exact (evolves_trans E1s E2')]. }
          intros (-> & E1 & KP). exists (LN l ka ea), (LN new (slice_insert (i - (B_ + 1)) x kz) (slice_insert (i - (B_ + 1) + 1) tr ez)), hp2.
          split; [reflexivity|]. split; [reflexivity|split; [|split; [reflexivity|split; [exact E1|split; [exact KP|]]]]].
          * unfold internal_insert_fit. rewrite !erase_eq. cbn [kvs edges]. now rewrite map_slice_insert.
          * cbn [les]. unfold B_. destruct right.
            -- replace (i + 1 - (6 + 1)) with (i - (6 + 1) + 1) by lia. apply si_nth_eq. lia.
            -- rewrite si_nth_lt by lia. rewrite nth_error_app2 in Hi by lia. rewrite Le in Hi. exact Hi.
    Qed.

    Definition same_outcome A C (o : outcome reserve_error A) (r : C) : outcome reserve_error C :=
      match o with Ret _ => Ret r | Err e => Err e | Panic => Panic | Abort => Abort | UB => UB end.

    Lemma lat_app p : forall t t' p', lat t p = Some t' -> lat t (p ++ p') = lat t' p'.
    Proof.
      induction p as [|j p IH]; intros t t' p' H; [injection H as <-; reflexivity|].
      cbn [app lat] in *. destruct (nth_error (les t) j); [now apply IH|discriminate H].
    Qed.

    (** map.rs 2390-2406 *)
    Lemma insert_up_t c : forall h tl x tr (right : bool) p i t0 hp fuel (w : W),
      length c < fuel -> owned hp [lplug tl c; tr] -> hung hp (lroot (lplug tl c)) None ->
      lat (if right then tr else tl) p = Some t0 ->
      let '(o, (n, H'), w') := insert_up nalloc (h + length c) (erase tl) x (erase tr) right (p, i) (ectx c) w in
      exists hp' T' leak,
        h_insert_up nalloc place fuel (NR (h + length c) (lroot (lplug tl c))) (NR h (lroot tl)) x (NR h (lroot tr)) hp w =
          (same_outcome o tt, NR H' (lroot T'), hp', w') /\
        erase T' = n /\ evolves hp [lplug tl c; tr] hp' (T' :: leak) /\ hung hp' (lroot T') None /\
        match o with
        | Ret a => leak = [] /\ lat T' (fst a) = Some t0 /\ snd a = i
        | Err _ => exists t, leak = [t]
        | _ => False
        end.
    Proof.
      induction c as [|f c IH]; intros h tl x tr right p i t0 hp fuel w Hf O HR HL; (destruct fuel as [|fuel]; [cbn [length] in Hf; lia|]).
      - cbn [ectx map insert_up lplug length h_insert_up] in *.
        destruct (@lift_ok _ (ascend (NR h (lroot tl))) hp w (fun r hp' => r = None /\ hp' = hp)) as (r & hp1 & E & -> & ->).
        { apply (@wp_ascend K V h tl [] [tr]); auto. }
        rewrite E. clear E. unfold push_level, h_push_level.
        destruct (@lift_ok _ (not_shared (NR (h + 0) (lroot tl))) hp w (fun _ hp' => hp' = hp)) as (r & hp1 & E & ->).
        { eapply wp_not_shared_t; [exact O|reflexivity]. }
        rewrite (abind_ret _ E). clear E r.
        pose proof (new_box_ok true hp w) as NB. destruct (nalloc true w) as [[e|] w'].
        { unfold abind. rewrite NB. exists hp, tl, [tr]. split; [reflexivity|]. split; [reflexivity|].
          split; [apply evolves_refl; exact O|]. split; [exact HR|]. eauto. }
        destruct NB as (hp1 & NB & Fn & U). rewrite (abind_ret _ NB). clear NB. set (new := place hp w') in *.
        edestruct lift_ok as (r & hp2 & E & Q); [|rewrite E; revert Q].
        { cbn [rl rh]. apply (@push_level_ok K V tl (h + 0) new hp hp1 (owned_one O) Fn U). }
        intros (-> & E1 & H1). clear E.
        destruct (@evolves_frame _ _ _ _ _ _ [tr] E1 O) as [E1' _]. cbn [app] in E1'.
        pose proof (@internal_push_ok K V new (S (h + 0)) x (NR h (lroot tr)) tr [] [tl] hp2 (ev_own E1') eq_refl eq_refl) as IP.
        unfold wp in IP. cbn [length] in IP.
        destruct (internal_push (NR (S (h + 0)) new) x (NR h (lroot tr)) hp2) as [[u hp3]|]; [|exfalso; apply IP; cbn [rh]; [lia|unfold CAPACITY, B_; lia]].
        destruct IP as (E2 & KP2); [cbn [rh]; lia|unfold CAPACITY, B_; lia|]. cbn [app] in E2.
        cbn [push kvs edges app nlen length]. change (firstn (0 + 1) [erase tl]) with [erase tl]. cbn [app].
        exists hp3, (LN new [x] [tl; tr]), []. cbn [same_outcome].
        split; [replace (S (h + 0)) with (h + 0 + 1) by lia; reflexivity|]. split; [reflexivity|].
        split; [exact (evolves_trans E1' E2)|]. split; [apply KP2; exact H1|]. split; [reflexivity|]. cbn [fst snd].
        split; [|reflexivity]. destruct right; exact HL.
      - cbn [ectx map insert_up h_insert_up]. fold (ectx c). rewrite fidx_eframe, <- erase_fill.
        destruct (@lift_ok _ (ascend (NR h (lroot tl))) hp w (fun r hp' => r = Some (NR (S h) (lfl f), length (lfa f)) /\ hp' = hp)) as (r & hp1 & E & -> & ->).
        { apply (@wp_ascend K V h tl (f :: c) [tr]); auto. }
        rewrite E. clear E.
        pose proof (owned_focus (c := c) (t := lfill f tl) O) as Of.
        pose proof (@internal_insert_t (lfl f) (lfk f) (lfa f) tl (lfz f) tr (length (lfa f)) x right h hp w Of eq_refl) as II.
        cbv zeta in II. fold (lfill f tl) in II. cbn [lplug length].
        destruct (internal_insert nalloc (length (lfa f)) x (erase tr) right (erase (lfill f tl)) w) as [[[[n|nl y nr] [b j]]|e| | |] w']; try contradiction.
        + destruct II as (t' & hp' & E & En & Er & E1 & KP & Hj). rewrite E.
          destruct (@evolves_plug K V hp hp' c (lfill f tl) [tr] t' [] O E1 Er KP) as [E1' KP'].
          exists hp', (lplug t' c), []. cbn [same_outcome].
          split; [now rewrite (@lplug_root K V c (lfill f tl) t' Er)|]. split; [now rewrite erase_plug, En|].
          split; [exact E1'|]. split; [rewrite (@lplug_root K V c (lfill f tl) t' Er); apply KP'; exact HR|].
          split; [reflexivity|]. split; [|reflexivity]. cbn [fst]. rewrite lat_plug. cbn [lat]. rewrite Hj.
          destruct right; exact HL.
        + destruct II as (pl & pr & hp' & E & El & Epr & Er & E1 & KP & Hj). rewrite E. clear E.
          destruct (@evolves_plug K V hp hp' c (lfill f tl) [tr] pl [pr] O E1 Er KP) as [E1' KP'].
          pose proof (@lplug_root K V c (lfill f tl) pl Er) as ER. cbn [lplug] in HR. rewrite <- ER in KP', HR.
          specialize (IH (S h) pl y pr b (j :: p) i t0 hp' fuel w'). cbn [length] in Hf. rewrite El, Epr in IH.
          cbn [fst snd]. replace (h + S (length c)) with (S h + length c) by lia. cbn [Nat.add] in *.
          assert (lat (if b then pr else pl) (j :: p) = Some t0) as HL'.
          { cbn [lat]. rewrite Hj. destruct right; exact HL. }
          specialize (IH ltac:(lia) (ev_own E1') (KP' _ HR) HL').
          destruct (insert_up nalloc (S (h + length c)) nl y nr b (j :: p, i) (ectx c) w') as [[o [n H']] w''].
          destruct IH as (hp2 & T' & leak & E & En & E2 & H2 & Q). exists hp2, T', leak.
          rewrite <- Er, <- ER. rewrite E. split; [reflexivity|]. split; [exact En|].
          split; [exact (evolves_trans E1' E2)|]. split; [exact H2|]. exact Q.
        + rewrite II. exists hp, (lplug (lfill f tl) c), [tr]. cbn [same_outcome]. split; [reflexivity|].
          split; [now rewrite erase_plug|]. split; [apply evolves_refl; exact O|]. split; [exact HR|]. eauto.
    Qed.
  End Alloc.
End Ins.
