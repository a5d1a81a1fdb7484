(** * HeapClone: try_clone and Clone on raw memory. *)
From Coq Require Import List Arith Lia Bool Permutation.
From Verif Require Import Base MapSpec MergeSpec IterSpec BTreeModel BTreeInv BTreeLemmas BTreeSearch BTreeInsert BTreeIterModel BTreeIter BTreeStep BTreeIterProofs.
From Verif Require Import BTreeRange BTreeOps BTreeEntry BTreeWrites BTreeBulkModel BTreeBorder BTreeSplit BTreeAppend BTreeClone HistoryModel.
From Verif Require Import HeapModel HeapMapModel HeapArr HeapRep HeapWp HeapNode HeapOps HeapOps2 HeapOps3 HeapOps4 HeapZip HeapRemove HeapSearch HeapInsert HeapRes HeapPart HeapMap HeapEntry HeapIter HeapInto HeapBorder HeapSplit HeapAppend.
Import ListNotations.
Set Implicit Arguments.
Unset Strict Implicit.

Section Clone.
  Variables (K V W : Type) (nalloc : bool -> W -> option reserve_error * W) (place : HeapModel.heap K V -> W -> loc).
  Hypothesis place_fresh : forall hp w, hget hp (place hp w) = None.
  Variables (kclone : K -> W -> outcome reserve_error K * W) (vclone : V -> W -> outcome reserve_error V * W).
  Notation kv := (K * V)%type.
  Notation cell := (cell K V).
  Notation heap := (heap K V).
  Notation HM := (HM K V).
  Notation ltree := (ltree K V).
  Notation lroot := (@lroot K V).
  Notation erase := (@erase K V).
  Notation bmap := (bmap K V).
  Notation src := (src K V).
  Notation res := (res K V).
  Notation h_kv_clone := (h_kv_clone kclone vclone).
  Notation h_clone_leaf := (h_clone_leaf kclone vclone).
  Notation h_clone_internal := (h_clone_internal kclone vclone).
  Notation h_clone_subtree := (h_clone_subtree nalloc place kclone vclone).
  Implicit Types (hp : heap).

  Lemma goes_join hp (a b : ltree) hp' (a' : ltree) : evolves hp [a; b] hp' [a'] -> hung hp' (lroot a') None ->
    goes hp [Root a; Root b] hp' [Root a'].
  Proof. intros E Ha. apply goes_trees in E. destruct E as [O F D N]. constructor; auto. apply own_root. split; [exact O|exact Ha]. Qed.

  (** a clone under construction: what became of [rs] *)
  Definition crel hp (rs : list res) (h : nat) (r : cres K V W) (x : outcome reserve_error hmap * heap * W) : Prop :=
    let '(o, d, w') := r in
    match o with
    | Ret (n, l) => exists O hp', x = (Ret (HMap (NR h (lroot O)) l), hp', w') /\ n = erase O /\ goes hp rs hp' [Root O]
    | Err _ | Panic => exists hp', x = (pass o, hp', w') /\ goes hp rs hp' []
    | _ => exists hp', x = (pass o, hp', w')
    end.
  Lemma crel_trans hp rs hp1 rs1 h r x : goes hp rs hp1 rs1 -> crel hp1 rs1 h r x -> crel hp rs h r x.
  Proof.
    intros G. unfold crel. destruct r as [[o d] w']. destruct o as [[n l]|e| | |]; auto.
    - intros (O & hp' & E & En & G'). exists O, hp'. split; [exact E|]. split; [exact En|]. exact (goes_trans G G').
    - intros (hp' & E & G'). exists hp'. split; [exact E|]. exact (goes_trans G G').
    - intros (hp' & E & G'). exists hp'. split; [exact E|]. exact (goes_trans G G').
  Qed.

  Lemma kv_clone_m x hp (w : W) : h_kv_clone x hp w = (let '(o, w') := kv_clone kclone vclone x w in (o, hp, w')).
  Proof.
    unfold HeapMapModel.h_kv_clone, kv_clone. destruct (kclone (fst x) w) as [[k|e| | |] w1]; try reflexivity.
    destruct (vclone (snd x) w1) as [[v|e| | |] w2]; reflexivity.
  Qed.

  Lemma unwind_m A (o : outcome reserve_error A) (O : ltree) h l hp (w : W) : own hp [Root O] -> kids any h (erase O) -> l = length (inorder (erase O)) ->
    match o with Err _ | Panic => True | _ => False end ->
    exists hp', unwind o (HMap (NR h (lroot O)) l) hp w = (pass o, hp', w) /\ goes hp [Root O] hp' [].
  Proof.
    intros Ow Hk Hl Ho.
    assert (mrep (HMap (NR h (lroot O)) l) (BMap false (erase O) h l) (Some O)) as R.
    { split; [reflexivity|]. cbn [mroot bheight bshared bnode]. auto. }
    destruct (@drop_m K V _ _ _ hp R Ow Hk Hl) as (es & fr & _ & Wp). unfold wp in Wp. unfold unwind.
    destruct (h_drop (HMap (NR h (lroot O)) l) hp) as [[r hp']|]; [|contradiction]. destruct Wp as (_ & G). exists hp'.
    split; [|exact G]. destruct o; try contradiction; reflexivity.
  Qed.

  (** one step of the walk over a source node *)
  Lemma look_m (S t : ltree) c h ka xs hp (w : W) : part_ok hp S [] -> S = lplug t c -> lks t = ka ++ xs ->
    lift (hbind (right_kv (NR h (lroot t), length ka)) (fun k =>
            match k with
            | Some h => hbind (h_into_kv h) (fun x => hbind (right_edge h) (fun e' => hret (Some (x, e'))))
            | None => hret None
            end)) hp w = (Ret (match xs with [] => None | x :: _ => Some (x, (NR h (lroot t), Datatypes.S (length ka))) end), hp, w).
  Proof.
    intros P ES Ek. assert (~ In (cpath (ectx c)) (@nil path)) as Nd by (intros []).
    match goal with |- lift ?m hp w = (Ret ?r, _, _) => assert (wp m hp (fun x hp' => x = r /\ hp' = hp)) as Wp end.
    2:{ destruct (lift_ok w Wp) as (a & hp' & E & -> & ->). exact E. }
    apply wp_bind. eapply (part_right_kv P ES Nd). rewrite Ek, app_length. destruct xs as [|x xs].
    - cbn [length]. rewrite Nat.add_0_r, Nat.ltb_irrefl. apply wp_ret. auto.
    - cbn [length]. replace (length ka <? length ka + Datatypes.S (length xs)) with true by (symmetry; apply Nat.ltb_lt; lia).
      apply wp_bind. eapply (part_read_kv P ES Nd); [rewrite Ek, nth_error_app2, Nat.sub_diag by lia; reflexivity|].
      unfold right_edge. cbn [fst snd]. apply wp_bind. eapply (part_edge P ES Nd); [rewrite Ek, app_length; cbn [length]; lia|].
      apply wp_ret. rewrite Nat.add_1_r. auto.
  Qed.

  Lemma clone_leaf_m (S t : ltree) c : S = lplug t c -> forall xs ka (O : ltree) hp (w : W) fuel,
    own hp [Root S; Root O] -> lks t = ka ++ xs -> les O = [] -> length (lks O) = length ka -> length xs < fuel ->
    crel hp [Root O] 0 (clone_leaf kclone vclone xs (erase O) (length (lks O)) w)
      (h_clone_leaf fuel (NR 0 (lroot t), length ka) (HMap (NR 0 (lroot O)) (length (lks O))) hp w).
  Proof.
    intros ES. induction xs as [|x xs IH]; intros ka O hp w fuel Ow Ek Le Hl Hf; (destruct fuel as [|fuel]; [lia|]);
      cbn [HeapMapModel.h_clone_leaf clone_leaf]; pose proof Ow as Ow'; change [Root S; Root O] with ([Root S] ++ [Root O]) in Ow'; apply own_app in Ow'; destruct Ow' as (OS & OO & _);
      rewrite (@look_m S t c 0 ka _ hp w (own_part1 OS) ES Ek).
    - cbn [crel]. exists O, hp. split; [reflexivity|]. split; [reflexivity|]. now apply goes_refl.
    - rewrite kv_clone_m. destruct (kv_clone kclone vclone x w) as [o w1].
      assert (kids any 0 (erase O)) as Kd by (cbn [kids]; rewrite edges_erase, Le; reflexivity).
      assert (length (lks O) = length (inorder (erase O))) as Li by (rewrite leaf_inorder by exact Kd; now rewrite kvs_erase).
      destruct o as [y|e| | |].
      + cbn [mroot mlen push].
        assert (LN (lroot O) (lks O) [] = O) as Et by (transitivity (LN (lroot O) (lks O) (les O)); [now rewrite Le|symmetry; apply ltree_eta]).
        destruct (own_root_owned OO) as (Oo & Hu).
        assert (owned hp [LN (lroot O) (lks O) []]) as Oo' by (rewrite Et; exact Oo).
        assert (length (lks O) < CAPACITY) as Lc.
        { destruct (own_root_owned OS) as (Os & _). rewrite ES in Os. pose proof (owned_focus Os) as Ot. rewrite (ltree_eta t) in Ot.
          destruct (owned_arity Ot) as (Q & _). rewrite Ek, app_length in Q. cbn [length] in Q. lia. }
        destruct (lift_ok w1 (@leaf_push_ok K V (lroot O) 0 y (lks O) hp Oo' Lc)) as (u & hp1 & E & Ev & Ke). rewrite E. clear E.
        rewrite Et in Ev. set (O' := LN (lroot O) (lks O ++ [y]) []) in *.
        assert (goes hp [Root O] hp1 [Root O']) as G by (apply goes_root; [exact Ev|]; apply Ke; exact Hu).
        eapply crel_trans; [exact G|].
        assert (Node (kvs (erase O) ++ [y]) (edges (erase O)) = erase O') as Eo by (unfold O'; now rewrite kvs_erase, edges_erase, Le, erase_eq).
        rewrite Eo. replace (length (lks O) + 1) with (length (lks O')) by (unfold O'; cbn [lks]; rewrite app_length; reflexivity).
        change (lroot O) with (lroot O'). replace (Datatypes.S (length ka)) with (length (ka ++ [x])) by (rewrite app_length; cbn [length]; lia).
        apply IH; [|rewrite <- app_assoc; exact Ek|reflexivity| |cbn [length] in Hf; lia].
        * pose proof (goes_snd (b := [Root S]) G Ow) as G2. exact (go_own G2).
        * unfold O'. cbn [lks]. rewrite !app_length. cbn [length]. lia.
      + destruct (@unwind_m kv (Err e) O 0 (length (lks O)) hp w1 OO Kd Li I) as (hp' & E & G). rewrite E. exists hp'. split; [reflexivity|exact G].
      + destruct (@unwind_m kv Panic O 0 (length (lks O)) hp w1 OO Kd Li I) as (hp' & E & G). rewrite E. exists hp'. split; [reflexivity|exact G].
      + exists hp. reflexivity.
      + exists hp. reflexivity.
  Qed.

  Lemma clone_internal_m (S t : ltree) c h (sub1 : node K V -> W -> cres K V W) (sub2 : nref -> heap -> W -> outcome reserve_error hmap * heap * W) :
    S = lplug t c ->
    (forall e w, kids any h e -> res_ok nalloc kclone vclone any h (nlen e) (inorder e) (sub1 e w)) ->
    (forall (e : ltree) ce hp w, S = lplug e ce -> kids any h (erase e) -> own hp [Root S] -> crel hp [] h (sub1 (erase e) w) (sub2 (NR h (lroot e)) hp w)) ->
    forall xs ka es ea (O : ltree) hp (w : W) fuel l,
    own hp [Root S; Root O] -> lks t = ka ++ xs -> les t = ea ++ es -> length ea = Datatypes.S (length ka) -> length es = length xs -> Forall (fun e => kids any h (erase e)) es ->
    kids any (Datatypes.S h) (erase O) -> length (lks O) = length ka -> l = length (inorder (erase O)) -> length xs < fuel ->
    crel hp [Root O] (Datatypes.S h) (clone_internal kclone vclone sub1 h xs (map erase es) (erase O) l w)
      (h_clone_internal sub2 fuel (NR (Datatypes.S h) (lroot t), length ka) (HMap (NR (Datatypes.S h) (lroot O)) l) hp w).
  Proof.
    intros ES Hok Hsub. induction xs as [|x xs IH]; intros ka es ea O hp w fuel l Ow Ek Ee Lea Les Fes Kd Hl Hlen Hf; (destruct fuel as [|fuel]; [lia|]);
      cbn [HeapMapModel.h_clone_internal clone_internal]; pose proof Ow as Ow'; change [Root S; Root O] with ([Root S] ++ [Root O]) in Ow'; apply own_app in Ow'; destruct Ow' as (OS & OO & _);
      rewrite (@look_m S t c (Datatypes.S h) ka _ hp w (own_part1 OS) ES Ek).
    - exists O, hp. split; [reflexivity|]. split; [reflexivity|]. now apply goes_refl.
    - destruct es as [|e es]; [discriminate Les|]. cbn [map]. inversion Fes as [|? ? Ke Fes']; subst.
      rewrite kv_clone_m. destruct (kv_clone kclone vclone x w) as [o w1].
      assert (forall A (o : outcome reserve_error A) hp1 w1 d rs, match o with Err _ | Panic => True | _ => False end -> own hp1 [Root O] -> goes hp rs hp1 [Root O] ->
         crel hp rs (Datatypes.S h) (pass o, d, w1) (unwind o (HMap (NR (Datatypes.S h) (lroot O)) (length (inorder (erase O)))) hp1 w1)) as UW.
      { intros A o' hp1 w2 d rs Ho O1 G1. destruct (@unwind_m A o' O (Datatypes.S h) _ hp1 w2 O1 Kd eq_refl Ho) as (hp' & E & G). rewrite E.
        destruct o' as [a|er| | |]; try contradiction; (exists hp'; split; [reflexivity|exact (goes_trans G1 G)]). }
      destruct o as [y|er| | |].
      2:{ apply (UW kv (Err er)); [exact I|exact OO|now apply goes_refl]. }
      2:{ apply (UW kv Panic); [exact I|exact OO|now apply goes_refl]. }
      2,3: exists hp; reflexivity.
      set (S := lplug t c) in *.
      assert (S = lplug e (LF (lroot t) (lks t) ea es :: c)) as ES2.
      { unfold S. cbn [lplug]. f_equal. unfold lfill. cbn [lfl lfk lfa lfz]. rewrite <- Ee. apply ltree_eta. }
      destruct (@lift_ok K V W _ (h_descend (NR (Datatypes.S h) (lroot t), Datatypes.S (length ka))) hp w1 (fun r hp' => r = NR h (lroot e) /\ hp' = hp)) as (r & hp1 & E & -> & ->).
      { change (lroot t) with (lfl (LF (lroot t) (lks t) ea es)). eapply part_down; [exact (own_part1 OS)|exact ES2|intros []|cbn [lfa]; exact Lea|auto]. }
      rewrite (abind_ret _ E). clear E.
      pose proof (Hok (erase e) w1 Ke) as Rk. pose proof (@Hsub e _ hp w1 ES2 Ke OS) as Cr.
      destruct (sub1 (erase e) w1) as [[so d] w2]. destruct Rk as (_ & Rk).
      destruct so as [[sn sl]|er| | |]; cbn [crel] in Cr.
      + destruct Cr as (C & hp1 & E & -> & G). rewrite E. clear E. destruct Rk as (-> & Rn & Rk & -> & _).
        pose proof (goes_add G Ow) as G1. cbn [app] in G1.
        assert (goes hp [Root O] hp1 [Root O; Root C]) as G2.
        { eapply goes_perm; [reflexivity|apply perm_swap|]. exact (goes_add G OO). }
        destruct (own_roots2 (go_own G2)) as (Oc & HuO & HuC). cbn [mroot mlen push].
        rewrite kids_S, edges_erase, map_length, nlen_erase in Kd. destruct Kd as (Kl & Kf).
        assert (is_int (les O) = true) as Hint by (destruct (les O); [cbn [length] in Kl; lia|reflexivity]).
        assert (length (lks O) < CAPACITY) as Lc.
        { destruct (own_root_owned OS) as (Os & _). pose proof (owned_focus Os) as Ot. rewrite (ltree_eta t) in Ot.
          destruct (owned_arity Ot) as (Q & _). rewrite Ek, app_length in Q. cbn [length] in Q. lia. }
        assert (owned hp1 [LN (lroot O) (lks O) (les O); C]) as Oc' by (rewrite <- ltree_eta; exact Oc).
        destruct (lift_ok w2 (@internal_push_ok K V (lroot O) (Datatypes.S h) y (NR h (lroot C)) C (lks O) (les O) hp1 Oc' Hint eq_refl eq_refl Lc)) as (u & hp2 & E & Ev & Kp).
        rewrite E. clear E. rewrite <- ltree_eta in Ev. set (O' := LN (lroot O) (lks O ++ [y]) (les O ++ [C])) in *.
        assert (goes hp1 [Root O; Root C] hp2 [Root O']) as G3 by (apply goes_join; [exact Ev|]; apply Kp; exact HuO).
        eapply crel_trans; [exact (goes_trans G2 G3)|].
        rewrite nlen_erase, edges_erase, kvs_erase, firstn_all2 by (rewrite map_length; lia).
        assert (Node (lks O ++ [y]) (map erase (les O) ++ [erase C]) = erase O') as Eo by (unfold O'; rewrite erase_eq, map_app; reflexivity).
        rewrite Eo. change (lroot O) with (lroot O'). replace (Datatypes.S (length ka)) with (length (ka ++ [x])) by (rewrite app_length; cbn [length]; lia).
        apply IH with (ea := ea ++ [e]).
        * pose proof (goes_perm (perm_swap _ _ _) (Permutation_refl _) (goes_fst (b := [Root S]) (goes_trans G2 G3) (own_perm (perm_swap _ _ _) Ow))) as G4.
          cbn [app] in G4. eapply own_perm; [apply perm_swap|]. exact (go_own G4).
        * rewrite <- app_assoc. exact Ek.
        * rewrite <- app_assoc. exact Ee.
        * rewrite !app_length. cbn [length]. lia.
        * cbn [length] in Les. lia.
        * exact Fes'.
        * rewrite kids_S. rewrite <- Eo. cbn [edges]. unfold nlen. cbn [kvs]. rewrite !app_length, map_length. cbn [length]. split; [lia|].
          apply Forall_app. split; [exact Kf|]. constructor; [|constructor]. split; [exact I|exact Rk].
        * unfold O'. cbn [lks]. rewrite !app_length. cbn [length]. lia.
        * rewrite <- Eo, (inorder_eq (Node _ _)). cbn [edges kvs]. rewrite map_app. cbn [map]. rewrite weave_snoc by (rewrite !map_length; lia).
          rewrite app_length. cbn [length]. rewrite (inorder_eq (erase O)), edges_erase, kvs_erase. lia.
        * cbn [length] in Hf. lia.
      + destruct Cr as (hp1 & E & G). rewrite E. clear E. pose proof (goes_add G OO) as G1. cbn [app] in G1. apply (UW hmap (Err er)); [exact I|exact (go_own G1)|exact G1].
      + destruct Cr as (hp1 & E & G). rewrite E. clear E. pose proof (goes_add G OO) as G1. cbn [app] in G1. apply (UW hmap Panic); [exact I|exact (go_own G1)|exact G1].
      + destruct Cr as (hp1 & E). rewrite E. exists hp1. reflexivity.
      + destruct Cr as (hp1 & E). rewrite E. exists hp1. reflexivity.
  Qed.

  Lemma clone_subtree_m h : forall fuel (S t : ltree) c hp (w : W), h < fuel -> S = lplug t c -> kids any h (erase t) -> own hp [Root S] ->
    crel hp [] h (clone_subtree nalloc kclone vclone h (erase t) w) (h_clone_subtree fuel (NR h (lroot t)) hp w).
  Proof.
    induction h as [|h IH]; intros fuel S t c hp w Hf ES Hk OS; (destruct fuel as [|fuel]; [lia|]); cbn [HeapMapModel.h_clone_subtree clone_subtree rh].
    - pose proof (@new_leaf_m K V W nalloc place place_fresh hp w) as NL. destruct (new_leaf K V nalloc w) as [[lf|e| | |] w1]; try contradiction.
      2:{ rewrite NL. exists hp. split; [reflexivity|]. apply goes_refl. split; [constructor|constructor]. }
      destruct NL as (hp1 & l & E & -> & G). rewrite E. clear E. pose proof (goes_add G OS) as G1. cbn [app] in G1.
      assert (own hp1 [Root S; Root (LN l [] [])]) as O1 by (eapply own_perm; [apply perm_swap|exact (go_own G1)]).
      assert (own hp1 [Root S]) as OS1 by (change [Root S; Root (LN l [] [])] with ([Root S] ++ [Root (LN l [] [])]) in O1; apply own_app in O1; apply O1).
      destruct (@lift_ok K V W _ (first_edge (NR 0 (lroot t))) hp1 w1 (fun r hp' => r = (NR 0 (lroot t), 0) /\ hp' = hp1)) as (r & hp2 & E & -> & ->).
      { unfold first_edge. eapply (part_edge (own_part1 OS1) ES); [intros []|lia|auto]. }
      rewrite (abind_ret _ E). clear E. eapply crel_trans; [exact G|]. rewrite kvs_erase.
      apply (@clone_leaf_m S t c ES (lks t) [] (LN l [] []) hp1 w1 (Datatypes.S CAPACITY)); auto.
      destruct (own_root_owned OS) as (Os & _). rewrite ES in Os. pose proof (owned_focus Os) as Ot. rewrite (ltree_eta t) in Ot.
      destruct (owned_arity Ot) as (Q & _). lia.
    - pose proof Hk as Hk0. rewrite kids_S in Hk. destruct Hk as [Hl Hfk]. rewrite edges_erase in *. rewrite map_length, nlen_erase in Hl.
      destruct (les t) as [|e0 es] eqn:Ee; [discriminate Hl|]. cbn [map] in *. inversion Hfk as [|? ? [_ He2] Hf']; subst.
      set (S := lplug t c) in *.
      assert (S = lplug e0 (LF (lroot t) (lks t) [] es :: c)) as ES2.
      { unfold S. cbn [lplug]. f_equal. unfold lfill. cbn [lfl lfk lfa lfz app]. rewrite <- Ee. apply ltree_eta. }
      destruct (@lift_ok K V W _ (hbind (first_edge (NR (Datatypes.S h) (lroot t))) (fun e => h_descend e)) hp w (fun r hp' => r = NR h (lroot e0) /\ hp' = hp)) as (r & hp1 & E & -> & ->).
      { unfold first_edge. apply wp_bind. eapply (part_edge (own_part1 OS) (eq_refl : S = lplug t c)); [intros []|lia|].
        change (lroot t) with (lfl (LF (lroot t) (lks t) [] es)). eapply part_down; [exact (own_part1 OS)|exact ES2|intros []|reflexivity|auto]. }
      rewrite (abind_ret _ E). clear E.
      pose proof (IH fuel S e0 _ hp w ltac:(lia) ES2 He2 OS) as Cr.
      pose proof (@clone_subtree_ok K V W nalloc kclone vclone any h (erase e0) w He2) as Rk.
      destruct (clone_subtree nalloc kclone vclone h (erase e0) w) as [[o d] w1]. destruct Rk as (_ & Rk).
      destruct o as [[on ol]|er| | |]; cbn [crel] in Cr.
      + destruct Cr as (O & hp1 & E & -> & G). rewrite E. clear E. destruct Rk as (-> & Rn & Rk & -> & _). cbn [mroot mlen].
        pose proof (@push_level_m K V W nalloc place place_fresh O h hp1 w1 (go_own G)) as PL.
        destruct (push_level nalloc (erase O) w1) as [[on1|er| | |] w2]; try contradiction.
        2:{ rewrite PL. destruct (@unwind_m nref (Err er) O h _ hp1 w2 (go_own G) Rk eq_refl I) as (hp' & E & G'). rewrite E. exists hp'. split; [reflexivity|]. exact (goes_trans G G'). }
        destruct PL as (hp2 & l & E & -> & G2). rewrite E. clear E. pose proof (goes_trans G G2) as G3.
        pose proof (goes_add G3 OS) as G4. cbn [app] in G4.
        assert (own hp2 [Root S; Root (LN l [] [O])]) as O2 by (eapply own_perm; [apply perm_swap|exact (go_own G4)]).
        assert (own hp2 [Root S]) as OS2 by (change [Root S; Root (LN l [] [O])] with ([Root S] ++ [Root (LN l [] [O])]) in O2; apply own_app in O2; apply O2).
        destruct (@lift_ok K V W _ (first_edge (NR (Datatypes.S h) (lroot t))) hp2 w2 (fun r hp' => r = (NR (Datatypes.S h) (lroot t), 0) /\ hp' = hp2)) as (r & hp3 & E & -> & ->).
        { unfold first_edge. eapply (part_edge (own_part1 OS2) (eq_refl : S = lplug t c)); [intros []|lia|auto]. }
        rewrite (abind_ret _ E). clear E. eapply crel_trans; [exact G3|]. rewrite kvs_erase.
        change (NR (Datatypes.S h) l) with (NR (Datatypes.S h) (lroot (LN l [] [O]))).
        apply (@clone_internal_m S t c h (clone_subtree nalloc kclone vclone h) (h_clone_subtree fuel) eq_refl) with (ka := []) (ea := [e0]); auto.
        * intros e w'. apply clone_subtree_ok.
        * intros e ce hp' w' E1 K1 O1. eapply IH; [lia|exact E1|exact K1|exact O1].
        * clear - Hf'. induction es as [|e es IH]; [constructor|]. cbn [map] in Hf'. inversion Hf'; subst. constructor; [apply H1|auto].
        * rewrite kids_S, erase_eq. cbn [edges map]. split; [reflexivity|]. constructor; [|constructor]. split; [exact I|exact Rk].
        * rewrite erase_eq, (inorder_eq (Node _ _)). cbn [edges kvs map weave]. now rewrite app_nil_r.
        * destruct (own_root_owned OS) as (Os & _). unfold S in Os. pose proof (owned_focus Os) as Ot. rewrite (ltree_eta t) in Ot.
          destruct (owned_arity Ot) as (Q & _). lia.
      + destruct Cr as (hp1 & E & G). rewrite E. exists hp1. split; [reflexivity|exact G].
      + destruct Cr as (hp1 & E & G). rewrite E. exists hp1. split; [reflexivity|exact G].
      + destruct Cr as (hp1 & E). rewrite E. exists hp1. reflexivity.
      + destruct Cr as (hp1 & E). rewrite E. exists hp1. reflexivity.
  Qed.

  (** map.rs 139-216 *)
  Lemma try_clone_m m2 (m1 : bmap) s hp (w : W) : mrep m2 m1 s -> own hp (sres s) -> sound m1 ->
    let '(o, d, w') := try_clone nalloc kclone vclone m1 w in
    exists hp' o2, h_try_clone nalloc place kclone vclone m2 hp w = (o2, hp', w') /\
      match o with
      | Ret r1 => exists r2 sr, o2 = Ret r2 /\ mrep r2 r1 sr /\ goes hp [] hp' (sres sr)
      | Err _ | Panic => o2 = pass o /\ goes hp [] hp' []
      | _ => o2 = pass o
      end.
  Proof.
    intros R O Sm. pose proof (sound_any Sm) as Hk. unfold try_clone, h_try_clone, len. rewrite (proj1 R).
    destruct (Nat.eqb_spec (blen m1) 0) as [E0|E0].
    { exists hp, (Ret h_new). split; [reflexivity|]. exists h_new, None. split; [reflexivity|]. split; [apply mrep_new|]. apply goes_refl. split; constructor. }
    destruct s as [T|].
    2:{ exfalso. destruct Sm as (_ & _ & Hl). destruct R as (_ & _ & _ & R & _). apply E0. rewrite Hl. unfold entries. rewrite R. reflexivity. }
    destruct R as (_ & Er & _ & En). rewrite Er. cbn [rh]. rewrite En in *. cbn [sres] in O.
    pose proof (@clone_subtree_m (bheight m1) (Datatypes.S (bheight m1)) T T [] hp w ltac:(lia) eq_refl Hk O) as Cr.
    destruct (clone_subtree nalloc kclone vclone (bheight m1) (erase T) w) as [[o d] w1]. destruct o as [[n l]|e| | |]; cbn [crel] in Cr.
    - destruct Cr as (C & hp' & E & -> & G). exists hp', (Ret (HMap (NR (bheight m1) (lroot C)) l)). split; [exact E|].
      eexists _, (Some C). split; [reflexivity|]. split; [|exact G]. split; [reflexivity|]. cbn [mroot bheight bshared bnode]. auto.
    - destruct Cr as (hp' & E & G). exists hp', (Err e). auto.
    - destruct Cr as (hp' & E & G). exists hp', Panic. auto.
    - destruct Cr as (hp' & E). exists hp', Abort. auto.
    - destruct Cr as (hp' & E). exists hp', UB. auto.
  Qed.
End Clone.
