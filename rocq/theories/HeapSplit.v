(** * HeapSplit: split_off on raw memory. *)
From Coq Require Import List Arith Lia Bool Permutation.
From Verif Require Import Base MapSpec IterSpec BTreeModel BTreeInv BTreeLemmas BTreeSearch BTreeInsert BTreeIterModel BTreeIter BTreeStep BTreeIterProofs.
From Verif Require Import BTreeRange BTreeOps BTreeEntry BTreeWrites BTreeBulkModel BTreeBorder BTreeSplit HistoryModel.
From Verif Require Import HeapModel HeapMapModel HeapArr HeapRep HeapWp HeapNode HeapOps HeapOps2 HeapOps3 HeapOps4 HeapZip HeapRemove HeapSearch HeapInsert HeapRes HeapPart HeapMap HeapEntry HeapIter HeapInto HeapBorder.
Import ListNotations.
Set Implicit Arguments.
Unset Strict Implicit.

Section Split.
  Variables (K V : Type).
  Notation kv := (K * V)%type.
  Notation cell := (cell K V).
  Notation heap := (heap K V).
  Notation HM := (HM K V).
  Notation ltree := (ltree K V).
  Notation lroot := (@lroot K V).
  Notation erase := (@erase K V).
  Notation bmap := (bmap K V).
  Notation src := (src K V).
  Notation res := (res K V).
  Implicit Types (hp : heap).

  Lemma goes_roots2 hp a b hp' (a' b' : ltree) : evolves hp [a; b] hp' [a'; b'] -> hung hp' (lroot a') None -> hung hp' (lroot b') None ->
    goes hp [Root a; Root b] hp' [Root a'; Root b'].
  Proof.
    intros E Ha Hb. apply goes_trees in E. destruct E as [O F D N]. constructor; auto.
    apply own_root. split; [|exact Ha]. cbn [map] in O.
    assert (own hp' [Tree b'; Tree a']) as O1 by (eapply own_perm; [|exact O]; apply perm_swap).
    assert (own hp' [Root b'; Tree a']) as O2 by (apply own_root; auto). eapply own_perm; [|exact O2]. apply perm_swap.
  Qed.
  Lemma own_roots2 hp (a b : ltree) : own hp [Root a; Root b] -> owned hp [a; b] /\ hung hp (lroot a) None /\ hung hp (lroot b) None.
  Proof.
    intros O. apply own_root in O as [O Ha]. assert (own hp [Root b; Tree a]) as O1 by (eapply own_perm; [|exact O]; apply perm_swap).
    apply own_root in O1 as [O1 Hb]. split; [|auto]. apply own_trees. cbn [map]. eapply own_perm; [|exact O1]. apply perm_swap.
  Qed.
  (** a step on one piece of two *)
  Lemma goes_fst hp a hp' a' (b : list res) : goes hp a hp' a' -> own hp (a ++ b) -> goes hp (a ++ b) hp' (a' ++ b).
  Proof. intros G O. exact (proj1 (goes_frame G O)). Qed.
  Lemma goes_snd hp a hp' a' (b : list res) : goes hp a hp' a' -> own hp (b ++ a) -> goes hp (b ++ a) hp' (b ++ a').
  Proof.
    intros G O. eapply goes_perm; [apply Permutation_app_comm|apply Permutation_app_comm|]. apply goes_fst; [exact G|].
    eapply own_perm; [apply Permutation_app_comm|exact O].
  Qed.
  Lemma goes_add hp hp' a (b : list res) : goes hp [] hp' a -> own hp b -> goes hp b hp' (a ++ b).
  Proof. intros G O. exact (goes_fst G (b := b) O). Qed.

  Section Alloc.
    Variable W : Type.
    Variable nalloc : bool -> W -> option reserve_error * W.
    Variable place : heap -> W -> loc.
    Hypothesis place_fresh : forall hp w, hget hp (place hp w) = None.

    (** node.rs 237-258 *)
    Lemma push_level_m (T : ltree) h hp (w : W) : own hp [Root T] ->
      let '(o, w') := push_level nalloc (erase T) w in
      match o with
      | Ret n => exists hp' l, h_push_level nalloc place (NR h (lroot T)) hp w = (Ret (NR (S h) l), hp', w') /\
                   n = erase (LN l [] [T]) /\ goes hp [Root T] hp' [Root (LN l [] [T])]
      | Err e => h_push_level nalloc place (NR h (lroot T)) hp w = (Err e, hp, w')
      | _ => False
      end.
    Proof.
      intros O. destruct (own_root_owned O) as (Ow & Hu). unfold push_level, h_push_level.
      destruct (@lift_ok K V W _ (not_shared (NR h (lroot T))) hp w (fun _ hp' => hp' = hp)) as (r & hp1 & E & ->).
      { eapply wp_not_shared_t; [exact Ow|reflexivity]. }
      rewrite (abind_ret _ E). clear E r.
      pose proof (@new_box_ok K V W nalloc place place_fresh true hp w) as NB. destruct (nalloc true w) as [[e|] w'].
      { unfold abind. now rewrite NB. }
      destruct NB as (hp1 & NB & Fn & U). rewrite (abind_ret _ NB). clear NB. set (new := place hp w') in *.
      destruct (lift_ok w' (push_level_ok h Ow Fn U)) as (r & hp2 & E & -> & E1 & H1).
      cbn [rl rh]. rewrite E. exists hp2, new. split; [reflexivity|]. split; [reflexivity|]. now apply goes_root.
    Qed.

    (** map.rs 1096-1098, 1019-1021 *)
    Lemma push_levels_m n : forall (T : ltree) h hp (w : W), own hp [Root T] ->
      let '(o, (n1, h1), w') := push_levels nalloc n (erase T) h w in
      exists T' hp', h_push_levels nalloc place n (NR h (lroot T)) hp w = (omap (fun _ => tt) o, NR h1 (lroot T'), hp', w') /\
        n1 = erase T' /\ goes hp [Root T] hp' [Root T'] /\
        match o with Ret c => c = n1 /\ h1 = n + h | Err _ => True | _ => False end.
    Proof.
      induction n as [|n IH]; intros T h hp w O; cbn [push_levels h_push_levels].
      - exists T, hp. split; [reflexivity|]. split; [reflexivity|]. split; [now apply goes_refl|auto].
      - pose proof (push_level_m h w O) as PL. destruct (push_level nalloc (erase T) w) as [[n1|e| | |] w']; try contradiction.
        + destruct PL as (hp' & l & E & -> & G). rewrite E. specialize (IH (LN l [] [T]) (S h) hp' w' (go_own G)).
          destruct (push_levels nalloc n (erase (LN l [] [T])) (S h) w') as [[o [n2 h2]] w2]. destruct IH as (T' & hp2 & E2 & E3 & G2 & Q).
          exists T', hp2. split; [exact E2|]. split; [exact E3|]. split; [exact (goes_trans G G2)|].
          destruct o; auto. destruct Q as (Q1 & Q2). split; [exact Q1|lia].
        + rewrite PL. exists T, hp. split; [reflexivity|]. split; [reflexivity|]. split; [now apply goes_refl|exact I].
    Qed.

    Lemma split_off_m q m2 (m1 : bmap) s hp (w : W) : mrep m2 m1 s -> own hp (sres s) -> sound m1 -> cutq q (entries m1) ->
      let '(o, m1', ds, w') := split_off nalloc q m1 w in
      exists s' hp' m2' o2, h_split_off nalloc place q m2 hp w = (o2, m2', hp', w') /\ mrep m2' m1' s' /\
        match o with
        | Ret r1 => exists r2 sr, o2 = Ret r2 /\ mrep r2 r1 sr /\ goes hp (sres s) hp' (sres s' ++ sres sr)
        | Err e => o2 = Err e /\ s' = s /\ goes hp (sres s) hp' (sres s)
        | _ => False
        end.
    Proof.
      intros R O Hs Hq. pose proof (sound_any Hs) as Ha. destruct Hs as (Hbal & Hsh & Hlen). pose proof R as (EL & R').
      unfold split_off, h_split_off, is_empty, len. rewrite EL. destruct (Nat.eqb_spec (blen m1) 0) as [H0|H0].
      { exists s, hp, m2. eexists. split; [reflexivity|]. split; [exact R|]. exists h_new, None. split; [reflexivity|]. split; [apply mrep_new|].
        cbn [sres]. rewrite app_nil_r. now apply goes_refl. }
      destruct s as [T|].
      2:{ exfalso. destruct R' as (_ & R2 & _). destruct (Hsh R2) as (E & _). apply H0. rewrite Hlen. unfold entries. now rewrite E. }
      destruct R' as (R1 & R2 & R3). cbn [sres] in O. rewrite R1. cbn [rh].
      pose proof (@new_leaf_m K V W nalloc place place_fresh hp w) as NL. destruct (new_leaf K V nalloc w) as [[n|e| | |] w1]; try contradiction.
      2:{ rewrite NL. destruct (@drop_m K V h_new (@new K V) None hp) as (l & fr & _ & D); [apply mrep_new|constructor; constructor|reflexivity|reflexivity|].
        unfold wp in D. destruct (h_drop (@h_new) hp) as [[r hp']|]; [|contradiction]. destruct D as (_ & D). cbn [sres] in D.
        exists (Some T), hp', m2. eexists. split; [reflexivity|]. split; [exact R|]. split; [reflexivity|]. split; [reflexivity|].
        exact (goes_fst D (b := [Root T]) O). }
      destruct NL as (hp1 & l & E & -> & G1). rewrite E. clear E. cbn [fst snd].
      pose proof (goes_add G1 O) as G1'. cbn [app] in G1'.
      pose proof (push_levels_m (bheight m1) 0 w1 (go_own G1)) as PL.
      pose proof (@push_levels_ok K V W nalloc (bheight m1) (erase (LN l [] [])) 0 w1 eq_refl) as PO.
      destruct (push_levels nalloc (bheight m1) (erase (LN l [] [])) 0 w1) as [[o [n1 h1]] w2]. destruct PL as (C & hp2 & E & -> & G2 & Q).
      cbn [lroot HeapRep.lroot] in E. rewrite E. clear E. destruct PO as (Hch & PO).
      pose proof (goes_fst G2 (b := [Root T]) (go_own G1')) as G2'. cbn [app] in G2'. pose proof (goes_trans G1' G2') as G3.
      destruct o as [c|e| | |]; try contradiction; cbn [omap].
      - destruct Q as (-> & ->). rewrite Nat.add_0_r in *. destruct Hbal as [[Hcap _] Hk].
        destruct (@split_loop_ok K V q (bheight m1) (bnode m1) (erase C) Hk Hcap PO Hq) as (l1 & r1 & E & B1 & C1 & B2 & C2 & _).
        rewrite E. destruct (@fix_right_border_ok K V (bheight m1) l1 B1 C1) as (l' & hl & F1 & _). rewrite F1.
        destruct (@fix_left_border_ok K V (bheight m1) r1 B2 C2) as (r' & hr & F2 & _). rewrite F2.
        assert (own hp2 [Root T; Root C]) as O2 by (eapply own_perm; [|exact (go_own G3)]; apply perm_swap).
        assert (goes hp [Root T] hp2 [Root T; Root C]) as G3' by (eapply goes_perm; [reflexivity| |exact G3]; apply perm_swap). clear G3.
        destruct (own_roots2 O2) as (Ow & HuT & HuC). rewrite R3 in E, Ha.
        assert (wp (hbind (h_split_loop (S (bheight m1)) q (NR (bheight m1) (lroot T)) (NR (bheight m1) (lroot C))) (fun _ =>
          hbind (h_fix_border (@h_fix_right_loop K V) (NR (bheight m1) (lroot T))) (fun ls =>
          hbind (h_fix_border (@h_fix_left_loop K V) (NR (bheight m1) (lroot C))) (fun rs =>
          if rh ls <? rh rs then
            hbind (h_dfs (S (rh ls)) ls) (fun n => hret (HMap rs (blen m1 - n), HMap ls n))
          else
            hbind (h_dfs (S (rh rs)) rs) (fun n => hret (HMap rs n, HMap ls (blen m1 - n))))))) hp2 (fun r hp' => exists TL TR,
            goes hp2 [Root T; Root C] hp' [Root TL; Root TR] /\ erase TL = l' /\ erase TR = r' /\
            if hl <? hr then r = (HMap (NR hr (lroot TR)) (blen m1 - dfs hl l'), HMap (NR hl (lroot TL)) (dfs hl l'))
            else r = (HMap (NR hr (lroot TR)) (dfs hr r'), HMap (NR hl (lroot TL)) (blen m1 - dfs hr r')))) as Wp.
        { apply wp_bind. eapply wp_mono; [eapply split_loop_t; [lia|exact Ow|exact Ha|exact (proj1 (chain_kids _ _ PO))|exact E]|].
          intros _ hp3 (TL & TR & El & Er & Rl & Rr & Ev & KL & KR). rewrite <- Rl, <- Rr in *.
          assert (goes hp2 [Root T; Root C] hp3 [Root TL; Root TR]) as G4 by (apply goes_roots2; [exact Ev|now apply KL|now apply KR]).
          destruct (own_roots2 (go_own G4)) as (Ow3 & Hl3 & Hr3). subst l1 r1.
          apply wp_bind. eapply wp_mono; [eapply fix_right_border_t; [exact (owned_one Ow3)|exact Hl3|exact B1|exact C1|exact F1]|].
          intros ls hp4 (TL2 & -> & El & Ev4 & Hl4 & Kl).
          pose proof (goes_fst (goes_root Ev4 Hl4) (b := [Root TR]) (go_own G4)) as G5. cbn [app] in G5.
          destruct (own_roots2 (go_own G5)) as (Ow4 & _ & Hr4).
          apply wp_bind. eapply wp_mono; [eapply fix_left_border_t; [exact (owned_one (owned_swap Ow4))|exact Hr4|exact B2|exact C2|exact F2]|].
          intros rs hp5 (TR2 & -> & Er & Ev5 & Hr5 & Kr).
          pose proof (goes_snd (goes_root Ev5 Hr5) (b := [Root TL2]) (go_own G5)) as G6. cbn [app] in G6.
          destruct (own_roots2 (go_own G6)) as (Ow5 & _). subst l' r'. cbn [rh]. destruct (hl <? hr).
          - apply wp_bind. eapply wp_mono; [eapply dfs_t; [lia|exact Ow5|exact Kl]|]. intros n hp6 (-> & ->). apply wp_ret.
            exists TL2, TR2. split; [exact (goes_trans G4 (goes_trans G5 G6))|]. auto.
          - apply wp_bind. eapply wp_mono; [eapply dfs_t; [lia|exact (owned_swap Ow5)|exact Kr]|]. intros n hp6 (-> & ->). apply wp_ret.
            exists TL2, TR2. split; [exact (goes_trans G4 (goes_trans G5 G6))|]. auto. }
        destruct (lift_ok w2 Wp) as (r & hp3 & E3 & TL & TR & G4 & El & Er & Q). rewrite E3. clear E3 Wp. subst l' r'.
        destruct (hl <? hr); subst r; exists (Some TL), hp3; (eexists _, _; split; [reflexivity|]); (split; [split; [reflexivity|]; auto|]);
          eexists _, (Some TR); (split; [reflexivity|]); (split; [split; [reflexivity|]; auto|]); exact (goes_trans G3' G4).
      - destruct (chain_kids _ _ Hch) as (K1 & K2 & K3).
        destruct (@drop_m K V (HMap (NR h1 (lroot C)) 0) (BMap false (erase C) h1 0) (Some C) hp2) as (l0 & fr & _ & D).
        { split; [reflexivity|auto]. } { exact (own_sub (rs := [Root C]) (us := [Root T]) (go_own G3)). } { exact K1. } { unfold entries. cbn. now rewrite K3. }
        unfold wp in D. destruct (h_drop (HMap (NR h1 (lroot C)) 0) hp2) as [[r hp3]|]; [|contradiction]. destruct D as (_ & D).
        pose proof (goes_fst D (b := [Root T]) (go_own G3)) as G4. cbn [app] in G4.
        exists (Some T), hp3, m2. eexists. split; [reflexivity|]. split; [exact R|]. split; [reflexivity|]. split; [reflexivity|].
        exact (goes_trans G3 G4).
    Qed.
  End Alloc.
End Split.
