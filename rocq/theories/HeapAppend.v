(** * HeapAppend: append on raw memory. *)
From Coq Require Import List Arith Lia Bool Permutation.
From Verif Require Import Base MapSpec MergeSpec IterSpec BTreeModel BTreeInv BTreeLemmas BTreeSearch BTreeInsert BTreeIterModel BTreeIter BTreeStep BTreeIterProofs.
From Verif Require Import BTreeRange BTreeOps BTreeEntry BTreeWrites BTreeBulkModel BTreeBorder BTreeSplit BTreeAppend HistoryModel.
From Verif Require Import HeapModel HeapMapModel HeapArr HeapRep HeapWp HeapNode HeapOps HeapOps2 HeapOps3 HeapOps4 HeapZip HeapRemove HeapSearch HeapInsert HeapRes HeapPart HeapMap HeapEntry HeapIter HeapInto HeapBorder HeapSplit.
Import ListNotations.
Set Implicit Arguments.
Unset Strict Implicit.

Section Append.
  Variables (K V : Type).
  Notation kv := (K * V)%type.
  Notation cell := (cell K V).
  Notation heap := (heap K V).
  Notation HM := (HM K V).
  Notation ltree := (ltree K V).
  Notation lroot := (@lroot K V).
  Notation erase := (@erase K V).
  Notation bmap := (bmap K V).
  Notation src := (src K V).
  Notation res := (res K V).
  Implicit Types (hp : heap).

  (** ** The merging iterator *)
  Definition kst (s : src) (H : nat) (i1 : into_iter K V) (i2 : hinto) : Prop :=
    (exists a b, into_ok H (tree_of s) (shared_of s) a b i1) /\
    at_edge s (nfront i1) (hfront i2) /\ at_edge s (nback i1) (hback i2) /\ hleft i2 = nleft_ i1.
  Definition fres (s : src) (p : peekable K V) : list res := pres s (nfreed (pinner p)).
  Definition pst (s : src) (H : nat) (p1 : peekable K V) (p2 : hpeekable K V) : Prop :=
    kst s H (pinner p1) (hpinner p2) /\ hpk p2 = pk p1 /\ H <= hpfuel p2.

  Lemma inner_m s H fuel i1 i2 hp a i1' : H <= fuel -> kst s H i1 i2 -> own hp (pres s (nfreed i1)) -> into_next i1 = Ret (a, i1') ->
    wp (h_into_next fuel i2) hp (fun r hp' => fst r = a /\ kst s H i1' (snd r) /\ goes hp (pres s (nfreed i1)) hp' (pres s (nfreed i1'))).
  Proof.
    intros Hf R O E. eapply wp_mono; [eapply (@into_next_m K V s H fuel i1 i2 (pres s (nfreed i1)) hp hp a i1' Hf); [|exact E]|].
    - split; [now apply goes_refl|exact R].
    - intros [y it] hp' (Oe & G & R'). cbn [fst snd] in *. split; [destruct a, y; cbn in Oe; try contradiction; congruence|]. split; [exact R'|exact G].
  Qed.
  Lemma peek_m s H p1 p2 hp a p1' : pst s H p1 p2 -> own hp (fres s p1) -> peek p1 = Ret (a, p1') ->
    wp (h_peek p2) hp (fun r hp' => fst r = a /\ pst s H p1' (snd r) /\ goes hp (fres s p1) hp' (fres s p1')).
  Proof.
    intros (R & Ek & Hf) O E. unfold peek in E. unfold h_peek. rewrite Ek. destruct (pk p1) as [o|] eqn:Ep.
    - injection E as <- <-. apply wp_ret. cbn [fst snd]. split; [reflexivity|]. split; [split; [exact R|]; split; [congruence|exact Hf]|now apply goes_refl].
    - destruct (into_next (pinner p1)) as [[o it]|e| | |] eqn:En; try discriminate E. injection E as <- <-.
      apply wp_bind. eapply wp_mono; [eapply inner_m; [exact Hf|exact R|exact O|exact En]|]. intros r hp' (<- & R' & G). apply wp_ret. cbn [fst snd].
      split; [reflexivity|]. split; [split; [exact R'|]; auto|exact G].
  Qed.
  Lemma pnext_m s H p1 p2 hp a p1' : pst s H p1 p2 -> own hp (fres s p1) -> pnext p1 = Ret (a, p1') ->
    wp (h_pnext p2) hp (fun r hp' => fst r = a /\ pst s H p1' (snd r) /\ goes hp (fres s p1) hp' (fres s p1')).
  Proof.
    intros (R & Ek & Hf) O E. unfold pnext in E. unfold h_pnext. rewrite Ek. destruct (pk p1) as [o|] eqn:Ep.
    - injection E as <- <-. apply wp_ret. cbn [fst snd]. split; [reflexivity|]. split; [split; [exact R|]; auto|now apply goes_refl].
    - destruct (into_next (pinner p1)) as [[o it]|e| | |] eqn:En; try discriminate E. injection E as <- <-.
      apply wp_bind. eapply wp_mono; [eapply inner_m; [exact Hf|exact R|exact O|exact En]|]. intros r hp' (<- & R' & G). apply wp_ret. cbn [fst snd].
      split; [reflexivity|]. split; [split; [exact R'|]; auto|exact G].
  Qed.

  Definition mst sl Hl sr Hr (mi : merge_iter K V) (mi2 : hmerge K V) : Prop := pst sl Hl (mleft mi) (hml mi2) /\ pst sr Hr (mright mi) (hmr mi2).
  Definition mres sl sr (mi : merge_iter K V) : list res := fres sl (mleft mi) ++ fres sr (mright mi).

  Lemma merge_next_m cmp sl Hl sr Hr mi mi2 hp a mi' : mst sl Hl sr Hr mi mi2 -> own hp (mres sl sr mi) -> merge_next cmp mi = Ret (a, mi') ->
    wp (h_merge_next cmp mi2) hp (fun r hp' => fst r = a /\ mst sl Hl sr Hr mi' (snd r) /\ goes hp (mres sl sr mi) hp' (mres sl sr mi')).
  Proof.
    intros (L & R) O E. unfold merge_next in E. unfold h_merge_next, mres in *.
    destruct (peek (mleft mi)) as [[x l1]|e| | |] eqn:E1; try discriminate E.
    destruct (peek (mright mi)) as [[y r1]|e| | |] eqn:E2; try discriminate E.
    apply wp_bind. eapply wp_mono; [eapply peek_m; [exact L|exact (own_sub O)|exact E1]|]. intros [x' l2] hp1 (Ex & L1 & G1). cbn [fst snd] in *. subst x'.
    pose proof (goes_fst G1 O) as G1'. apply own_app in O as (_ & O2 & _). clear O2.
    assert (own hp1 (fres sr (mright mi))) as Or by (pose proof (go_own G1') as Q; apply own_app in Q; apply Q).
    apply wp_bind. eapply wp_mono; [eapply peek_m; [exact R|exact Or|exact E2]|]. intros [y' r2] hp2 (Ey & R1 & G2). cbn [fst snd] in *. subst y'.
    pose proof (goes_trans G1' (goes_snd G2 (go_own G1'))) as G. clear G1 G1' G2 Or E1 E2.
    assert (forall z l3, pnext l1 = Ret (z, l3) -> wp (h_pnext l2) hp2 (fun r hp' => fst r = z /\ pst sl Hl l3 (snd r) /\
       goes hp (fres sl (mleft mi) ++ fres sr (mright mi)) hp' (fres sl l3 ++ fres sr r1))) as NL.
    { intros z l3 En. eapply wp_mono; [eapply pnext_m; [exact L1|exact (own_sub (go_own G))|exact En]|]. intros r hp3 (A & B & C).
      split; [exact A|]. split; [exact B|]. exact (goes_trans G (goes_fst C (go_own G))). }
    assert (forall hp3 l3 z r3, goes hp (fres sl (mleft mi) ++ fres sr (mright mi)) hp3 (fres sl l3 ++ fres sr r1) ->
       pnext r1 = Ret (z, r3) -> wp (h_pnext r2) hp3 (fun r hp' => fst r = z /\ pst sr Hr r3 (snd r) /\
       goes hp (fres sl (mleft mi) ++ fres sr (mright mi)) hp' (fres sl l3 ++ fres sr r3))) as NR.
    { intros hp3 l3 z r3 G3 En. eapply wp_mono; [eapply pnext_m; [exact R1| |exact En]|].
      { pose proof (go_own G3) as Q. apply own_app in Q. apply Q. }
      intros r hp4 (A & B & C). split; [exact A|]. split; [exact B|]. exact (goes_trans G3 (goes_snd C (go_own G3))). }
    assert ((match pnext l1 with
             | Ret (o, l2) => Ret (o, MergeIter l2 r1 (mdropped mi))
             | Err e => Err e | Panic => Panic | Abort => Abort | UB => UB
             end = Ret (a, mi')) ->
       wp (hbind (h_pnext l2) (fun r => hret (fst r, HMerge (snd r) r2))) hp2 (fun r hp' => fst r = a /\ mst sl Hl sr Hr mi' (snd r) /\
        goes hp (fres sl (mleft mi) ++ fres sr (mright mi)) hp' (fres sl (mleft mi') ++ fres sr (mright mi')))) as LO.
    { intro Q. destruct (pnext l1) as [[z l3]|e| | |] eqn:En; try discriminate Q. injection Q as <- <-. cbn [mleft mright].
      apply wp_bind. eapply wp_mono; [exact (NL _ _ eq_refl)|]. intros r hp3 (A & B & C). apply wp_ret. cbn [fst snd]. split; [exact A|]. split; [split; auto|exact C]. }
    assert ((match pnext r1 with
             | Ret (o, r3) => Ret (o, MergeIter l1 r3 (mdropped mi))
             | Err e => Err e | Panic => Panic | Abort => Abort | UB => UB
             end = Ret (a, mi')) ->
       wp (hbind (h_pnext r2) (fun r => hret (fst r, HMerge l2 (snd r)))) hp2 (fun r hp' => fst r = a /\ mst sl Hl sr Hr mi' (snd r) /\
        goes hp (fres sl (mleft mi) ++ fres sr (mright mi)) hp' (fres sl (mleft mi') ++ fres sr (mright mi')))) as RO.
    { intro Q. destruct (pnext r1) as [[z r3]|e| | |] eqn:En; try discriminate Q. injection Q as <- <-. cbn [mleft mright].
      apply wp_bind. eapply wp_mono; [exact (NR _ _ _ _ G eq_refl)|]. intros r hp3 (A & B & C). apply wp_ret. cbn [fst snd]. split; [exact A|]. split; [split; auto|exact C]. }
    destruct x as [x|], y as [y|].
    - destruct (cmp (fst x) (fst y)); [|exact (LO E)|exact (RO E)]. clear LO RO.
      destruct (pnext l1) as [[z l3]|e| | |] eqn:En; try discriminate E.
      destruct (pnext r1) as [[z2 r3]|e| | |] eqn:En2; try discriminate E. injection E as <- <-. cbn [mleft mright].
      apply wp_bind. eapply wp_mono; [exact (NL _ _ eq_refl)|]. intros r hp3 (A & B & C).
      apply wp_bind. eapply wp_mono; [exact (NR _ _ _ _ C eq_refl)|]. intros r' hp4 (A' & B' & C'). apply wp_ret. cbn [fst snd]. split; [exact A'|].
      split; [split; auto|exact C'].
    - exact (LO E).
    - exact (RO E).
    - injection E as <- <-. apply wp_ret. cbn [fst snd mleft mright]. split; [reflexivity|]. split; [split; auto|exact G].
  Qed.

  Lemma drop_peekable_m s H p1 p2 hp l fr : kids any H (tree_of s) -> pst s H p1 p2 -> own hp (fres s p1) -> drop_peekable p1 = Ret (l, fr) ->
    wp (h_drop_peekable p2) hp (fun _ hp' => goes hp (fres s p1) hp' []).
  Proof.
    intros Hk (R & Ek & Hf) O E. unfold drop_peekable in E. destruct (drop_into_iter (pinner p1)) as [[l' fr']|e| | |] eqn:Ed; try discriminate E.
    unfold h_drop_peekable. apply wp_bind.
    eapply wp_mono; [eapply (@drop_into_m K V s H (hpfuel p2) (pinner p1) (hpinner p2) (fres s p1) hp hp l' fr' Hf Hk); [split; [now apply goes_refl|exact R]|exact Ed]|].
    intros r hp' (_ & G). apply wp_ret. exact G.
  Qed.
  Lemma drop_merge_m sl Hl sr Hr mi mi2 hp l1 f1 l2 f2 : kids any Hl (tree_of sl) -> kids any Hr (tree_of sr) ->
    mst sl Hl sr Hr mi mi2 -> own hp (mres sl sr mi) -> drop_peekable (mleft mi) = Ret (l1, f1) -> drop_peekable (mright mi) = Ret (l2, f2) ->
    wp (h_drop_merge mi2) hp (fun _ hp' => goes hp (mres sl sr mi) hp' []).
  Proof.
    intros Kl Kr (L & R) O E1 E2. unfold h_drop_merge, mres in *.
    apply wp_bind. eapply wp_mono; [eapply drop_peekable_m; [exact Kl|exact L|exact (own_sub O)|exact E1]|]. intros u1 hp1 G1.
    pose proof (goes_fst G1 O) as G1'. cbn [app] in G1'.
    eapply wp_mono; [eapply drop_peekable_m; [exact Kr|exact R|exact (go_own G1')|exact E2]|]. intros u2 hp2 G2. exact (goes_trans G1' G2).
  Qed.

  Section Alloc.
    Variable W : Type.
    Variable nalloc : bool -> W -> option reserve_error * W.
    Variable place : heap -> W -> loc.
    Hypothesis place_fresh : forall hp w, hget hp (place hp w) = None.

    (** map.rs 993-1014 *)
    Lemma find_open_m c : forall (t : ltree) h hp fuel (w : W), own hp [Root (lplug t c)] -> length c < fuel ->
      let root := NR (h + length c) (lroot (lplug t c)) in
      let '(o, w') := find_open nalloc h (erase t) (ectx c) w in
      match o with
      | Ret (n, ho, c1) => exists t' c' hp', h_find_open nalloc place fuel root (NR h (lroot t)) hp w =
            (Ret (NR ho (lroot t')), NR (ho + length c') (lroot (lplug t' c')), hp', w') /\
          n = erase t' /\ c1 = ectx c' /\ goes hp [Root (lplug t c)] hp' [Root (lplug t' c')]
      | Err e => h_find_open nalloc place fuel root (NR h (lroot t)) hp w = (Err e, root, hp, w')
      | _ => False
      end.
    Proof.
      induction c as [|f c IH]; intros t h hp fuel w O Hf; (destruct fuel as [|fuel]; [cbn [length] in Hf; lia|]); cbn [ectx map find_open h_find_open].
      - destruct (own_root_owned O) as (Ow & Hu). cbn [lplug length] in *. rewrite Nat.add_0_r.
        destruct (@lift_ok K V W _ (hbind (ascend (NR h (lroot t))) (fun a =>
                      match a with
                      | Some p => hbind (n_len (fst p)) (fun n => hret (Some (fst p, n)))
                      | None => hret None
                      end)) hp w (fun r hp' => r = None /\ hp' = hp)) as (r & hp1 & E & -> & ->).
        { apply wp_bind. apply (@wp_ascend K V h t [] []); [exact Ow|exact Hu|]. cbn [lpar]. apply wp_ret. auto. }
        rewrite E. clear E. pose proof (push_level_m nalloc place_fresh h w O) as PL.
        destruct (push_level nalloc (erase t) w) as [[n|e| | |] w']; try contradiction.
        + destruct PL as (hp' & l & E & -> & G). rewrite E. exists (LN l [] [t]), [], hp'. cbn [length lplug HeapRep.lroot]. rewrite Nat.add_0_r. auto.
        + now rewrite PL.
      - cbn [lplug] in *. destruct (own_root_owned O) as (Ow & Hu). fold (ectx c). rewrite <- erase_fill, nlen_erase.
        destruct (@lift_ok K V W _ (hbind (ascend (NR h (lroot t))) (fun a =>
                      match a with
                      | Some p => hbind (n_len (fst p)) (fun n => hret (Some (fst p, n)))
                      | None => hret None
                      end)) hp w (fun r hp' => r = Some (NR (S h) (lroot (lfill f t)), length (lks (lfill f t))) /\ hp' = hp)) as (r & hp1 & E & -> & ->).
        { apply wp_bind. apply (@wp_ascend K V h t (f :: c) []); [exact Ow|exact Hu|]. cbn [lpar fst].
          apply wp_bind. eapply (@wp_len_t K V (S h) (lfill f t) []); [exact (owned_focus (t := lfill f t) Ow)|]. apply wp_ret. auto. }
        rewrite E. clear E. destruct (length (lks (lfill f t)) <? CAPACITY).
        + exists (lfill f t), c, hp. cbn [length]. replace (h + S (length c)) with (S h + length c) by lia. split; [reflexivity|].
          split; [reflexivity|]. split; [reflexivity|]. now apply goes_refl.
        + specialize (IH (lfill f t) (S h) hp fuel w O). cbn [length] in Hf. specialize (IH ltac:(lia)). cbn [length].
          replace (h + S (length c)) with (S h + length c) by lia. exact IH.
    Qed.

    Lemma rctx_int h (o : ltree) : 0 < h -> kids full h (erase o) -> is_int (les o) = true /\ length (les o) = length (lks o) + 1.
    Proof.
      intros H Hk. destruct h as [|h]; [lia|]. rewrite kids_S in Hk. destruct Hk as [Hl _]. rewrite edges_erase, map_length, nlen_erase in Hl.
      split; [|lia]. destruct (les o); [cbn in Hl; lia|reflexivity].
    Qed.

    (** map.rs 988-1028 *)
    Lemma push_sorted_m x (t : ltree) c hp (w : W) : own hp [Root (lplug t c)] -> J (erase t) (ectx c) ->
      let '(o, (tn, ht), w') := push_sorted nalloc x (erase t) (ectx c) w in
      match o with
      | Ret (n, c1) => exists t' c' hp', h_push_sorted nalloc place x (NR (length c) (lroot (lplug t c))) (NR 0 (lroot t)) hp w =
            (Ret (NR 0 (lroot t')), NR (length c') (lroot (lplug t' c')), hp', w') /\
          n = erase t' /\ c1 = ectx c' /\ goes hp [Root (lplug t c)] hp' [Root (lplug t' c')]
      | Panic => exists T' lost hp', h_push_sorted nalloc place x (NR (length c) (lroot (lplug t c))) (NR 0 (lroot t)) hp w =
            (Panic, NR ht (lroot T'), hp', w') /\ tn = erase T' /\ goes hp [Root (lplug t c)] hp' (Root T' :: lost)
      | _ => False
      end.
    Proof.
      intros O HJ. pose proof HJ as (H1 & H2 & H3 & H4). destruct (own_root_owned O) as (Ow & Hu). pose proof (owned_focus Ow) as Of.
      assert (les t = []) as Le by (rewrite edges_erase in H1; now apply map_eq_nil in H1).
      unfold push_sorted, h_push_sorted. rewrite nlen_erase.
      destruct (@lift_ok K V W _ (n_len (NR 0 (lroot t))) hp w (fun r hp' => r = length (lks t) /\ hp' = hp)) as (r & hp1 & E & -> & ->).
      { eapply wp_len_t; [exact Of|auto]. }
      rewrite E. clear E. destruct (Nat.ltb_spec (length (lks t)) CAPACITY) as [Hlt|Hge].
      - cbn [push]. assert (LN (lroot t) (lks t) [] = t) as Et by (transitivity (LN (lroot t) (lks t) (les t)); [now rewrite Le|symmetry; apply ltree_eta]).
        assert (owned hp [LN (lroot t) (lks t) []]) as Of' by (rewrite Et; exact Of).
        destruct (lift_ok w (@leaf_push_ok K V (lroot t) 0 x (lks t) hp Of' Hlt)) as (u & hp1 & E & Ev & Ke). rewrite E. clear E.
        rewrite Et in Ev.
        destruct (@evolves_plug K V hp hp1 c t [] (LN (lroot t) (lks t ++ [x]) []) [] Ow Ev eq_refl Ke) as (Ev' & Ke').
        exists (LN (lroot t) (lks t ++ [x]) []), c, hp1. cbn [omap].
        assert (lroot (lplug (LN (lroot t) (lks t ++ [x]) []) c) = lroot (lplug t c)) as Er by (now apply lplug_root).
        split; [rewrite Er; reflexivity|]. split; [now rewrite kvs_erase, edges_erase, erase_eq, Le|]. split; [reflexivity|].
        apply goes_root; [exact Ev'|]. rewrite Er. now apply Ke'.
      - assert (sub full 0 (erase t)) as Hs. { split; [unfold full; rewrite nlen_erase in *; lia|exact H1]. }
        pose proof (@find_open_ok K V W nalloc (ectx c) 0 (erase t) w Hs H3) as FO.
        pose proof (@find_open_m c t 0 hp (S (length c)) w O ltac:(lia)) as FM. cbn [Nat.add] in FM. cbv zeta in FM. cbn [rh].
        destruct (find_open nalloc 0 (erase t) (ectx c) w) as [[[[o1 ho] c1]|e| | |] w1]; try contradiction.
        2:{ rewrite FM. cbn [pass expect]. exists (lplug t c), [], hp. rewrite ectx_length, erase_plug. split; [reflexivity|]. split; [reflexivity|]. now apply goes_refl. }
        destruct FM as (o & c' & hp1 & E & -> & -> & G1). rewrite E. clear E. cbn [rh].
        destruct FO as (Hho & Hk & Hlt & Hrc & _). rewrite nlen_erase in Hlt.
        pose proof (@new_leaf_m K V W nalloc place place_fresh hp1 w1) as NL. destruct (new_leaf K V nalloc w1) as [[lf|e| | |] w2]; try contradiction.
        2:{ rewrite NL. cbn [pass expect]. exists (lplug o c'), [], hp1. rewrite ectx_length, erase_plug. split; [reflexivity|]. split; [reflexivity|]. exact G1. }
        destruct NL as (hp2 & l & E & -> & G2). rewrite E. clear E.
        pose proof (@push_levels_m K V W nalloc place place_fresh (ho - 1) (LN l [] []) 0 hp2 w2 (go_own G2)) as PL.
        pose proof (@push_levels_ok K V W nalloc (ho - 1) (erase (LN l [] [])) 0 w2 eq_refl) as PO.
        destruct (push_levels nalloc (ho - 1) (erase (LN l [] [])) 0 w2) as [[r [n1 h1]] w3]. destruct PL as (C & hp3 & E & -> & G3 & Q).
        cbn [HeapRep.lroot] in E. rewrite E. clear E. destruct PO as (_ & PO).
        pose proof (goes_add (goes_trans G2 G3) (go_own G1)) as G23. cbn [app] in G23.
        assert (goes hp [Root (lplug t c)] hp3 [Root (lplug o c'); Root C]) as G4.
        { eapply goes_trans; [exact G1|]. eapply goes_perm; [reflexivity| |exact G23]. apply perm_swap. }
        destruct r as [ch|e| | |]; try contradiction; cbn [omap].
        2:{ cbn [pass expect]. exists (lplug o c'), [Root C], hp3. rewrite ectx_length, erase_plug. auto. }
        destruct Q as (-> & ->). rewrite Nat.add_0_r. cbn [Nat.add] in PO.
        destruct (rctx_int Hho Hk) as (Hint & Hlen).
        destruct ho as [|ho]; [lia|]. replace (S ho - 1) with ho in * by lia. cbn [push].
        rewrite nlen_erase, edges_erase, kvs_erase, firstn_all2 by (rewrite map_length; lia).
        set (o' := LN (lroot o) (lks o ++ [x]) (les o ++ [C])).
        assert (Node (lks o ++ [x]) (map erase (les o) ++ [erase C]) = erase o') as Eo by (unfold o'; rewrite erase_eq, map_app; reflexivity).
        rewrite Eo. 
        destruct (chain_kids _ _ PO) as (C1 & C2 & C3).
        assert (rb full (S ho) (erase o')) as Hrb.
        { cbn [rb]. unfold o'. rewrite erase_eq, map_app. cbn [edges map]. exists (map erase (les o)), (erase C). split; [reflexivity|].
          split; [unfold nlen; cbn [kvs]; rewrite app_length, map_length; cbn [length]; lia|]. split.
          - rewrite kids_S, edges_erase in Hk. apply Hk.
          - split; [lia|now apply chain_rb]. }
        destruct (@last_leaf_rctx K V (S ho) (erase o') (ectx c') Hrb) as (hd & EL & _ & _ & _ & _ & Hlc).
        { unfold o'. rewrite nlen_erase. cbn [lks]. rewrite app_length. cbn [length]. lia. } { exact Hrc. }
        rewrite EL.
        destruct (own_roots2 (go_own G4)) as (Ow4 & Hu4 & _).
        assert (owned hp3 [LN (lroot o) (lks o) (les o); C]) as Oo by (rewrite <- ltree_eta; exact (owned_focus Ow4)).
        assert (wp (hbind (internal_push (NR (S ho) (lroot o)) x (NR ho (lroot C))) (fun _ =>
                    hbind (h_last_leaf_edge (S (S ho)) (NR (S ho) (lroot o))) (fun e => hret (fst e)))) hp3
               (fun r hp' => exists t2 c2, hn hd = erase t2 /\ hc hd = ectx c2 /\ hh hd = 0 /\ lplug t2 c2 = lplug o' c' /\ r = NR 0 (lroot t2) /\
                  goes hp3 [Root (lplug o c'); Root C] hp' [Root (lplug o' c')])) as Wp.
        { apply wp_bind. eapply wp_mono; [apply (@internal_push_ok K V (lroot o) (S ho) x (NR ho (lroot C)) C (lks o) (les o) hp3 Oo Hint eq_refl eq_refl Hlt)|].
          intros u4 hp4 (Ev & Ke). fold o' in Ev. rewrite <- (ltree_eta o) in Ev.
          destruct (@evolves_plug K V hp3 hp4 c' o [C] o' [] Ow4 Ev eq_refl Ke) as (Ev' & Ke').
          assert (lroot (lplug o' c') = lroot (lplug o c')) as Er by (now apply lplug_root).
          assert (hung hp4 (lroot (lplug o' c')) None) as Hu5 by (rewrite Er; now apply Ke').
          assert (own hp4 [Root (lplug o' c')]) as O5 by (apply owned_own_root; [exact (ev_own Ev')|exact Hu5]).
          change (lroot o) with (lroot o').
          apply wp_bind. eapply wp_mono; [eapply (part_last_leaf (own_part1 O5)) with (c := c'); [reflexivity|lia|exact EL|apply dead_none_nil]|].
          intros r hp5 (-> & t2 & c2 & h2 & i2 & ET & -> & ->). apply wp_ret. cbn [hn hc hh fst].
          assert (h2 = 0) as ->. { apply (f_equal (option_map (@hh K V))) in EL. cbn [option_map hh] in EL.
            assert (forall h n (c : ctx K V) hd, last_leaf_edge h n c = Some hd -> hh hd = 0) as Q.
            { clear. induction h as [|h IH]; intros n c hd E; cbn [last_leaf_edge] in E; [injection E as <-; reflexivity|].
              destruct (descend n (nlen n)) as [[e f]|]; [|discriminate E]. eauto. }
            destruct (last_leaf_edge (S ho) (erase o') (ectx c')) as [hd2|] eqn:E2; [|discriminate EL]. cbn [option_map] in EL. injection EL as EL.
            rewrite <- EL. eapply Q; exact E2. }
          exists t2, c2. split; [reflexivity|]. split; [reflexivity|]. split; [reflexivity|]. split; [now symmetry|]. split; [reflexivity|].
          apply goes_trees in Ev'. destruct Ev' as [A1 A2 A3 A4]. constructor; auto. }
        destruct (lift_ok w3 Wp) as (r & hp4 & E & t2 & c2 & E1 & E2 & E3 & E4 & -> & G5). cbn [rh]. rewrite E. clear E Wp.
        rewrite E1, E2. rewrite E2, !ectx_length in Hlc.
        exists t2, c2, hp4. split; [|split; [reflexivity|split; [reflexivity|rewrite E4; exact (goes_trans G4 G5)]]].
        rewrite E4, Hlc. rewrite (@lplug_root K V c' o o' eq_refl). reflexivity.
    Qed.

    Variable cmp : K -> K -> comparison.

    Lemma from_sorted_m sl Hl sr Hr fuel : forall mi mi2 l r (t : ltree) c len hp (w : W),
      mi_ok Hl (tree_of sl) (shared_of sl) Hr (tree_of sr) (shared_of sr) mi l r -> mst sl Hl sr Hr mi mi2 ->
      own hp (Root (lplug t c) :: mres sl sr mi) -> J (erase t) (ectx c) -> length l + length r < fuel ->
      let '(o, (tn, ht), len', mi', w') := from_sorted_loop nalloc cmp fuel mi (erase t) (ectx c) len w in
      exists T' mi2' hp' lost, h_from_sorted nalloc place cmp fuel mi2 (NR (length c) (lroot (lplug t c))) (NR 0 (lroot t)) len hp w =
        (cast o, HMap (NR ht (lroot T')) len', mi2', hp', w') /\ tn = erase T' /\ mst sl Hl sr Hr mi' mi2' /\
        goes hp (Root (lplug t c) :: mres sl sr mi) hp' (Root T' :: lost ++ mres sl sr mi') /\
        match o with Ret _ => lost = [] | Panic => True | _ => False end.
    Proof.
      induction fuel as [|fuel IH]; intros mi mi2 l r t c len hp w Hmi Hst O HJ Hf; [lia|]. cbn [from_sorted_loop h_from_sorted].
      pose proof (merge_next_ok cmp Hmi) as Hm.
      assert (forall a mi', merge_next cmp mi = Ret (a, mi') -> exists mi2' hp1, lift (h_merge_next cmp mi2) hp w = (Ret (a, mi2'), hp1, w) /\
         mst sl Hl sr Hr mi' mi2' /\ goes hp (Root (lplug t c) :: mres sl sr mi) hp1 (Root (lplug t c) :: mres sl sr mi')) as MN.
      { intros a mi' E. assert (own hp (mres sl sr mi)) as Om by (apply (@own_app K V hp [Root (lplug t c)]) in O; apply O).
        destruct (lift_ok w (merge_next_m Hst Om E)) as ([a' mi2'] & hp1 & E1 & E2 & Hst' & G). cbn [fst snd] in *. subst a'.
        exists mi2', hp1. split; [exact E1|]. split; [exact Hst'|]. exact (goes_snd (b := [Root (lplug t c)]) G O). }
      destruct (merge2 cmp l r) as [|x rest].
      - destruct Hm as (mi' & E & _). rewrite E. destruct (MN _ _ E) as (mi2' & hp1 & E1 & Hst' & G). rewrite E1.
        exists (lplug t c), mi2', hp1, []. rewrite ectx_length, erase_plug. cbn [cast app]. auto.
      - destruct Hm as (mi' & l' & r' & d & E & Hmi' & _ & Hlt & _). rewrite E. destruct (MN _ _ E) as (mi2' & hp1 & E1 & Hst' & G). rewrite E1. clear MN E E1.
        pose proof (go_own G) as O1. pose proof (own_sub (rs := [Root (lplug t c)]) O1) as O2.
        pose proof (@push_sorted_m x t c hp1 w O2 HJ) as PM. pose proof (push_sorted_ok nalloc x w HJ) as PO.
        destruct (push_sorted nalloc x (erase t) (ectx c) w) as [[[[n' c']|e| | |] [tn ht]] w']; try contradiction.
        + destruct PM as (t' & c'' & hp2 & E & -> & -> & G2). rewrite E. clear E. destruct PO as (HJ' & _).
          pose proof (goes_fst (b := mres sl sr mi') G2 O1) as G3. cbn [app] in G3.
          specialize (IH mi' mi2' l' r' t' c'' (len + 1) hp2 w' Hmi' Hst' (go_own G3) HJ' ltac:(lia)).
          destruct (from_sorted_loop nalloc cmp fuel mi' (erase t') (ectx c'') (len + 1) w') as [[[[o [tn2 ht2]] len2] mi3] w2].
          destruct IH as (T' & mi2'' & hp3 & lost & E & A & B & C & D). exists T', mi2'', hp3, lost. split; [exact E|]. split; [exact A|]. split; [exact B|].
          split; [exact (goes_trans G (goes_trans G3 C))|exact D].
        + destruct PM as (T' & lost & hp2 & E & -> & G2). rewrite E. clear E.
          pose proof (goes_fst (b := mres sl sr mi') G2 O1) as G3. cbn [app] in G3.
          exists T', mi2', hp2, lost. cbn [pass cast]. split; [reflexivity|]. split; [reflexivity|]. split; [exact Hst'|]. split; [exact (goes_trans G G3)|exact I].
    Qed.

    (** map.rs 830-853 *)
    Lemma append_m m2 (m1 : bmap) sm o2 (o1 : bmap) so hp (w : W) : mrep m2 m1 sm -> mrep o2 o1 so -> own hp (sres sm ++ sres so) -> sound m1 -> sound o1 ->
      let '(r, m1', o1', mi, w') := append nalloc cmp m1 o1 w in
      exists sm' so' hp' m2' o2' lost, h_append nalloc place cmp m2 o2 hp w = (cast r, m2', o2', hp', w') /\
        mrep m2' m1' sm' /\ mrep o2' o1' so' /\ goes hp (sres sm ++ sres so) hp' (sres sm' ++ sres so' ++ lost) /\
        match r with Ret _ => lost = [] | Panic => True | _ => False end.
    Proof.
      intros Rm Ro O Sm So. pose proof (sound_any Sm) as Am. pose proof (sound_any So) as Ao.
      pose proof Sm as (Bm & Hsm & Lm). pose proof So as (Bo & Hso & Lo).
      unfold append, h_append, len. rewrite (proj1 Ro), (proj1 Rm).
      destruct (Nat.eqb_spec (blen o1) 0) as [E0|E0].
      { exists sm, so, hp, m2, o2, []. rewrite app_nil_r. split; [reflexivity|]. split; [exact Rm|]. split; [exact Ro|]. split; [now apply goes_refl|reflexivity]. }
      destruct (Nat.eqb_spec (blen m1) 0) as [E1|E1].
      { exists so, sm, hp, o2, m2, []. rewrite app_nil_r. split; [reflexivity|]. split; [exact Ro|]. split; [exact Rm|]. split; [|reflexivity].
        eapply goes_perm; [reflexivity|apply Permutation_app_comm|]. now apply goes_refl. }
      pose proof (own_sub O) as Om. assert (own hp (sres so)) as Oo by (apply own_app in O; apply O).
      destruct (into_iter_m Rm Om Am Lm) as (li & Eli & Wl). destruct (into_iter_m Ro Oo Ao Lo) as (ri & Eri & Wr). rewrite Eli, Eri.
      destruct (map_into_iter_ok m1 Am Lm) as (li' & Eli' & Oli). { intros Q. now apply Hsm. } rewrite Eli in Eli'. injection Eli' as <-.
      destruct (map_into_iter_ok o1 Ao Lo) as (ri' & Eri' & Ori). { intros Q. now apply Hso. } rewrite Eri in Eri'. injection Eri' as <-.
      set (mi := MergeIter (Peekable None li) (Peekable None ri) []).
      assert (bshared m1 = shared_of sm) as Shm by (destruct Rm as (_ & R); destruct sm; tauto).
      assert (bshared o1 = shared_of so) as Sho by (destruct Ro as (_ & R); destruct so; tauto).
      assert (mi_ok (bheight m1) (tree_of sm) (shared_of sm) (bheight o1) (tree_of so) (shared_of so) mi (entries m1) (entries o1)) as Hmi.
      { rewrite <- (tree_of_m Rm), <- (tree_of_m Ro), <- Shm, <- Sho.
        split; [exists 0, (length (entries m1))|exists 0, (length (entries o1))]; cbn [mi mleft mright pk pinner];
          (split; [assumption|unfold entries; now rewrite seg_all]). }
      assert (wp (hbind (h_into_iter m2) (fun li => hbind (h_into_iter o2) (fun ri =>
                  hret (HMerge (HPeek None li (rh (mroot m2))) (HPeek None ri (rh (mroot o2))))))) hp
              (fun mi2 hp' => mst sm (bheight m1) so (bheight o1) mi mi2 /\ goes hp (sres sm ++ sres so) hp' (mres sm so mi))) as Wp.
      { apply wp_bind. eapply wp_mono; [exact Wl|]. intros l2 hp1 (-> & G1 & K1). apply wp_bind. eapply wp_mono; [exact Wr|]. intros r2 hp2 (-> & G2 & K2).
        apply wp_ret. split.
        - split; (split; [assumption|]); (split; [reflexivity|]); cbn [hpfuel hml hmr]; eauto using mrep_height.
        - pose proof (goes_fst G1 O) as G1'. exact (goes_trans G1' (goes_snd G2 (go_own G1'))). }
      destruct (lift_ok w Wp) as (mi2 & hp1 & E & Hst & G1). rewrite E. clear E Wp Wl Wr.
      assert (forall mi' mi2' l r hp', mi_ok (bheight m1) (tree_of sm) (shared_of sm) (bheight o1) (tree_of so) (shared_of so) mi' l r ->
        mst sm (bheight m1) so (bheight o1) mi' mi2' -> own hp' (mres sm so mi') -> wp (h_drop_merge mi2') hp' (fun _ hp'' => goes hp' (mres sm so mi') hp'' [])) as DM.
      { rewrite (tree_of_m Rm) in Am. rewrite (tree_of_m Ro) in Ao. intros mi' mi2' l r hp' (Q1 & Q2) S O'.
        destruct (drop_peekable_ok Am Q1) as (f1 & D1 & _). destruct (drop_peekable_ok Ao Q2) as (f2 & D2 & _).
        eapply drop_merge_m; [exact Am|exact Ao|exact S|exact O'|exact D1|exact D2]. }
      unfold h_ensure_root_is_owned. cbn [mroot h_new rl]. rewrite Nat.eqb_refl.
      pose proof (@new_leaf_m K V W nalloc place place_fresh hp1 w) as NL. destruct (new_leaf K V nalloc w) as [[lf|e| | |] w1]; try contradiction.
      2:{ rewrite NL. destruct (lift_ok w1 (DM _ _ _ _ _ Hmi Hst (go_own G1))) as (u & hp2 & E & G2). rewrite E. clear E.
        exists None, None, hp2, h_new, h_new, []. cbn [cast]. split; [reflexivity|]. split; [apply mrep_new|]. split; [apply mrep_new|].
        split; [exact (goes_trans G1 G2)|exact I]. }
      destruct NL as (hp2 & l & E & -> & G2). rewrite E. clear E. cbn [mroot mlen rh h_new].
      pose proof (goes_add G2 (go_own G1)) as G2'. cbn [app] in G2'.
      destruct (@lift_ok K V W _ (hbind (h_last_leaf_edge 1 (NR 0 l)) (fun e => hret (fst e))) hp2 w1 (fun r hp' => r = NR 0 l /\ hp' = hp2)) as (r & hp3 & E & -> & ->).
      { destruct (own_root_owned (go_own G2)) as (Ow & _). cbn [h_last_leaf_edge]. apply wp_bind. apply wp_bind.
        eapply (@wp_len_t K V 0 (LN l [] []) []); [exact Ow|]. eapply (@wp_edge_t K V 0 (LN l [] []) []); [exact Ow|cbn [length lks]; lia|]. cbn [rh].
        apply wp_ret. auto. }
      rewrite E. clear E. 
      assert (J (erase (LN l [] [])) (ectx [])) as HJ.
      { split; [reflexivity|]. split; [apply Nat.le_0_l|]. split; [exact I|]. intros Q. now destruct Q. }
      pose proof (@from_sorted_loop_ok K V W nalloc cmp _ _ _ _ _ _ (blen m1 + blen o1 + 1) mi (entries m1) (entries o1) (erase (LN l [] [])) [] 0 w1 Hmi HJ ltac:(lia) eq_refl) as FO.
      pose proof (@from_sorted_m _ _ _ _ (blen m1 + blen o1 + 1) mi mi2 (entries m1) (entries o1) (LN l [] []) [] 0 hp2 w1 Hmi Hst (go_own G2') HJ ltac:(lia)) as FM.
      cbn [ectx map length lplug HeapRep.lroot] in FM.
      destruct (from_sorted_loop nalloc cmp (blen m1 + blen o1 + 1) mi (erase (LN l [] [])) [] 0 w1) as [[[[r [t ht]] l'] mi'] w2].
      destruct FM as (T' & mi2' & hp4 & lost & E & -> & Hst' & G3 & Q). rewrite E. clear E. pose proof (goes_trans G1 (goes_trans G2' G3)) as G4.
      destruct r as [u|e| | |]; try contradiction; cbn [cast].
      - subst lost. cbn [app] in G4. destruct FO as (R1 & R2 & R3 & R4 & R5 & R6 & _).
        destruct (@fix_right_edge_ok K V ht (erase T') R1 R3) as (t' & EF & F1 & F2 & F3). rewrite EF.
        assert (own hp4 (mres sm so mi')) as Om4 by (apply (@own_app K V hp4 [Root T']) in G3 as X || (pose proof (go_own G4) as X; apply (@own_app K V hp4 [Root T']) in X; apply X)).
        assert (wp (hbind (h_drop_merge mi2') (fun _ => h_fix_right_edge (S (rh (NR ht (lroot T')))) (NR ht (lroot T')))) hp4 (fun _ hp' =>
           exists T'', erase T'' = t' /\ lroot T'' = lroot T' /\ goes hp4 (Root T' :: mres sm so mi') hp' [Root T''])) as Wp.
        { apply wp_bind. eapply wp_mono; [exact (DM _ _ _ _ _ R6 Hst' Om4)|]. intros u5 hp5 G5.
          pose proof (goes_snd (b := [Root T']) G5 (go_own G4)) as G5'. cbn [app] in G5'. destruct (own_root_owned (go_own G5')) as (Ow5 & Hu5). cbn [rh].
          eapply wp_mono; [eapply (@fix_right_edge_t K V ht T' t' hp5); [lia|exact Ow5| |exact EF]|].
          - apply rb_shape in R1. exact R1.
          - intros u6 hp6 (T'' & A & B & C & D). exists T''. split; [exact A|]. split; [exact B|]. eapply goes_trans; [exact G5'|].
            apply goes_root; [exact C|]. rewrite B. now apply D. }
        cbn [mroot]. destruct (lift_ok w2 Wp) as (u5 & hp5 & E & T'' & A & B & G5). rewrite E. clear E Wp. destruct u, u5.
        exists (Some T''), None, hp5. eexists _, h_new, []. split; [reflexivity|]. split; [|split; [apply mrep_new|split; [|reflexivity]]].
        + split; [reflexivity|]. cbn [mroot bheight bnode bshared]. rewrite B. auto.
        + cbn [sres app]. exact (goes_trans G4 G5).
      - destruct FO as (_ & _ & _ & done & x & lr & rr & d & _ & _ & R6 & _).
        assert (own hp4 (mres sm so mi')) as Om4.
        { pose proof (go_own G4) as X. change (Root T' :: lost ++ mres sm so mi') with ((Root T' :: lost) ++ mres sm so mi') in X. apply own_app in X. apply X. }
        destruct (lift_ok w2 (DM _ _ _ _ _ R6 Hst' Om4)) as (u & hp5 & E & G5). rewrite E. clear E.
        exists (Some T'), None, hp5. eexists _, h_new, lost. split; [reflexivity|]. split; [|split; [apply mrep_new|split; [|exact I]]].
        + split; [reflexivity|]. cbn. auto.
        + cbn [sres app]. eapply goes_trans; [exact G4|]. pose proof (goes_snd (b := Root T' :: lost) G5 (go_own G4)) as G5'. rewrite app_nil_r in G5'. exact G5'.
    Qed.
  End Alloc.
End Append.
