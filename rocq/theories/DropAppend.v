(** * DropAppend: append when the destructors of replaced entries panic. *)
From Coq Require Import List Arith Lia Bool Permutation.
From Verif Require Import Base MapSpec MergeSpec IterSpec BTreeModel BTreeInv BTreeLemmas BTreeSearch BTreeInsert BTreeIterModel BTreeIter BTreeStep BTreeIterProofs.
From Verif Require Import BTreeRange BTreeOps BTreeEntry BTreeWrites BTreeBulkModel BTreeBorder BTreeSplit BTreeAppend BTreeClone HistoryModel HistorySpec HistoryProofs.
From Verif Require Import HeapModel HeapMapModel HeapArr HeapRep HeapWp HeapNode HeapOps HeapOps2 HeapOps3 HeapOps4 HeapZip HeapRemove HeapSearch HeapInsert HeapRes HeapPart HeapMap HeapEntry HeapIter HeapInto HeapBorder HeapSplit HeapAppend.
From Verif Require Import HeapSpec DropModel DropSpec DropProofs.
Import ListNotations.
Set Implicit Arguments.
Unset Strict Implicit.

Section Append.
  Variables (K V W : Type).
  Notation kv := (K * V)%type.
  Notation heap := (heap K V).
  Notation HM := (HM K V).
  Notation ltree := (ltree K V).
  Notation lroot := (@lroot K V).
  Notation erase := (@erase K V).
  Notation bmap := (bmap K V).
  Notation src := (src K V).
  Notation res := (res K V).
  Implicit Types (hp : heap).
  Variables (kdrop : K -> W -> bool * W) (vdrop : V -> W -> bool * W) (cmp : K -> K -> comparison).
  Notation panics := (panics kdrop vdrop).
  Notation blasts := (blasts kdrop vdrop).

  (** ** Dropping the two iterators *)
  Lemma hd_drop_peekable_d s H p1 p2 rem hp (w : W) : kids any H (tree_of s) -> pk_ok H (tree_of s) (shared_of s) p1 rem -> pst s H p1 p2 -> own hp (fres s p1) ->
    exists o log hp' w' lost, hd_drop_peekable kdrop vdrop p2 hp w = (o, log, hp', w') /\ goes hp (fres s p1) hp' lost /\
      match o with
      | Ret _ => Permutation log rem /\ lost = []
      | Panic => (exists x, In x rem) /\ blasts log 1
      | Abort => (exists x, In x rem) /\ blasts log 2
      | _ => False
      end.
  Proof.
    intros Hk (a & b & Ok & Hrem) (Kst & Ek & Hf) O. unfold hd_drop_peekable, both. rewrite Ek.
    destruct (@hd_drop_into_m K V W kdrop vdrop s H (hpfuel p2) (pinner p1) (hpinner p2) (fres s p1) hp hp a b w Hf Hk) as (o & l & hp1 & w1 & lost & E & G & Ho).
    { split; [now apply goes_refl|exact Kst]. } { exact Ok. }
    rewrite E. clear E. set (sg := seg (inorder (tree_of s)) a b) in *.
    assert (forall x, In x sg -> In x rem) as Sub.
    { intros x Hx. destruct (pk p1) as [[y|]|]; [subst rem; now right| |now subst rem]. destruct Hrem as [-> ->]. unfold sg in Hx. now rewrite seg_nil in Hx. }
    destruct o as [u|e| | |]; try contradiction.
    - destruct Ho as (-> & ->). destruct (pk p1) as [[y|]|].
      + unfold kv_dropper. pose proof (kv_drop_ok kdrop vdrop y w1) as Hy. destruct (kv_drop kdrop vdrop y w1) as [[u2|e| | |] w2]; try contradiction.
        * eexists _, _, _, _, []. split; [reflexivity|]. split; [exact G|]. split; [|reflexivity]. rewrite Hrem. symmetry. apply Permutation_cons_append.
        * eexists _, _, _, _, []. split; [reflexivity|]. split; [exact G|]. split; [exists y; rewrite Hrem; now left|]. now apply blasts_r, blasts_1.
        * eexists _, _, _, _, []. split; [reflexivity|]. split; [exact G|]. split; [exists y; rewrite Hrem; now left|]. now apply blasts_r.
      + destruct Hrem as [-> ->]. eexists _, _, _, _, []. split; [reflexivity|]. split; [exact G|]. split; [|reflexivity]. rewrite app_nil_r. unfold sg. now rewrite seg_nil.
      + eexists _, _, _, _, []. split; [reflexivity|]. split; [exact G|]. split; [|reflexivity]. rewrite app_nil_r. now rewrite Hrem.
    - apply stopped_in in Ho as (x & Hx1 & Hx2 & Px). pose proof (blasts_in Hx1 Px) as B1.
      destruct (pk p1) as [[y|]|].
      + unfold kv_dropper. pose proof (kv_drop_ok kdrop vdrop y w1) as Hy. destruct (kv_drop kdrop vdrop y w1) as [[u2|e| | |] w2]; try contradiction;
          (eexists _, _, _, _, lost; split; [reflexivity|]; split; [exact G|]; split; [exists x; now apply Sub|]).
        * now apply blasts_l.
        * exact (blasts_app B1 (blasts_1 Hy)).
        * now apply blasts_r.
      + eexists _, _, _, _, lost. split; [reflexivity|]. split; [exact G|]. split; [exists x; now apply Sub|now apply blasts_l].
      + eexists _, _, _, _, lost. split; [reflexivity|]. split; [exact G|]. split; [exists x; now apply Sub|now apply blasts_l].
    - destruct Ho as [Ho B2]. apply stopped_in in Ho as (x & Hx1 & Hx2 & Px). eexists _, _, _, _, lost. split; [reflexivity|]. split; [exact G|]. split; [exists x; auto|exact B2].
  Qed.
  Lemma hd_drop_merge_d sl Hl sr Hr mi mi2 l r hp (w : W) : kids any Hl (tree_of sl) -> kids any Hr (tree_of sr) ->
    mi_ok Hl (tree_of sl) (shared_of sl) Hr (tree_of sr) (shared_of sr) mi l r -> mst sl Hl sr Hr mi mi2 -> own hp (mres sl sr mi) ->
    exists o log hp' w', hd_drop_merge kdrop vdrop mi2 hp w = (o, log, hp', w') /\
      match o with
      | Ret _ => Permutation log (l ++ r) /\ goes hp (mres sl sr mi) hp' []
      | Panic => (exists x, In x (l ++ r)) /\ blasts log 1
      | Abort => (exists x, In x (l ++ r)) /\ blasts log 2
      | _ => False
      end.
  Proof.
    intros Kl Kr (Ml & Mr) (Sl & Sr) O. unfold mres in *. unfold hd_drop_merge. unfold both at 1.
    destruct (@hd_drop_peekable_d sl Hl (mleft mi) (hml mi2) l hp w Kl Ml Sl (own_sub O)) as (o & log & hp1 & w1 & lost & E & G & Ho). rewrite E. clear E.
    pose proof (goes_fst G O) as G1. pose proof (go_own G1) as O1. assert (own hp1 (fres sr (mright mi))) as Or by (apply own_app in O1; apply O1).
    destruct (@hd_drop_peekable_d sr Hr (mright mi) (hmr mi2) r hp1 w1 Kr Mr Sr Or) as (o2 & log2 & hp2 & w2 & lost2 & E & G2 & Ho2).
    destruct o as [u|e| | |]; try contradiction.
    - destruct Ho as (Pl & ->). rewrite E. eexists o2, _, _, _. split; [reflexivity|]. destruct o2 as [u2|e| | |]; try contradiction.
      + destruct Ho2 as (Pr & ->). split; [now apply Permutation_app|]. exact (goes_trans G1 G2).
      + destruct Ho2 as ((x & H2) & H3). split; [exists x; apply in_or_app; now right|now apply blasts_r].
      + destruct Ho2 as ((x & H2) & H3). split; [exists x; apply in_or_app; now right|now apply blasts_r].
    - rewrite E. destruct Ho as ((x & H2) & H3). eexists _, _, _, _. split; [reflexivity|].
      assert (exists x, In x (l ++ r)) as X. { exists x. apply in_or_app. now left. }
      destruct o2; try contradiction; (split; [exact X|]).
      + now apply blasts_l.
      + exact (blasts_app H3 (proj2 Ho2)).
      + apply blasts_r, Ho2.
    - destruct Ho as ((x & H2) & H3). eexists _, _, _, _. split; [reflexivity|]. split; [exists x; apply in_or_app; now left|exact H3].
  Qed.

  (** map.rs 2662-2684 *)
  Lemma merge_next_d sl Hl sr Hr mi mi2 l r hp (w : W) :
    mi_ok Hl (tree_of sl) (shared_of sl) Hr (tree_of sr) (shared_of sr) mi l r -> mst sl Hl sr Hr mi mi2 -> own hp (mres sl sr mi) ->
    exists o d mi2' mi' hp' w' l' r', hd_merge_next kdrop vdrop cmp mi2 hp w = (o, d, mi2', hp', w') /\
      mi_ok Hl (tree_of sl) (shared_of sl) Hr (tree_of sr) (shared_of sr) mi' l' r' /\ mst sl Hl sr Hr mi' mi2' /\ goes hp (mres sl sr mi) hp' (mres sl sr mi') /\
      match o with
      | Ret None => l = [] /\ r = [] /\ l' = [] /\ r' = [] /\ d = []
      | Ret (Some x) => merge2 cmp l r = x :: merge2 cmp l' r' /\ overwritten cmp l r = d ++ overwritten cmp l' r' /\
          length l' + length r' < length l + length r /\ Permutation (l ++ r) (x :: d ++ l' ++ r')
      | Panic => exists x, d = [x] /\ panics x /\ Permutation (l ++ r) (d ++ l' ++ r')
      | Abort => blasts d 2
      | _ => False
      end.
  Proof.
    intros [Hml Hmr] (L & R) O. unfold hd_merge_next, mres in *.
    destruct (peek_ok Hml) as (l1 & E1 & P1 & Hl1). destruct (peek_ok Hmr) as (r1 & E2 & P2 & Hr1).
    assert (wp (hbind (h_peek (hml mi2)) (fun a => hbind (h_peek (hmr mi2)) (fun b => hret (a, b)))) hp (fun ab hp' =>
      fst (fst ab) = hd_error l /\ fst (snd ab) = hd_error r /\ pst sl Hl l1 (snd (fst ab)) /\ pst sr Hr r1 (snd (snd ab)) /\
      goes hp (fres sl (mleft mi) ++ fres sr (mright mi)) hp' (fres sl l1 ++ fres sr r1))) as Wp.
    { apply wp_bind. eapply wp_mono; [eapply peek_m; [exact L|exact (own_sub O)|exact E1]|]. intros [x' l2] hp1 (Ex & L1 & G1). cbn [fst snd] in *. subst x'.
      pose proof (goes_fst G1 O) as G1'.
      assert (own hp1 (fres sr (mright mi))) as Or by (pose proof (go_own G1') as Q; apply own_app in Q; apply Q).
      apply wp_bind. eapply wp_mono; [eapply peek_m; [exact R|exact Or|exact E2]|]. intros [y' r2] hp2 (Ey & R1 & G2). cbn [fst snd] in *. subst y'.
      apply wp_ret. cbn [fst snd]. split; [reflexivity|]. split; [reflexivity|]. split; [exact L1|]. split; [exact R1|].
      exact (goes_trans G1' (goes_snd G2 (go_own G1'))). }
    unfold wp in Wp. match goal with |- context [match ?m with Some _ => _ | None => _ end] => destruct m as [[[[x l2] [y r2]] hp2]|] end; [|contradiction].
    destruct Wp as (Ex & Ey & L1 & R1 & G). cbn [fst snd] in *. subst x y.
    destruct (pnext_ok Hl1 P1) as (l3 & N1 & Hl3 & _). destruct (pnext_ok Hr1 P2) as (r3 & N2 & Hr3 & _).
    assert (wp (h_pnext l2) hp2 (fun r hp' => fst r = hd_error l /\ pst sl Hl l3 (snd r) /\
       goes hp (fres sl (mleft mi) ++ fres sr (mright mi)) hp' (fres sl l3 ++ fres sr r1))) as NL.
    { eapply wp_mono; [eapply pnext_m; [exact L1|exact (own_sub (go_own G))|exact N1]|]. intros r' hp3 (A & B & D).
      split; [exact A|]. split; [exact B|]. exact (goes_trans G (goes_fst D (go_own G))). }
    assert (forall hp3 l4, goes hp (fres sl (mleft mi) ++ fres sr (mright mi)) hp3 (fres sl l4 ++ fres sr r1) ->
       wp (h_pnext r2) hp3 (fun x hp' => fst x = hd_error r /\ pst sr Hr r3 (snd x) /\
       goes hp (fres sl (mleft mi) ++ fres sr (mright mi)) hp' (fres sl l4 ++ fres sr r3))) as NR.
    { intros hp3 l4 G3. eapply wp_mono; [eapply pnext_m; [exact R1| |exact N2]|].
      { pose proof (go_own G3) as Q. apply own_app in Q. apply Q. }
      intros r' hp4 (A & B & D). split; [exact A|]. split; [exact B|]. exact (goes_trans G3 (goes_snd D (go_own G3))). }
    assert (wp (hbind (h_pnext l2) (fun r => hret (fst r, HMerge (snd r) r2))) hp2 (fun z hp' => fst z = hd_error l /\ mst sl Hl sr Hr (MergeIter l3 r1 []) (snd z) /\
        goes hp (fres sl (mleft mi) ++ fres sr (mright mi)) hp' (fres sl l3 ++ fres sr r1))) as WL.
    { apply wp_bind. eapply wp_mono; [exact NL|]. intros z hp3 (A & B & D). apply wp_ret. cbn [fst snd]. split; [exact A|]. split; [split; assumption|exact D]. }
    assert (forall hp3 l4 l5, goes hp (fres sl (mleft mi) ++ fres sr (mright mi)) hp3 (fres sl l4 ++ fres sr r1) -> pst sl Hl l4 l5 ->
        wp (hbind (h_pnext r2) (fun r => hret (fst r, HMerge l5 (snd r)))) hp3 (fun z hp' => fst z = hd_error r /\ mst sl Hl sr Hr (MergeIter l4 r3 []) (snd z) /\
        goes hp (fres sl (mleft mi) ++ fres sr (mright mi)) hp' (fres sl l4 ++ fres sr r3))) as WR.
    { intros hp3 l4 l5 G3 S3. apply wp_bind. eapply wp_mono; [exact (NR _ _ G3)|]. intros z hp4 (A & B & D). apply wp_ret. cbn [fst snd]. split; [exact A|]. split; [split; assumption|exact D]. }
    pose proof (WR _ _ _ G L1) as WR1.
    destruct l as [|x l]; [destruct r as [|y r]|destruct r as [|y r]]; cbn [hd_error tl] in *.
    - eexists (Ret None), [], _, (MergeIter l1 r1 []), hp2, w, [], []. split; [reflexivity|]. split; [split; assumption|]. split; [split; assumption|]. split; [exact G|auto].
    - unfold wp in WR1. match type of WR1 with match ?m with _ => _ end => destruct m as [[[z mi3] hp3]|] end; [|contradiction]. destruct WR1 as (A & B & D). cbn [fst snd] in *. subst z.
      exists (Ret (Some y)), [], mi3, (MergeIter l1 r3 []), hp3, w, [], r. split; [reflexivity|]. split; [split; assumption|]. split; [exact B|]. split; [exact D|].
      rewrite !merge2_nil_l. split; [reflexivity|]. split; [now destruct r|]. split; [cbn [length]; lia|reflexivity].
    - unfold wp in WL. match type of WL with match ?m with _ => _ end => destruct m as [[[z mi3] hp3]|] end; [|contradiction]. destruct WL as (A & B & D). cbn [fst snd] in *. subst z.
      exists (Ret (Some x)), [], mi3, (MergeIter l3 r1 []), hp3, w, l, []. split; [reflexivity|]. split; [split; assumption|]. split; [exact B|]. split; [exact D|].
      rewrite !merge2_nil_r. split; [reflexivity|]. split; [now destruct l|]. split; [cbn [length]; lia|reflexivity].
    - cbn [fst snd]. destruct (cmp (fst x) (fst y)) eqn:Ec.
      + clear WL WR1. unfold wp in NL. destruct (h_pnext l2 hp2) as [[[z l5] hp3]|]; [|contradiction]. destruct NL as (A & B & D). cbn [fst snd] in *. subst z.
        pose proof (kv_drop_ok kdrop vdrop x w) as Hx. destruct (kv_drop kdrop vdrop x w) as [[u|e| | |] w2]; try contradiction.
        * pose proof (WR _ _ _ D B) as WR1. unfold wp in WR1. match type of WR1 with match ?m with _ => _ end => destruct m as [[[z mi3] hp4]|] end; [|contradiction]. destruct WR1 as (A' & B' & D'). cbn [fst snd] in *. subst z.
          exists (Ret (Some y)), [x], mi3, (MergeIter l3 r3 []), hp4, w2, l, r. split; [reflexivity|]. split; [split; assumption|]. split; [exact B'|]. split; [exact D'|].
          rewrite merge2_cons, Ec. split; [reflexivity|]. split; [cbn [overwritten]; now rewrite Ec|]. split; [cbn [length]; lia|].
          cbn [app]. apply Permutation_sym. rewrite perm_swap. constructor. apply Permutation_middle.
        * exists Panic, [x], (HMerge l5 r2), (MergeIter l3 r1 []), hp3, w2, l, (y :: r). split; [reflexivity|]. split; [split; assumption|]. split; [split; assumption|]. split; [exact D|].
          exists x. split; [reflexivity|]. split; [exact Hx|reflexivity].
        * exists Abort, [x], (HMerge l5 r2), (MergeIter l3 r1 []), hp3, w2, l, (y :: r). split; [reflexivity|]. split; [split; assumption|]. split; [split; assumption|]. split; [exact D|].
          apply Hx.
      + unfold wp in WL. match type of WL with match ?m with _ => _ end => destruct m as [[[z mi3] hp3]|] end; [|contradiction]. destruct WL as (A & B & D). cbn [fst snd] in *. subst z.
        exists (Ret (Some x)), [], mi3, (MergeIter l3 r1 []), hp3, w, l, (y :: r). split; [reflexivity|]. split; [split; assumption|]. split; [exact B|]. split; [exact D|].
        rewrite merge2_cons, Ec. split; [reflexivity|]. split; [cbn [overwritten]; now rewrite Ec|]. split; [cbn [length]; lia|reflexivity].
      + unfold wp in WR1. match type of WR1 with match ?m with _ => _ end => destruct m as [[[z mi3] hp3]|] end; [|contradiction]. destruct WR1 as (A & B & D). cbn [fst snd] in *. subst z.
        exists (Ret (Some y)), [], mi3, (MergeIter l1 r3 []), hp3, w, (x :: l), r. split; [reflexivity|]. split; [split; assumption|]. split; [exact B|]. split; [exact D|].
        rewrite merge2_cons, Ec. split; [reflexivity|]. split; [cbn [overwritten]; now rewrite Ec|]. split; [cbn [length]; lia|].
        cbn [app]. apply Permutation_sym. apply (Permutation_middle (x :: l) r y).
  Qed.

  Section Alloc.
    Variable nalloc : bool -> W -> option reserve_error * W.
    Variable place : heap -> W -> loc.
    Hypothesis place_fresh : forall hp w, hget hp (place hp w) = None.
    (** why append can panic *)
    Definition upset (log : list kv) : Prop := blasts log 1 \/ exists e, no_memory nalloc e.
    (** why it can abort *)
    Definition doomed (log : list kv) : Prop := blasts log 2 \/ (blasts log 1 /\ exists e, no_memory nalloc e).
    Lemma doomed_app a log : doomed log -> doomed (a ++ log).
    Proof using. intros [B|[B U]]; [left|right; split; [|exact U]]; now apply blasts_r. Qed.
    Lemma doomed_upset a b : upset a -> blasts b 1 -> doomed (a ++ b).
    Proof using. intros [A|U] B; [left; exact (blasts_app A B)|right; split; [now apply blasts_r|exact U]]. Qed.
    Lemma upset_app a log : upset log -> upset (a ++ log).
    Proof using. intros [B|U]; [left; now apply blasts_r|now right]. Qed.

    (** map.rs 982-1030 *)
    Lemma from_sorted_d sl Hl sr Hr fuel : forall mi mi2 l r (t : ltree) c len hp (w : W),
      mi_ok Hl (tree_of sl) (shared_of sl) Hr (tree_of sr) (shared_of sr) mi l r -> mst sl Hl sr Hr mi mi2 ->
      own hp (Root (lplug t c) :: mres sl sr mi) -> J (erase t) (ectx c) -> length l + length r < fuel -> len = length (inorder (erase (lplug t c))) ->
      exists o log m2' mi2' hp' w', hd_from_sorted kdrop vdrop nalloc place cmp fuel mi2 (NR (length c) (lroot (lplug t c))) (NR 0 (lroot t)) len hp w =
        (o, log, m2', mi2', hp', w') /\
        match o with
        | Abort => doomed log
        | Ret _ => exists T' ht len' mi', m2' = HMap (NR ht (lroot T')) len' /\ mst sl Hl sr Hr mi' mi2' /\
            mi_ok Hl (tree_of sl) (shared_of sl) Hr (tree_of sr) (shared_of sr) mi' [] [] /\
            goes hp (Root (lplug t c) :: mres sl sr mi) hp' (Root T' :: mres sl sr mi') /\
            rb full ht (erase T') /\ nlen (erase T') <= CAPACITY /\ (0 < ht -> 1 <= nlen (erase T')) /\
            len' = length (inorder (erase T')) /\ inorder (erase T') = inorder (erase (lplug t c)) ++ merge2 cmp l r /\ log = overwritten cmp l r
        | Panic => exists T' ht len' lost mi' l' r', m2' = HMap (NR ht (lroot T')) len' /\ mst sl Hl sr Hr mi' mi2' /\
            mi_ok Hl (tree_of sl) (shared_of sl) Hr (tree_of sr) (shared_of sr) mi' l' r' /\
            goes hp (Root (lplug t c) :: mres sl sr mi) hp' (Root T' :: lost ++ mres sl sr mi') /\
            upset log /\ Permutation (inorder (erase (lplug t c)) ++ l ++ r) (inorder (erase T') ++ log ++ l' ++ r') /\
            kids any ht (erase T') /\ len' = length (inorder (erase T')) /\ (lost <> [] -> exists e, no_memory nalloc e) /\
            exists m tail, inorder (erase T') = inorder (erase (lplug t c)) ++ m /\ merge2 cmp l r = m ++ tail
        | _ => False
        end.
    Proof using place_fresh.
      induction fuel as [|fuel IH]; intros mi mi2 l r t c len hp w Hmi Hst O HJ Hf Hlen; [lia|]. cbn [hd_from_sorted].
      assert (own hp (mres sl sr mi)) as Om by (apply (@own_app K V hp [Root (lplug t c)]) in O; apply O).
      destruct (merge_next_d w Hmi Hst Om) as (o & d & mi2' & mi' & hp1 & w1 & l' & r' & E & Hmi' & Hst' & G0 & Ho). rewrite E. clear E.
      pose proof (goes_snd (b := [Root (lplug t c)]) G0 O) as G. cbn [app] in G.
      destruct o as [[x|]|e| | |]; try contradiction.
      - destruct Ho as (Hm & Hov & Hlt & Hp). pose proof (go_own G) as O1. pose proof (own_sub (rs := [Root (lplug t c)]) O1) as O2.
        pose proof (@push_sorted_m K V W nalloc place place_fresh x t c hp1 w1 O2 HJ) as PM. pose proof (push_sorted_ok nalloc x w1 HJ) as PO.
        destruct (push_sorted nalloc x (erase t) (ectx c) w1) as [[[[n' c']|e| | |] [tn ht]] w']; try contradiction.
        + destruct PM as (t' & c'' & hp2 & E & -> & -> & G2). rewrite E. clear E. destruct PO as (HJ' & Ei). rewrite <- !erase_plug in Ei.
          pose proof (goes_fst (b := mres sl sr mi') G2 O1) as G3. cbn [app] in G3.
          destruct (IH mi' mi2' l' r' t' c'' (len + 1) hp2 w' Hmi' Hst' (go_own G3) HJ' ltac:(lia)) as (o & log & m2' & mi2'' & hp3 & w3 & E & F).
          { rewrite Ei, app_length, Hlen. cbn [length]. lia. }
          rewrite E. clear E. exists o, (d ++ log), m2', mi2'', hp3, w3. split; [reflexivity|]. pose proof (goes_trans G G3) as G4. destruct o as [u|e| | |]; try contradiction.
          * destruct F as (T' & ht' & len' & mi3 & F1 & F2 & F3 & F4 & F5 & F6 & F7 & F8 & F9 & F10). exists T', ht', len', mi3.
            split; [exact F1|]. split; [exact F2|]. split; [exact F3|]. split; [exact (goes_trans G4 F4)|]. split; [exact F5|]. split; [exact F6|]. split; [exact F7|]. split; [exact F8|].
            split; [rewrite F9, Ei, Hm, <- app_assoc; reflexivity|]. now rewrite F10.
          * destruct F as (T' & ht' & len' & lost & mi3 & l3 & r3 & F1 & F2 & F3 & F4 & F5 & F6 & F7 & F8 & F9 & mm & tl_ & F10 & F11). exists T', ht', len', lost, mi3, l3, r3.
            split; [exact F1|]. split; [exact F2|]. split; [exact F3|]. split; [exact (goes_trans G4 F4)|]. split; [now apply upset_app|].
            split; [|split; [exact F7|split; [exact F8|split; [exact F9|exists (x :: mm), tl_; split; [rewrite F10, Ei, <- app_assoc; reflexivity|rewrite Hm, F11; reflexivity]]]]].
            clear F10 F11. rewrite Hp. rewrite Ei in F6. rewrite <- app_assoc in F6. cbn [app] in F6. clear -F6. set (a := inorder (erase (lplug t c))) in *. set (b := inorder (erase T')) in *.
            transitivity (d ++ a ++ x :: l' ++ r'); [|rewrite F6; rewrite Permutation_app_swap_app; now rewrite <- app_assoc].
            rewrite (Permutation_app_swap_app d a). apply Permutation_app_head. apply Permutation_middle.
          * now apply doomed_app.
        + destruct PM as (T' & lost & hp2 & E & -> & G2). rewrite E. clear E. destruct PO as ((i & w0 & e & PO) & PS & Ei).
          pose proof (goes_fst (b := mres sl sr mi') G2 O1) as G3. cbn [app] in G3. unfold unwinding, both, kv_dropper. pose proof (kv_drop_ok kdrop vdrop x w') as Hx.
          assert (upset (d ++ [x])) as U. { right. exists e, i, w0, w'. exact PO. }
          destruct (kv_drop kdrop vdrop x w') as [[u|e'| | |] w2]; try contradiction.
          * eexists Panic, _, _, mi2', hp2, w2. split; [reflexivity|]. exists T', ht, len, lost, mi', l', r'. split; [reflexivity|]. split; [exact Hst'|]. split; [exact Hmi'|].
            split; [exact (goes_trans G G3)|]. cbn [app] in *. split; [exact U|]. rewrite <- erase_plug in Ei.
            split; [|split; [exact PS|split; [rewrite Ei; exact Hlen|split; [intros _; exists e, i, w0, w'; exact PO|exists [], (x :: merge2 cmp l' r'); split; [now rewrite app_nil_r|exact Hm]]]]]. rewrite Ei, Hp. apply Permutation_app_head. rewrite <- app_assoc. apply Permutation_middle.
          * eexists Abort, _, _, mi2', hp2, w2. split; [reflexivity|]. right. split; [now apply blasts_r, blasts_1|exists e, i, w0, w'; exact PO].
          * eexists Abort, _, _, mi2', hp2, w2. split; [reflexivity|]. left. apply blasts_r, Hx.
      - destruct Ho as (-> & -> & -> & -> & ->).
        eexists (Ret tt), [], _, mi2', hp1, w1. split; [reflexivity|]. exists (lplug t c), (length c), len, mi'. split; [reflexivity|]. split; [exact Hst'|]. split; [exact Hmi'|]. split; [exact G|].
        rewrite erase_plug in *. destruct (J_rb HJ) as (B1 & B2). rewrite ectx_length in B1. split; [exact B1|]. split; [exact B2|].
        split; [intro P; destruct HJ as (_ & _ & _ & HJ); apply HJ; intro Q; destruct c; [cbn in P; lia|discriminate Q]|].
        split; [exact Hlen|]. split; [now rewrite app_nil_r|reflexivity].
      - destruct Ho as (x & -> & Px & Hp). eexists Panic, _, _, mi2', hp1, w1. split; [reflexivity|]. exists (lplug t c), (length c), len, [], mi', l', r'. cbn [app].
        split; [reflexivity|]. split; [exact Hst'|]. split; [exact Hmi'|]. split; [exact G|]. split; [left; now apply blasts_1|]. split; [now apply Permutation_app_head|].
        split; [rewrite erase_plug; destruct (J_rb HJ) as (B1 & _); rewrite ectx_length in B1; eapply rb_shape; exact B1|]. split; [exact Hlen|]. split; [now intros []|].
        exists [], (merge2 cmp l r). split; [now rewrite app_nil_r|reflexivity].
      - eexists Abort, _, _, mi2', hp1, w1. split; [reflexivity|]. left. exact Ho.
    Qed.

    (** map.rs 830-853 *)
    Lemma append_d m2 (m1 : bmap) sm o2 (o1 : bmap) so hp (w : W) : mrep m2 m1 sm -> mrep o2 o1 so -> own hp (sres sm ++ sres so) -> sound m1 -> sound o1 ->
      exists r log m2' o2' hp' w', hd_append kdrop vdrop nalloc place cmp m2 o2 hp w = (r, log, m2', o2', hp', w') /\
        match r with
        | Abort => doomed log
        | Ret _ => exists m1' o1' sm' so', mrep m2' m1' sm' /\ mrep o2' o1' so' /\ goes hp (sres sm ++ sres so) hp' (sres sm' ++ sres so') /\
            sound m1' /\ sound o1' /\ entries m1' = merge2 cmp (entries m1) (entries o1) /\ entries o1' = [] /\ log = overwritten cmp (entries m1) (entries o1)
        | Panic => exists m1' o1' sm' so' lost, mrep m2' m1' sm' /\ mrep o2' o1' so' /\ goes hp (sres sm ++ sres so) hp' (sres sm' ++ sres so' ++ lost) /\
            upset log /\ Permutation (entries m1 ++ entries o1) (entries m1' ++ log) /\
            kids any (bheight m1') (bnode m1') /\ blen m1' = length (entries m1') /\ entries o1' = [] /\ o2' = h_new /\ (lost <> [] -> exists e, no_memory nalloc e) /\
            exists tail, merge2 cmp (entries m1) (entries o1) = entries m1' ++ tail
        | _ => False
        end.
    Proof using place_fresh.
      intros Rm Ro O Sm So. pose proof (sound_any Sm) as Am. pose proof (sound_any So) as Ao.
      pose proof Sm as (Bm & Hsm & Lm). pose proof So as (Bo & Hso & Lo).
      unfold hd_append. rewrite (proj1 Ro), (proj1 Rm).
      destruct (Nat.eqb_spec (blen o1) 0) as [E0|E0].
      { assert (He : entries o1 = []) by (destruct (entries o1); auto; simpl in Lo; lia).
        exists (Ret tt), [], m2, o2, hp, w. split; [reflexivity|]. exists m1, o1, sm, so. split; [exact Rm|]. split; [exact Ro|]. split; [now apply goes_refl|].
        split; [exact Sm|]. split; [exact So|]. rewrite He, merge2_nil_r. split; [reflexivity|]. split; [reflexivity|]. now destruct (entries m1). }
      destruct (Nat.eqb_spec (blen m1) 0) as [E1|E1].
      { assert (He : entries m1 = []) by (destruct (entries m1); auto; simpl in Lm; lia).
        exists (Ret tt), [], o2, m2, hp, w. split; [reflexivity|]. exists o1, m1, so, sm. split; [exact Ro|]. split; [exact Rm|]. split.
        - eapply goes_perm; [reflexivity|apply Permutation_app_comm|]. now apply goes_refl.
        - split; [exact So|]. split; [exact Sm|]. rewrite He, merge2_nil_l. split; [reflexivity|]. split; [reflexivity|]. now destruct (entries o1). }
      pose proof (own_sub O) as Om. assert (own hp (sres so)) as Oo by (apply own_app in O; apply O).
      destruct (into_iter_m Rm Om Am Lm) as (li & Eli & Wl). destruct (into_iter_m Ro Oo Ao Lo) as (ri & Eri & Wr).
      destruct (map_into_iter_ok m1 Am Lm) as (li' & Eli' & Oli). { intros Q. now apply Hsm. } rewrite Eli in Eli'. injection Eli' as <-.
      destruct (map_into_iter_ok o1 Ao Lo) as (ri' & Eri' & Ori). { intros Q. now apply Hso. } rewrite Eri in Eri'. injection Eri' as <-.
      set (mi := MergeIter (Peekable None li) (Peekable None ri) []).
      assert (bshared m1 = shared_of sm) as Shm by (destruct Rm as (_ & R); destruct sm; tauto).
      assert (bshared o1 = shared_of so) as Sho by (destruct Ro as (_ & R); destruct so; tauto).
      assert (mi_ok (bheight m1) (tree_of sm) (shared_of sm) (bheight o1) (tree_of so) (shared_of so) mi (entries m1) (entries o1)) as Hmi.
      { rewrite <- (tree_of_m Rm), <- (tree_of_m Ro), <- Shm, <- Sho.
        split; [exists 0, (length (entries m1))|exists 0, (length (entries o1))]; cbn [mi mleft mright pk pinner];
          (split; [assumption|unfold entries; now rewrite seg_all]). }
      assert (wp (hbind (h_into_iter m2) (fun li => hbind (h_into_iter o2) (fun ri =>
                  hret (HMerge (HPeek None li (rh (mroot m2))) (HPeek None ri (rh (mroot o2))))))) hp
              (fun mi2 hp' => mst sm (bheight m1) so (bheight o1) mi mi2 /\ goes hp (sres sm ++ sres so) hp' (mres sm so mi))) as Wp.
      { apply wp_bind. eapply wp_mono; [exact Wl|]. intros l2 hp1 (-> & G1 & K1). apply wp_bind. eapply wp_mono; [exact Wr|]. intros r2 hp2 (-> & G2 & K2).
        apply wp_ret. split.
        - split; (split; [assumption|]); (split; [reflexivity|]); cbn [hpfuel hml hmr]; eauto using mrep_height.
        - pose proof (goes_fst G1 O) as G1'. exact (goes_trans G1' (goes_snd G2 (go_own G1'))). }
      unfold wp in Wp. match type of Wp with match ?m with _ => _ end => destruct m as [[mi2 hp1]|] end; [|contradiction]. destruct Wp as (Hst & G1). clear Wl Wr.
      rewrite (tree_of_m Rm) in Am. rewrite (tree_of_m Ro) in Ao.
      (* unwinding *)
      assert (forall mi' mi2' l r hp' (w' : W), mi_ok (bheight m1) (tree_of sm) (shared_of sm) (bheight o1) (tree_of so) (shared_of so) mi' l r ->
        mst sm (bheight m1) so (bheight o1) mi' mi2' -> own hp' (mres sm so mi') ->
        exists o log hp'' w'', unwinding (hd_drop_merge kdrop vdrop mi2') hp' w' = (o, log, hp'', w'') /\
          match o with Panic => Permutation log (l ++ r) /\ goes hp' (mres sm so mi') hp'' [] | Abort => blasts log 1 | _ => False end) as UM.
      { intros mi' mi2' l r hp' w' Q1 S O'. destruct (hd_drop_merge_d w' Am Ao Q1 S O') as (o & log & hp2 & w2 & E & Ho). unfold unwinding, both. rewrite E.
        destruct o as [u|e| | |]; try contradiction; eexists _, _, _, _; (split; [reflexivity|]); cbn [app].
        - exact Ho.
        - apply Ho.
        - destruct Ho as [_ Ho]. clear -Ho. remember 2 as n eqn:En. revert En. induction Ho as [|x l n B IH|x l n P B IH|x l n P P' B IH]; intros En; [discriminate| | |].
          + apply B_skip. now apply IH.
          + injection En as ->. now apply B_skip.
          + apply (@B_one _ _ _ _ _ x l 0); [|apply blasts_0]. destruct P as (w0 & P). exists w0. now left. }
      unfold h_ensure_root_is_owned. cbn [mroot h_new rl]. rewrite Nat.eqb_refl.
      pose proof (@new_leaf_m K V W nalloc place place_fresh hp1 w) as NL. unfold new_leaf in NL. destruct (nalloc false w) as [[e|] w1] eqn:En.
      { rewrite NL. destruct (UM _ _ _ _ _ w1 Hmi Hst (go_own G1)) as (o & log & hp2 & w2 & E & Ho). rewrite E. clear E.
        eexists o, log, _, h_new, hp2, w2. split; [reflexivity|]. destruct o as [u|e'| | |]; try contradiction; [|right; split; [exact Ho|exists e, false, w, w1; exact En]]. destruct Ho as (P & G2).
        exists (@new K V), (@new K V), None, None, []. split; [apply mrep_new|]. split; [apply mrep_new|].
        split; [exact (goes_trans G1 G2)|]. split; [right; exists e, false, w, w1; exact En|]. split; [symmetry; exact P|]. split; [reflexivity|]. split; [reflexivity|]. split; [reflexivity|]. split; [reflexivity|].
        split; [now intros []|]. eexists. reflexivity. }
      destruct NL as (hp2 & l & E & _ & G2). rewrite E. clear E. cbn [mroot mlen rh h_new].
      pose proof (goes_add G2 (go_own G1)) as G2'. cbn [app] in G2'.
      assert (wp (hbind (h_last_leaf_edge 1 (NR 0 l)) (fun e => hret (fst e))) hp2 (fun r hp' => r = NR 0 l /\ hp' = hp2)) as Wp.
      { destruct (own_root_owned (go_own G2)) as (Ow & _). cbn [h_last_leaf_edge]. apply wp_bind. apply wp_bind.
        eapply (@wp_len_t K V 0 (LN l [] []) []); [exact Ow|]. eapply (@wp_edge_t K V 0 (LN l [] []) []); [exact Ow|cbn [length lks]; lia|]. cbn [rh].
        apply wp_ret. auto. }
      unfold wp in Wp. match type of Wp with match ?m with _ => _ end => destruct m as [[r hp3]|] end; [|contradiction]. destruct Wp as (-> & ->).
      assert (J (erase (LN l [] [])) (ectx [])) as HJ.
      { split; [reflexivity|]. split; [apply Nat.le_0_l|]. split; [exact I|]. intros Q. now destruct Q. }
      destruct (@from_sorted_d _ _ _ _ (blen m1 + blen o1 + 1) mi mi2 (entries m1) (entries o1) (LN l [] []) [] 0 hp2 w1 Hmi Hst (go_own G2') HJ ltac:(lia) eq_refl)
        as (o & log & m4 & mi2' & hp4 & w2 & E & FO).
      cbn [length lplug HeapRep.lroot] in E. rewrite E. clear E.
      destruct o as [u|e| | |]; try contradiction.
      - destruct FO as (T' & ht & l' & mi' & -> & Hst' & Hmi' & G3 & R1 & R2 & R3 & R5 & R6 & R7). pose proof (goes_trans G1 (goes_trans G2' G3)) as G4.
        destruct (@fix_right_edge_ok K V ht (erase T') R1 R3) as (t' & EF & F1 & F2 & F3).
        assert (own hp4 (mres sm so mi')) as Om4 by (pose proof (go_own G4) as X; apply (@own_app K V hp4 [Root T']) in X; apply X).
        destruct (hd_drop_merge_d w2 Am Ao Hmi' Hst' Om4) as (o5 & log5 & hp5 & w5 & E & Ho5). rewrite E. clear E.
        destruct o5 as [u5|e| | |]; try contradiction; [|destruct Ho5 as ((x & []) & _)|destruct Ho5 as ((x & []) & _)].
        destruct Ho5 as (P5 & G5). cbn [app] in P5. symmetry in P5. apply Permutation_nil in P5. subst log5.
        pose proof (goes_snd (b := [Root T']) G5 (go_own G4)) as G5'. cbn [app] in G5'. destruct (own_root_owned (go_own G5')) as (Ow5 & Hu5). cbn [mroot rh].
        assert (wp (h_fix_right_edge (Datatypes.S ht) (NR ht (lroot T'))) hp5 (fun _ hp' => exists T'', erase T'' = t' /\ lroot T'' = lroot T' /\ goes hp5 [Root T'] hp' [Root T''])) as Wp.
        { eapply wp_mono; [eapply (@fix_right_edge_t K V ht T' t' hp5); [lia|exact Ow5| |exact EF]|].
          - apply rb_shape in R1. exact R1.
          - intros u6 hp6 (T'' & A & B & D & F). exists T''. split; [exact A|]. split; [exact B|]. apply goes_root; [exact D|]. rewrite B. now apply F. }
        destruct (lift_ok w5 Wp) as (u6 & hp6 & E & T'' & A & B & G6). rewrite E. clear E Wp. subst t'.
        eexists (Ret u6), _, _, h_new, hp6, w5. split; [reflexivity|]. exists (BMap false (erase T'') ht l'), (@new K V), (Some T''), None.
        split; [split; [reflexivity|]; cbn [mroot bheight bnode bshared]; rewrite B; auto|]. split; [apply mrep_new|].
        split; [cbn [sres app]; exact (goes_trans G4 (goes_trans G5' G6))|]. split; [|split; [apply new_sound|]].
        + split; [|split; [discriminate|unfold entries; cbn [blen bnode]; now rewrite F3]].
          cbn [bheight bnode]. split; [split; rewrite F2; auto|]. eapply kids_weaken; [|exact F1]. apply documented_fair.
        + split; [unfold entries at 1; cbn [bnode]; rewrite F3, R6; reflexivity|]. split; [reflexivity|]. rewrite app_nil_r. exact R7.
      - destruct FO as (T' & ht & l' & lost & mi' & lr & rr & -> & Hst' & Hmi' & G3 & U & P & FK & FL & Fl & mm & tl_ & FM & FT). pose proof (goes_trans G1 (goes_trans G2' G3)) as G4.
        assert (own hp4 (mres sm so mi')) as Om4.
        { pose proof (go_own G4) as X. change (Root T' :: lost ++ mres sm so mi') with ((Root T' :: lost) ++ mres sm so mi') in X. apply own_app in X. apply X. }
        destruct (UM _ _ _ _ _ w2 Hmi' Hst' Om4) as (o5 & log5 & hp5 & w5 & E & Ho5). rewrite E. clear E.
        eexists o5, _, _, h_new, hp5, w5. split; [reflexivity|]. destruct o5 as [u5|e| | |]; try contradiction.
        + destruct Ho5 as (P5 & G5). exists (BMap false (erase T') ht l'), (@new K V), (Some T'), None, lost.
          split; [split; [reflexivity|]; cbn; auto|]. split; [apply mrep_new|].
          split; [cbn [sres app]; eapply goes_trans; [exact G4|]; pose proof (goes_snd (b := Root T' :: lost) G5 (go_own G4)) as G5'; rewrite app_nil_r in G5'; exact G5'|].
          split; [destruct U as [U|U]; [left; now apply blasts_l|now right]|].
          split; [unfold entries at 3; cbn [bnode]; rewrite P5; exact P|]. split; [exact FK|]. split; [exact FL|]. split; [reflexivity|]. split; [reflexivity|]. split; [exact Fl|].
          exists tl_. rewrite FT. unfold entries at 1. cbn [bnode]. rewrite FM. reflexivity.
        + exact (doomed_upset U Ho5).
      - exists Abort, log, m4, h_new, hp4, w2. split; [reflexivity|]. exact FO.
    Qed.
  End Alloc.
End Append.
