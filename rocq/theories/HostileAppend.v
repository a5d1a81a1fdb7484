(** * HostileAppend: append with comparisons that answer anything. *)
From Coq Require Import List Arith Lia Bool Permutation.
From Verif Require Import Base MapSpec MergeSpec IterSpec BTreeModel BTreeInv BTreeLemmas BTreeSearch BTreeInsert BTreeIterModel BTreeIter BTreeStep BTreeIterProofs.
From Verif Require Import BTreeRange BTreeOps BTreeEntry BTreeWrites BTreeBulkModel BTreeBorder BTreeSplit BTreeAppend HistoryModel.
From Verif Require Import HeapModel HeapMapModel HeapArr HeapRep HeapWp HeapNode HeapOps HeapOps2 HeapOps3 HeapOps4 HeapZip HeapRemove HeapSearch HeapInsert HeapRes HeapPart HeapMap HeapEntry HeapIter HeapInto HeapBorder HeapSplit HeapAppend.
From Verif Require Import HostileModel HostileSpec HostileOps.
Import ListNotations.
Set Implicit Arguments.
Unset Strict Implicit.

Section Append.
  Variables (K V W : Type).
  Notation kv := (K * V)%type.
  Notation heap := (heap K V).
  Notation HM := (HM K V).
  Notation ltree := (ltree K V).
  Notation lroot := (@lroot K V).
  Notation erase := (@erase K V).
  Notation bmap := (bmap K V).
  Notation src := (src K V).
  Notation res := (res K V).
  Implicit Types (hp : heap).
  Variables (sc : Prop) (kcmp : K -> K -> asks W comparison).
  Hypothesis C : forall a b, calm sc (kcmp a b).

  Lemma woven_left (l : list kv) : woven l [] l.
  Proof. induction l; constructor; auto. Qed.
  Lemma woven_right (l : list kv) : woven [] l l.
  Proof. induction l; constructor; auto. Qed.

  (** what one call of [MergeIter::next] takes from the two lists *)
  Inductive takes : kv -> list kv -> list kv -> list kv -> list kv -> Prop :=
  | T_left x l r : takes x (x :: l) r l r
  | T_right y l r : takes y l (y :: r) l r
  | T_both x y l r : takes y (x :: l) (y :: r) l r.
  Lemma takes_less x l r l' r' : takes x l r l' r' -> length l' + length r' < length l + length r.
  Proof. intros []; cbn [length]; lia. Qed.
  Lemma takes_woven x l r l' r' m : takes x l r l' r' -> woven l' r' m -> woven l r (x :: m).
  Proof. intros []; intros; constructor; assumption. Qed.

  (** map.rs 2662-2684 *)
  Lemma merge_next_h sl Hl sr Hr mi mi2 l r hp (w : W) :
    mi_ok Hl (tree_of sl) (shared_of sl) Hr (tree_of sr) (shared_of sr) mi l r -> mst sl Hl sr Hr mi mi2 -> own hp (mres sl sr mi) ->
    exists o mi2' mi' hp' w' l' r', hx_merge_next kcmp mi2 hp w = (o, mi2', hp', w') /\
      mi_ok Hl (tree_of sl) (shared_of sl) Hr (tree_of sr) (shared_of sr) mi' l' r' /\ mst sl Hl sr Hr mi' mi2' /\ goes hp (mres sl sr mi) hp' (mres sl sr mi') /\
      match o with
      | Ret None => l = [] /\ r = [] /\ l' = [] /\ r' = []
      | Ret (Some x) => takes x l r l' r'
      | Panic => sc
      | _ => False
      end.
  Proof.
    intros [Hml Hmr] (L & R) O. unfold hx_merge_next, mres in *.
    destruct (peek_ok Hml) as (l1 & E1 & P1 & Hl1). destruct (peek_ok Hmr) as (r1 & E2 & P2 & Hr1).
    assert (wp (hbind (h_peek (hml mi2)) (fun a => hbind (h_peek (hmr mi2)) (fun b => hret (a, b)))) hp (fun ab hp' =>
      fst (fst ab) = hd_error l /\ fst (snd ab) = hd_error r /\ pst sl Hl l1 (snd (fst ab)) /\ pst sr Hr r1 (snd (snd ab)) /\
      goes hp (fres sl (mleft mi) ++ fres sr (mright mi)) hp' (fres sl l1 ++ fres sr r1))) as Wp.
    { apply wp_bind. eapply wp_mono; [eapply peek_m; [exact L|exact (own_sub O)|exact E1]|]. intros [x' l2] hp1 (Ex & L1 & G1). cbn [fst snd] in *. subst x'.
      pose proof (goes_fst G1 O) as G1'.
      assert (own hp1 (fres sr (mright mi))) as Or by (pose proof (go_own G1') as Q; apply own_app in Q; apply Q).
      apply wp_bind. eapply wp_mono; [eapply peek_m; [exact R|exact Or|exact E2]|]. intros [y' r2] hp2 (Ey & R1 & G2). cbn [fst snd] in *. subst y'.
      apply wp_ret. cbn [fst snd]. split; [reflexivity|]. split; [reflexivity|]. split; [exact L1|]. split; [exact R1|].
      exact (goes_trans G1' (goes_snd G2 (go_own G1'))). }
    destruct (lift_ok w Wp) as ([[x l2] [y r2]] & hp2 & E & Ex & Ey & L1 & R1 & G). cbn [fst snd] in *. subst x y. rewrite E. clear E Wp.
    destruct (pnext_ok Hl1 P1) as (l3 & N1 & Hl3 & _). destruct (pnext_ok Hr1 P2) as (r3 & N2 & Hr3 & _).
    assert (wp (h_pnext l2) hp2 (fun r hp' => fst r = hd_error l /\ pst sl Hl l3 (snd r) /\
       goes hp (fres sl (mleft mi) ++ fres sr (mright mi)) hp' (fres sl l3 ++ fres sr r1))) as NL.
    { eapply wp_mono; [eapply pnext_m; [exact L1|exact (own_sub (go_own G))|exact N1]|]. intros r' hp3 (A & B & D).
      split; [exact A|]. split; [exact B|]. exact (goes_trans G (goes_fst D (go_own G))). }
    assert (forall hp3 l4, goes hp (fres sl (mleft mi) ++ fres sr (mright mi)) hp3 (fres sl l4 ++ fres sr r1) ->
       wp (h_pnext r2) hp3 (fun x hp' => fst x = hd_error r /\ pst sr Hr r3 (snd x) /\
       goes hp (fres sl (mleft mi) ++ fres sr (mright mi)) hp' (fres sl l4 ++ fres sr r3))) as NR.
    { intros hp3 l4 G3. eapply wp_mono; [eapply pnext_m; [exact R1| |exact N2]|].
      { pose proof (go_own G3) as Q. apply own_app in Q. apply Q. }
      intros r' hp4 (A & B & D). split; [exact A|]. split; [exact B|]. exact (goes_trans G3 (goes_snd D (go_own G3))). }
    assert (forall (w : W) (x : kv) (l' : list kv), l = x :: l' ->
      exists o mi2' mi' hp' w' l' r',
        match lift (hbind (h_pnext l2) (fun r => hret (fst r, HMerge (snd r) r2))) hp2 w with
        | (Ret (o, mi'), hp', w') => (Ret o, mi', hp', w')
        | (o, hp', w') => (pass o, HMerge l2 r2, hp', w')
        end = (o, mi2', hp', w') /\
      mi_ok Hl (tree_of sl) (shared_of sl) Hr (tree_of sr) (shared_of sr) mi' l' r' /\ mst sl Hl sr Hr mi' mi2' /\
      goes hp (fres sl (mleft mi) ++ fres sr (mright mi)) hp' (fres sl (mleft mi') ++ fres sr (mright mi')) /\
      match o with
      | Ret None => l = [] /\ r = [] /\ l' = [] /\ r' = []
      | Ret (Some x) => takes x l r l' r'
      | Panic => sc
      | _ => False
      end) as LO.
    { intros w0 x l' ->. cbn [hd_error tl] in *.
      assert (wp (hbind (h_pnext l2) (fun r => hret (fst r, HMerge (snd r) r2))) hp2 (fun z hp' => fst z = Some x /\ mst sl Hl sr Hr (MergeIter l3 r1 []) (snd z) /\
        goes hp (fres sl (mleft mi) ++ fres sr (mright mi)) hp' (fres sl l3 ++ fres sr r1))) as Wp.
      { apply wp_bind. eapply wp_mono; [exact NL|]. intros z hp3 (A & B & D). apply wp_ret. cbn [fst snd]. split; [exact A|]. split; [split; assumption|exact D]. }
      destruct (lift_ok w0 Wp) as ([z mi3] & hp3 & E & A & B & D). cbn [fst snd] in *. subst z. rewrite E.
      exists (Ret (Some x)), mi3, (MergeIter l3 r1 []), hp3, w0, l', r. split; [reflexivity|]. split; [split; assumption|]. split; [exact B|]. split; [exact D|constructor]. }
    assert (forall (w : W) (y : kv) (r' : list kv), r = y :: r' ->
      exists o mi2' mi' hp' w' l' r',
        match lift (hbind (h_pnext r2) (fun r => hret (fst r, HMerge l2 (snd r)))) hp2 w with
        | (Ret (o, mi'), hp', w') => (Ret o, mi', hp', w')
        | (o, hp', w') => (pass o, HMerge l2 r2, hp', w')
        end = (o, mi2', hp', w') /\
      mi_ok Hl (tree_of sl) (shared_of sl) Hr (tree_of sr) (shared_of sr) mi' l' r' /\ mst sl Hl sr Hr mi' mi2' /\
      goes hp (fres sl (mleft mi) ++ fres sr (mright mi)) hp' (fres sl (mleft mi') ++ fres sr (mright mi')) /\
      match o with
      | Ret None => l = [] /\ r = [] /\ l' = [] /\ r' = []
      | Ret (Some x) => takes x l r l' r'
      | Panic => sc
      | _ => False
      end) as RO.
    { intros w0 y r' ->. cbn [hd_error tl] in *.
      assert (wp (hbind (h_pnext r2) (fun r => hret (fst r, HMerge l2 (snd r)))) hp2 (fun z hp' => fst z = Some y /\ mst sl Hl sr Hr (MergeIter l1 r3 []) (snd z) /\
        goes hp (fres sl (mleft mi) ++ fres sr (mright mi)) hp' (fres sl l1 ++ fres sr r3))) as Wp.
      { apply wp_bind. eapply wp_mono; [exact (NR _ _ G)|]. intros z hp3 (A & B & D). apply wp_ret. cbn [fst snd]. split; [exact A|]. split; [split; assumption|exact D]. }
      destruct (lift_ok w0 Wp) as ([z mi3] & hp3 & E & A & B & D). cbn [fst snd] in *. subst z. rewrite E.
      exists (Ret (Some y)), mi3, (MergeIter l1 r3 []), hp3, w0, l, r'. split; [reflexivity|]. split; [split; assumption|]. split; [exact B|]. split; [exact D|constructor]. }
    destruct l as [|x l], r as [|y r]; cbn [hd_error tl] in *.
    - eexists _, _, (MergeIter l1 r1 []), hp2, w, [], []. split; [reflexivity|]. split; [split; assumption|]. split; [split; assumption|]. split; [exact G|auto].
    - exact (RO w _ _ eq_refl).
    - exact (LO w _ _ eq_refl).
    - cbn [fst snd]. destruct (kcmp (fst x) (fst y) w) as [[[| |]|] w2] eqn:Ec.
      + clear LO RO. cbv beta iota zeta.
        assert (wp (hbind (h_pnext l2) (fun r => hbind (h_pnext r2) (fun s => hret (fst s, HMerge (snd r) (snd s))))) hp2 (fun z hp' => fst z = Some y /\ mst sl Hl sr Hr (MergeIter l3 r3 []) (snd z) /\
          goes hp (fres sl (mleft mi) ++ fres sr (mright mi)) hp' (fres sl l3 ++ fres sr r3))) as Wp.
        { apply wp_bind. eapply wp_mono; [exact NL|]. intros z hp3 (A & B & D). apply wp_bind. eapply wp_mono; [exact (NR _ _ D)|]. intros z' hp4 (A' & B' & D').
          apply wp_ret. cbn [fst snd]. split; [exact A'|]. split; [split; assumption|exact D']. }
        destruct (lift_ok w2 Wp) as ([z mi3] & hp3 & E & A & B & D). cbn [fst snd] in *. subst z. rewrite E.
        exists (Ret (Some y)), mi3, (MergeIter l3 r3 []), hp3, w2, l, r. split; [reflexivity|]. split; [split; assumption|]. split; [exact B|]. split; [exact D|constructor].
      + exact (LO w2 _ _ eq_refl).
      + exact (RO w2 _ _ eq_refl).
      + eexists Panic, _, (MergeIter l1 r1 []), hp2, w2, (x :: l), (y :: r). split; [reflexivity|]. split; [split; assumption|]. split; [split; assumption|]. split; [exact G|].
        exact (C Ec).
  Qed.

  Section Alloc.
    Variable nalloc : bool -> W -> option reserve_error * W.
    Variable place : heap -> W -> loc.
    Hypothesis place_fresh : forall hp w, hget hp (place hp w) = None.
    Notation refused := (refused nalloc).
    Definition trouble : Prop := sc \/ exists e, refused e.
    (** [m] weaves together a first part of [l] and a first part of [r] *)
    Definition partly (l r m : list kv) : Prop := exists l1 l2 r1 r2, l = l1 ++ l2 /\ r = r1 ++ r2 /\ woven l1 r1 m.
    Lemma partly_nil (l r : list kv) : partly l r [].
    Proof. clear. exists [], l, [], r. repeat split. constructor. Qed.
    Lemma takes_partly x (l r l' r' m : list kv) : takes x l r l' r' -> partly l' r' m -> partly l r (x :: m).
    Proof.
      clear. intros T (l1 & l2 & r1 & r2 & -> & -> & Wv). inversion T; subst.
      - exists (x :: l1), l2, r1, r2. split; [reflexivity|]. split; [reflexivity|]. now constructor.
      - exists l1, l2, (x :: r1), r2. split; [reflexivity|]. split; [reflexivity|]. now constructor.
      - exists (x0 :: l1), l2, (x :: r1), r2. split; [reflexivity|]. split; [reflexivity|]. now constructor.
    Qed.

    (** map.rs 982-1030 *)
    Lemma from_sorted_h sl Hl sr Hr fuel : forall mi mi2 l r (t : ltree) c len hp (w : W),
      mi_ok Hl (tree_of sl) (shared_of sl) Hr (tree_of sr) (shared_of sr) mi l r -> mst sl Hl sr Hr mi mi2 ->
      own hp (Root (lplug t c) :: mres sl sr mi) -> J (erase t) (ectx c) -> length l + length r < fuel -> len = length (inorder (erase (lplug t c))) ->
      exists o T' ht len' mi2' hp' w' lost mi' l' r', hx_from_sorted nalloc place kcmp fuel mi2 (NR (length c) (lroot (lplug t c))) (NR 0 (lroot t)) len hp w =
        (o, HMap (NR ht (lroot T')) len', mi2', hp', w') /\ mst sl Hl sr Hr mi' mi2' /\
        mi_ok Hl (tree_of sl) (shared_of sl) Hr (tree_of sr) (shared_of sr) mi' l' r' /\
        goes hp (Root (lplug t c) :: mres sl sr mi) hp' (Root T' :: lost ++ mres sl sr mi') /\
        match o with
        | Ret _ => lost = [] /\ rb full ht (erase T') /\ nlen (erase T') <= CAPACITY /\ (0 < ht -> 1 <= nlen (erase T')) /\
                   len' = length (inorder (erase T')) /\ exists m, woven l r m /\ inorder (erase T') = inorder (erase (lplug t c)) ++ m
        | Panic => trouble /\ kids any ht (erase T') /\ len' = length (inorder (erase T')) /\
                   exists m, partly l r m /\ inorder (erase T') = inorder (erase (lplug t c)) ++ m
        | _ => False
        end.
    Proof.
      induction fuel as [|fuel IH]; intros mi mi2 l r t c len hp w Hmi Hst O HJ Hf Hlen; [lia|]. cbn [hx_from_sorted].
      assert (own hp (mres sl sr mi)) as Om by (apply (@own_app K V hp [Root (lplug t c)]) in O; apply O).
      destruct (merge_next_h w Hmi Hst Om) as (o & mi2' & mi' & hp1 & w1 & l' & r' & E & Hmi' & Hst' & G0 & Ho). rewrite E. clear E.
      pose proof (goes_snd (b := [Root (lplug t c)]) G0 O) as G. cbn [app] in G.
      destruct o as [[x|]|e| | |]; try contradiction.
      - pose proof (go_own G) as O1. pose proof (own_sub (rs := [Root (lplug t c)]) O1) as O2.
        pose proof (@push_sorted_m K V W nalloc place place_fresh x t c hp1 w1 O2 HJ) as PM. pose proof (push_sorted_ok nalloc x w1 HJ) as PO.
        destruct (push_sorted nalloc x (erase t) (ectx c) w1) as [[[[n' c']|e| | |] [tn ht]] w']; try contradiction.
        + destruct PM as (t' & c'' & hp2 & E & -> & -> & G2). rewrite E. clear E. destruct PO as (HJ' & Ei). rewrite <- !erase_plug in Ei.
          pose proof (goes_fst (b := mres sl sr mi') G2 O1) as G3. cbn [app] in G3. pose proof (takes_less Ho) as Hlt.
          destruct (IH mi' mi2' l' r' t' c'' (len + 1) hp2 w' Hmi' Hst' (go_own G3) HJ' ltac:(lia)) as (o & T' & ht' & len' & mi2'' & hp3 & w3 & lost & mi3 & l3 & r3 & E & A & B & D & F).
          { rewrite Ei, app_length, Hlen. cbn [length]. lia. }
          exists o, T', ht', len', mi2'', hp3, w3, lost, mi3, l3, r3. split; [exact E|]. split; [exact A|]. split; [exact B|].
          split; [exact (goes_trans G (goes_trans G3 D))|]. destruct o as [u|e| | |]; try contradiction.
          2:{ destruct F as (F1 & F2 & F3 & m & F4 & F5). split; [exact F1|]. split; [exact F2|]. split; [exact F3|]. exists (x :: m).
              split; [exact (takes_partly Ho F4)|]. rewrite F5, Ei, <- app_assoc. reflexivity. }
          destruct F as (F1 & F2 & F3 & F4 & F5 & m & F6 & F7). split; [exact F1|]. split; [exact F2|]. split; [exact F3|]. split; [exact F4|]. split; [exact F5|].
          exists (x :: m). split; [exact (takes_woven Ho F6)|]. rewrite F7, Ei, <- app_assoc. reflexivity.
        + destruct PM as (T' & lost & hp2 & E & -> & G2). rewrite E. clear E. destruct PO as ((i & w0 & e & PO) & PS & PI).
          pose proof (goes_fst (b := mres sl sr mi') G2 O1) as G3. cbn [app] in G3.
          exists Panic, T', ht, len, mi2', hp2, w', lost, mi', l', r'. cbn [pass]. split; [reflexivity|]. split; [exact Hst'|]. split; [exact Hmi'|]. split; [exact (goes_trans G G3)|].
          split; [right; exists e, i, w0, w'; exact PO|]. split; [exact PS|]. rewrite <- erase_plug in PI. split; [rewrite PI; exact Hlen|].
          exists []. split; [apply partly_nil|]. now rewrite app_nil_r.
      - destruct Ho as (-> & -> & -> & ->).
        exists (Ret tt), (lplug t c), (length c), len, mi2', hp1, w1, [], mi', [], []. cbn [app]. split; [reflexivity|]. split; [exact Hst'|]. split; [exact Hmi'|]. split; [exact G|].
        split; [reflexivity|]. rewrite erase_plug in *. destruct (J_rb HJ) as (B1 & B2). rewrite ectx_length in B1. split; [exact B1|]. split; [exact B2|].
        split; [intro P; destruct HJ as (_ & _ & _ & HJ); apply HJ; intro Q; destruct c; [cbn in P; lia|discriminate Q]|].
        split; [exact Hlen|]. exists []. split; [constructor|]. now rewrite app_nil_r.
      - exists Panic, (lplug t c), (length c), len, mi2', hp1, w1, [], mi', l', r'. cbn [app pass]. split; [reflexivity|]. split; [exact Hst'|]. split; [exact Hmi'|]. split; [exact G|].
        split; [left; exact Ho|]. split; [|split; [exact Hlen|exists []; split; [apply partly_nil|now rewrite app_nil_r]]].
        rewrite erase_plug. destruct (J_rb HJ) as (B1 & _). rewrite ectx_length in B1. eapply rb_shape. exact B1.
    Qed.

    (** map.rs 830-853 *)
    Lemma append_h m2 (m1 : bmap) sm o2 (o1 : bmap) so hp (w : W) : mrep m2 m1 sm -> mrep o2 o1 so -> own hp (sres sm ++ sres so) -> sound m1 -> sound o1 ->
      exists r m2' o2' m1' o1' sm' so' hp' w' lost, hx_append nalloc place kcmp m2 o2 hp w = (r, m2', o2', hp', w') /\
        mrep m2' m1' sm' /\ mrep o2' o1' so' /\ goes hp (sres sm ++ sres so) hp' (sres sm' ++ sres so' ++ lost) /\
        match r with
        | Ret _ => lost = [] /\ sound m1' /\ sound o1' /\ woven (entries m1) (entries o1) (entries m1') /\ entries o1' = []
        | Panic => trouble /\ kids any (bheight m1') (bnode m1') /\ blen m1' = length (entries m1') /\ partly (entries m1) (entries o1) (entries m1') /\ o1' = @new K V
        | _ => False
        end.
    Proof.
      intros Rm Ro O Sm So. pose proof (sound_any Sm) as Am. pose proof (sound_any So) as Ao.
      pose proof Sm as (Bm & Hsm & Lm). pose proof So as (Bo & Hso & Lo).
      unfold hx_append. rewrite (proj1 Ro), (proj1 Rm).
      destruct (Nat.eqb_spec (blen o1) 0) as [E0|E0].
      { assert (He : entries o1 = []) by (destruct (entries o1); auto; simpl in Lo; lia).
        exists (Ret tt), m2, o2, m1, o1, sm, so, hp, w, []. rewrite app_nil_r. split; [reflexivity|]. split; [exact Rm|]. split; [exact Ro|]. split; [now apply goes_refl|].
        split; [reflexivity|]. split; [exact Sm|]. split; [exact So|]. rewrite He. split; [apply woven_left|reflexivity]. }
      destruct (Nat.eqb_spec (blen m1) 0) as [E1|E1].
      { assert (He : entries m1 = []) by (destruct (entries m1); auto; simpl in Lm; lia).
        exists (Ret tt), o2, m2, o1, m1, so, sm, hp, w, []. rewrite app_nil_r. split; [reflexivity|]. split; [exact Ro|]. split; [exact Rm|]. split.
        - eapply goes_perm; [reflexivity|apply Permutation_app_comm|]. now apply goes_refl.
        - split; [reflexivity|]. split; [exact So|]. split; [exact Sm|]. rewrite He. split; [apply woven_right|reflexivity]. }
      pose proof (own_sub O) as Om. assert (own hp (sres so)) as Oo by (apply own_app in O; apply O).
      destruct (into_iter_m Rm Om Am Lm) as (li & Eli & Wl). destruct (into_iter_m Ro Oo Ao Lo) as (ri & Eri & Wr).
      destruct (map_into_iter_ok m1 Am Lm) as (li' & Eli' & Oli). { intros Q. now apply Hsm. } rewrite Eli in Eli'. injection Eli' as <-.
      destruct (map_into_iter_ok o1 Ao Lo) as (ri' & Eri' & Ori). { intros Q. now apply Hso. } rewrite Eri in Eri'. injection Eri' as <-.
      set (mi := MergeIter (Peekable None li) (Peekable None ri) []).
      assert (bshared m1 = shared_of sm) as Shm by (destruct Rm as (_ & R); destruct sm; tauto).
      assert (bshared o1 = shared_of so) as Sho by (destruct Ro as (_ & R); destruct so; tauto).
      assert (mi_ok (bheight m1) (tree_of sm) (shared_of sm) (bheight o1) (tree_of so) (shared_of so) mi (entries m1) (entries o1)) as Hmi.
      { rewrite <- (tree_of_m Rm), <- (tree_of_m Ro), <- Shm, <- Sho.
        split; [exists 0, (length (entries m1))|exists 0, (length (entries o1))]; cbn [mi mleft mright pk pinner];
          (split; [assumption|unfold entries; now rewrite seg_all]). }
      assert (wp (hbind (h_into_iter m2) (fun li => hbind (h_into_iter o2) (fun ri =>
                  hret (HMerge (HPeek None li (rh (mroot m2))) (HPeek None ri (rh (mroot o2))))))) hp
              (fun mi2 hp' => mst sm (bheight m1) so (bheight o1) mi mi2 /\ goes hp (sres sm ++ sres so) hp' (mres sm so mi))) as Wp.
      { apply wp_bind. eapply wp_mono; [exact Wl|]. intros l2 hp1 (-> & G1 & K1). apply wp_bind. eapply wp_mono; [exact Wr|]. intros r2 hp2 (-> & G2 & K2).
        apply wp_ret. split.
        - split; (split; [assumption|]); (split; [reflexivity|]); cbn [hpfuel hml hmr]; eauto using mrep_height.
        - pose proof (goes_fst G1 O) as G1'. exact (goes_trans G1' (goes_snd G2 (go_own G1'))). }
      destruct (lift_ok w Wp) as (mi2 & hp1 & E & Hst & G1). rewrite E. clear E Wp Wl Wr.
      assert (forall mi' mi2' l r hp', mi_ok (bheight m1) (tree_of sm) (shared_of sm) (bheight o1) (tree_of so) (shared_of so) mi' l r ->
        mst sm (bheight m1) so (bheight o1) mi' mi2' -> own hp' (mres sm so mi') -> wp (h_drop_merge mi2') hp' (fun _ hp'' => goes hp' (mres sm so mi') hp'' [])) as DM.
      { rewrite (tree_of_m Rm) in Am. rewrite (tree_of_m Ro) in Ao. intros mi' mi2' l r hp' (Q1 & Q2) S O'.
        destruct (drop_peekable_ok Am Q1) as (f1 & D1 & _). destruct (drop_peekable_ok Ao Q2) as (f2 & D2 & _).
        eapply drop_merge_m; [exact Am|exact Ao|exact S|exact O'|exact D1|exact D2]. }
      unfold h_ensure_root_is_owned. cbn [mroot h_new rl]. rewrite Nat.eqb_refl.
      pose proof (@new_leaf_m K V W nalloc place place_fresh hp1 w) as NL. unfold new_leaf in NL. destruct (nalloc false w) as [[e|] w1] eqn:En.
      { rewrite NL. destruct (lift_ok w1 (DM _ _ _ _ _ Hmi Hst (go_own G1))) as (u & hp2 & E & G2). rewrite E. clear E.
        exists Panic, h_new, h_new, (@new K V), (@new K V), None, None, hp2, w1, []. split; [reflexivity|]. split; [apply mrep_new|]. split; [apply mrep_new|].
        split; [exact (goes_trans G1 G2)|]. split; [right; exists e, false, w, w1; exact En|]. split; [reflexivity|]. split; [reflexivity|]. split; [apply partly_nil|reflexivity]. }
      destruct NL as (hp2 & l & E & _ & G2). rewrite E. clear E. cbn [mroot mlen rh h_new].
      pose proof (goes_add G2 (go_own G1)) as G2'. cbn [app] in G2'.
      destruct (@lift_ok K V W _ (hbind (h_last_leaf_edge 1 (NR 0 l)) (fun e => hret (fst e))) hp2 w1 (fun r hp' => r = NR 0 l /\ hp' = hp2)) as (r & hp3 & E & -> & ->).
      { destruct (own_root_owned (go_own G2)) as (Ow & _). cbn [h_last_leaf_edge]. apply wp_bind. apply wp_bind.
        eapply (@wp_len_t K V 0 (LN l [] []) []); [exact Ow|]. eapply (@wp_edge_t K V 0 (LN l [] []) []); [exact Ow|cbn [length lks]; lia|]. cbn [rh].
        apply wp_ret. auto. }
      rewrite E. clear E. 
      assert (J (erase (LN l [] [])) (ectx [])) as HJ.
      { split; [reflexivity|]. split; [apply Nat.le_0_l|]. split; [exact I|]. intros Q. now destruct Q. }
      destruct (@from_sorted_h _ _ _ _ (blen m1 + blen o1 + 1) mi mi2 (entries m1) (entries o1) (LN l [] []) [] 0 hp2 w1 Hmi Hst (go_own G2') HJ ltac:(lia) eq_refl)
        as (o & T' & ht & l' & mi2' & hp4 & w2 & lost & mi' & lr & rr & E & Hst' & Hmi' & G3 & FO).
      cbn [length lplug HeapRep.lroot] in E. rewrite E. clear E. pose proof (goes_trans G1 (goes_trans G2' G3)) as G4.
      destruct o as [u|e| | |]; try contradiction.
      - destruct FO as (-> & R1 & R2 & R3 & R5 & m & R6 & R7). cbn [app] in G4.
        destruct (@fix_right_edge_ok K V ht (erase T') R1 R3) as (t' & EF & F1 & F2 & F3).
        assert (own hp4 (mres sm so mi')) as Om4 by (pose proof (go_own G4) as X; apply (@own_app K V hp4 [Root T']) in X; apply X).
        assert (wp (hbind (h_drop_merge mi2') (fun _ => h_fix_right_edge (S (rh (NR ht (lroot T')))) (NR ht (lroot T')))) hp4 (fun _ hp' =>
           exists T'', erase T'' = t' /\ lroot T'' = lroot T' /\ goes hp4 (Root T' :: mres sm so mi') hp' [Root T''])) as Wp.
        { apply wp_bind. eapply wp_mono; [exact (DM _ _ _ _ _ Hmi' Hst' Om4)|]. intros u5 hp5 G5.
          pose proof (goes_snd (b := [Root T']) G5 (go_own G4)) as G5'. cbn [app] in G5'. destruct (own_root_owned (go_own G5')) as (Ow5 & Hu5). cbn [rh].
          eapply wp_mono; [eapply (@fix_right_edge_t K V ht T' t' hp5); [lia|exact Ow5| |exact EF]|].
          - apply rb_shape in R1. exact R1.
          - intros u6 hp6 (T'' & A & B & D & F). exists T''. split; [exact A|]. split; [exact B|]. eapply goes_trans; [exact G5'|].
            apply goes_root; [exact D|]. rewrite B. now apply F. }
        cbn [mroot]. destruct (lift_ok w2 Wp) as (u5 & hp5 & E & T'' & A & B & G5). rewrite E. clear E Wp. subst t'.
        exists (Ret u5), (HMap (NR ht (lroot T')) l'), h_new, (BMap false (erase T'') ht l'), (@new K V), (Some T''), None, hp5, w2, []. split; [reflexivity|].
        split; [split; [reflexivity|]; cbn [mroot bheight bnode bshared]; rewrite B; auto|]. split; [apply mrep_new|].
        split; [cbn [sres app]; exact (goes_trans G4 G5)|]. split; [reflexivity|]. split; [|split; [apply new_sound|]].
        + split; [|split; [discriminate|unfold entries; cbn [blen bnode]; now rewrite F3]].
          cbn [bheight bnode]. split; [split; rewrite F2; auto|]. eapply kids_weaken; [|exact F1]. apply documented_fair.
        + split; [|reflexivity]. unfold entries at 3. cbn [bnode]. rewrite F3, R7. exact R6.
      - assert (own hp4 (mres sm so mi')) as Om4.
        { pose proof (go_own G4) as X. change (Root T' :: lost ++ mres sm so mi') with ((Root T' :: lost) ++ mres sm so mi') in X. apply own_app in X. apply X. }
        destruct (lift_ok w2 (DM _ _ _ _ _ Hmi' Hst' Om4)) as (u & hp5 & E & G5). rewrite E. clear E.
        exists Panic, (HMap (NR ht (lroot T')) l'), h_new, (BMap false (erase T') ht l'), (@new K V), (Some T'), None, hp5, w2, lost. split; [reflexivity|].
        split; [split; [reflexivity|]; cbn; auto|]. split; [apply mrep_new|].
        destruct FO as (F1 & F2 & F3 & m & F4 & F5). split; [|cbn [bheight bnode blen]; unfold entries; cbn [bnode]; split; [exact F1|]; split; [exact F2|]; split; [exact F3|]; split; [rewrite F5; exact F4|reflexivity]]. cbn [sres app]. eapply goes_trans; [exact G4|]. pose proof (goes_snd (b := Root T' :: lost) G5 (go_own G4)) as G5'. rewrite app_nil_r in G5'. exact G5'.
    Qed.
  End Alloc.
End Append.
