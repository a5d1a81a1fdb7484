(** * HeapIter: the iterators that only read, on raw memory, do what they do on
    trees.  No step changes the heap. *)
From Coq Require Import List Arith Lia Bool Permutation.
From Verif Require Import Base MapSpec IterSpec BTreeModel BTreeInv BTreeLemmas BTreeSearch BTreeInsert BTreeIterModel BTreeIter BTreeStep BTreeIterProofs.
From Verif Require Import BTreeRange BTreeOps BTreeEntry BTreeWrites BTreeBulkModel HistoryModel.
From Verif Require Import HeapModel HeapMapModel HeapArr HeapRep HeapWp HeapNode HeapOps HeapOps2 HeapOps3 HeapOps4 HeapZip HeapRemove HeapSearch HeapInsert HeapRes HeapPart HeapMap.
Import ListNotations.
Set Implicit Arguments.
Unset Strict Implicit.

Section Iter.
  Variables (K V : Type).
  Notation kv := (K * V)%type.
  Notation cell := (cell K V).
  Notation heap := (heap K V).
  Notation HM := (HM K V).
  Notation ltree := (ltree K V).
  Notation lroot := (@lroot K V).
  Notation erase := (@erase K V).
  Notation bmap := (bmap K V).
  Notation src := (src K V).
  Notation res := (res K V).
  Implicit Types (hp : heap).

  Definition tree_of (s : src) : node K V := match s with Some T => erase T | None => @empty_leaf K V end.
  Lemma tree_of_m m2 (m1 : bmap) s : mrep m2 m1 s -> bnode m1 = tree_of s.
  Proof. intros (_ & R). destruct s; tauto. Qed.

  Lemma mrep_height m2 (m1 : bmap) s : mrep m2 m1 s -> bheight m1 <= rh (mroot m2).
  Proof. intros (_ & R). destruct s; [destruct R as (-> & _)|destruct R as (-> & _ & _ & ->)]; cbn; lia. Qed.

  (** ** One step *)
  Lemma part_next T F hp hd r s H fuel : part_ok hp T F -> edge_rep T hd r -> leaf_edge H (erase T) hd -> H <= fuel ->
    next_unchecked hd = Some s -> dead_none F (hc hd) -> dead_none F (hc (s_edge s)) ->
    wp (h_next_unchecked fuel r) hp (fun x hp' => hp' = hp /\
      fst (fst x) = s_kv s /\ place_rep T (s_addr s) (snd (fst x)) /\ edge_rep T (s_edge s) (snd x)).
  Proof.
    intros ok (t & c & h & i & ET & -> & ->) LE HF E A A2. destruct LE as (Hok & H0 & Hi). cbn [hh hi hn hc] in *. subst h.
    destruct Hok as (_ & EH & _). cbn in EH. rewrite ectx_length in EH.
    unfold next_unchecked in E. cbn [hi hn hc hh] in E. rewrite nlen_erase, kvs_erase in E. unfold h_next_unchecked.
    st part_right_kv; [exact ok|exact ET|exact (dead_none_self A)|].
    destruct (i <? length (lks t)) eqn:Ei.
    - destruct (nth_error (lks t) i) as [x|] eqn:Ex; [|discriminate E]. injection E as <-. cbn [s_kv s_addr s_edge] in *.
      apply Nat.ltb_lt in Ei.
      st part_read_kv; [exact ok|exact ET|exact (dead_none_self A)|exact Ex|]. unfold right_edge. cbn [fst snd].
      st part_edge; [exact ok|exact ET|exact (dead_none_self A)|lia|]. apply wp_ret. split; [reflexivity|]. split; [reflexivity|].
      split; [exists t, c; cbn; auto|exists t, c, 0, (i + 1); auto].
    - eapply part_climb_right; eauto. lia.
  Qed.
  Lemma frames_le H T t c i : leaf_edge H T (Handle (erase t) 0 (ectx c) i) -> Forall (fun f => length (lfa f) <= length (lfk f)) c.
  Proof.
    intros (Hok & _). apply hok_any in Hok as (_ & _ & _ & Ck). cbn [hc hh] in Ck. revert Ck. generalize 0 as h. induction c as [|f c IH]; intros h Ck; constructor.
    - cbn [ectx map] in Ck. apply cok_top in Ck as (Fo & _). unfold frame_ok, fidx in Fo. cbn in Fo. rewrite ?map_length in Fo. lia.
    - cbn [ectx map] in Ck. apply cok_top in Ck as (_ & _ & _ & Ck). exact (IH _ Ck).
  Qed.
  Lemma part_next_back T F hp hd r s H fuel : part_ok hp T F -> edge_rep T hd r -> leaf_edge H (erase T) hd -> H <= fuel ->
    next_back_unchecked hd = Some s -> dead_none F (hc hd) -> dead_none F (hc (s_edge s)) ->
    wp (h_next_back_unchecked fuel r) hp (fun x hp' => hp' = hp /\
      fst (fst x) = s_kv s /\ place_rep T (s_addr s) (snd (fst x)) /\ edge_rep T (s_edge s) (snd x)).
  Proof.
    intros ok (t & c & h & i & ET & -> & ->) LE HF E A A2. pose proof LE as (Hok & H0 & Hi). cbn [hh hi hn hc] in *. subst h.
    destruct Hok as (_ & EH & _). cbn in EH. rewrite ectx_length in EH.
    unfold next_back_unchecked in E. cbn [hi hn hc hh] in E. rewrite kvs_erase in E. rewrite nlen_erase in Hi. unfold h_next_back_unchecked.
    st part_left_kv; [exact ok|exact ET|exact (dead_none_self A)|exact Hi|].
    destruct (0 <? i) eqn:Ei.
    - destruct (nth_error (lks t) (i - 1)) as [x|] eqn:Ex; [|discriminate E]. injection E as <-. cbn [s_kv s_addr s_edge] in *.
      st part_read_kv; [exact ok|exact ET|exact (dead_none_self A)|exact Ex|]. unfold left_edge. cbn [fst snd].
      st part_edge; [exact ok|exact ET|exact (dead_none_self A)|lia|]. apply wp_ret. split; [reflexivity|]. split; [reflexivity|].
      split; [exists t, c; cbn; auto|exists t, c, 0, (i - 1); auto].
    - eapply part_climb_left; eauto; [lia|]. eapply frames_le; exact LE.
  Qed.

  Lemma next_m s hp hd r st_ H fuel : own hp (sres s) -> at_edge s hd r -> leaf_edge H (tree_of s) hd -> H <= fuel ->
    next_unchecked hd = Some st_ ->
    wp (h_next_unchecked fuel r) hp (fun x hp' => hp' = hp /\
      fst (fst x) = s_kv st_ /\ at_place s (s_addr st_) (snd (fst x)) /\ at_edge s (s_edge st_) (snd x)).
  Proof.
    intros O A L Hf E. destruct s as [T|]; [|destruct A as (-> & _); discriminate E].
    eapply wp_mono; [eapply (@part_next T [] hp hd r st_ H fuel); eauto using dead_none_nil; apply (own_part1 O)|].
    intros x hp' (-> & E1 & E2 & E3). split; [reflexivity|]. split; [exact E1|]. split; [now apply place_at|exact E3].
  Qed.
  Lemma next_back_m s hp hd r st_ H fuel : own hp (sres s) -> at_edge s hd r -> leaf_edge H (tree_of s) hd -> H <= fuel ->
    next_back_unchecked hd = Some st_ ->
    wp (h_next_back_unchecked fuel r) hp (fun x hp' => hp' = hp /\
      fst (fst x) = s_kv st_ /\ at_place s (s_addr st_) (snd (fst x)) /\ at_edge s (s_edge st_) (snd x)).
  Proof.
    intros O A L Hf E. destruct s as [T|]; [|destruct A as (-> & _); discriminate E].
    eapply wp_mono; [eapply (@part_next_back T [] hp hd r st_ H fuel); eauto using dead_none_nil; apply (own_part1 O)|].
    intros x hp' (-> & E1 & E2 & E3). split; [reflexivity|]. split; [exact E1|]. split; [now apply place_at|exact E3].
  Qed.

  (** ** Equality of handles: same node, same index *)
  Lemma same_loc T t1 c1 t2 c2 : NoDup (locs T) -> T = lplug t1 c1 -> T = lplug t2 c2 ->
    (lroot t1 = lroot t2 <-> cpath (ectx c1) = cpath (ectx c2)).
  Proof.
    intros N E1 E2. split; intro H.
    - eapply nodup_fst; [|eapply (nodes_plug E1)|rewrite H; eapply (nodes_plug E2)]. now rewrite nodes_snd.
    - assert (lat T (cpath (ectx c1)) = Some t1) as L1 by (rewrite E1, <- (app_nil_r (cpath _)), lat_plug; reflexivity).
      assert (lat T (cpath (ectx c2)) = Some t2) as L2 by (rewrite E2 at 1; rewrite <- (app_nil_r (cpath _)), lat_plug; reflexivity).
      congruence.
  Qed.
  Lemma handle_eqb_m s hp a b ra rb : own hp (sres s) -> at_edge s a ra -> at_edge s b rb -> hhandle_eqb ra rb = handle_eqb a b.
  Proof.
    intros O A B. destruct s as [T|].
    - destruct A as (t1 & c1 & h1 & i1 & E1 & -> & ->), B as (t2 & c2 & h2 & i2 & E2 & -> & ->).
      assert (NoDup (locs T)) as N by (apply (own_part1 O)). pose proof (same_loc N E1 E2) as S.
      unfold hhandle_eqb, handle_eqb, hpath. cbn [fst snd rl hc hi]. f_equal.
      destruct (path_eqb_spec (cpath (ectx c1)) (cpath (ectx c2))) as [P|P].
      + apply Nat.eqb_eq. tauto.
      + apply Nat.eqb_neq. tauto.
    - destruct A as (-> & ->), B as (-> & ->). reflexivity.
  Qed.

  (** ** Sequences of calls *)
  Definition orel {A B} (R : A -> B -> Prop) (a : option A) (b : option B) : Prop :=
    match a, b with Some x, Some y => R x y | None, None => True | _, _ => False end.
  Lemma hcalls_sim {S1 S2 A1 A2 : Type} (R : S1 -> S2 -> heap -> Prop) (RA : A1 -> A2 -> Prop)
      (n1 b1 : S1 -> outcome Empty_set (option A1 * S1)) (n2 b2 : S2 -> HM (option A2 * S2)) :
    (forall s1 s2 hp a s1', R s1 s2 hp -> n1 s1 = Ret (a, s1') -> wp (n2 s2) hp (fun r hp' => orel RA a (fst r) /\ R s1' (snd r) hp')) ->
    (forall s1 s2 hp a s1', R s1 s2 hp -> b1 s1 = Ret (a, s1') -> wp (b2 s2) hp (fun r hp' => orel RA a (fst r) /\ R s1' (snd r) hp')) ->
    forall ops s1 s2 hp outs s1', R s1 s2 hp -> calls n1 b1 ops s1 = Ret (outs, s1') ->
    wp (hcalls n2 b2 ops s2) hp (fun r hp' => Forall2 (orel RA) outs (fst r) /\ R s1' (snd r) hp').
  Proof.
    intros Hn Hb ops. induction ops as [|e ops IH]; intros s1 s2 hp outs s1' HR E; cbn [calls hcalls] in *.
    - injection E as <- <-. apply wp_ret. split; [constructor|exact HR].
    - assert (exists a s1a outs', (match e with Front => n1 s1 | Back => b1 s1 end) = Ret (a, s1a) /\ calls n1 b1 ops s1a = Ret (outs', s1') /\ outs = a :: outs') as (a & s1a & outs' & E1 & E2 & ->).
      { destruct (match e with Front => n1 s1 | Back => b1 s1 end) as [[a s1a]| | | |]; try discriminate E.
        destruct (calls n1 b1 ops s1a) as [[outs' s']| | | |] eqn:E2; try discriminate E. injection E as <- <-. eauto 10. }
      st wp_mono; [destruct e; [eapply Hn|eapply Hb]; [exact HR|exact E1|exact HR|exact E1]|].
      intros r hp1 (Ra & HR1). cbn beta. st wp_mono; [eapply IH; [exact HR1|exact E2]|].
      intros t hp2 (F & HR2). apply wp_ret. cbn [fst snd]. split; [constructor; [exact Ra|exact F]|exact HR2].
  Qed.

  Definition irel (s : src) (x : item K V) (y : hitem K V) : Prop := fst x = fst y /\ at_place s (snd x) (snd y).
  Definition rrep (s : src) (H : nat) (hp0 : heap) (r1 : range K V) (r2 : hrange) hp : Prop :=
    hp = hp0 /\ (exists a b, between H (tree_of s) a b r1) /\ at_edge s (rfront r1) (xfront r2) /\ at_edge s (rback r1) (xback r2).
  Definition irep (s : src) (H : nat) (hp0 : heap) (i1 : iter K V) (i2 : hiter) hp : Prop :=
    hp = hp0 /\ (exists a b, iter_ok H (tree_of s) a b i1) /\ at_edge s (rfront (irange i1)) (xfront (xrange i2)) /\
    at_edge s (rback (irange i1)) (xback (xrange i2)) /\ xlen i2 = ilen i1.

  Lemma range_next_m s H fuel r1 r2 hp0 hp a r1' : own hp0 (sres s) -> H <= fuel -> rrep s H hp0 r1 r2 hp -> range_next r1 = Ret (a, r1') ->
    wp (h_range_next fuel r2) hp (fun r hp' => orel (irel s) a (fst r) /\ rrep s H hp0 r1' (snd r) hp').
  Proof.
    intros O Hf (-> & (p & q & Bt) & Af & Ab) E. pose proof (range_next_ok Bt) as Ok.
    assert (exists p q, between H (tree_of s) p q r1') as Bt'.
    { destruct (p =? q); [destruct Ok as (r' & E' & B')|destruct Ok as (x & r' & E' & _ & _ & B')]; rewrite E in E'; injection E' as _ <-; eauto. }
    unfold h_range_next. rewrite (handle_eqb_m O Af Ab). unfold range_next in E. destruct (handle_eqb (rfront r1) (rback r1)).
    - injection E as <- <-. apply wp_ret. cbn. split; [exact I|]. split; [reflexivity|]. auto.
    - destruct (next_unchecked (rfront r1)) as [st_|] eqn:En; [|discriminate E]. injection E as <- <-.
      st wp_mono; [eapply next_m; [exact O|exact Af|exact (proj1 Bt)|exact Hf|exact En]|]. intros x hp' (-> & E1 & E2 & E3).
      apply wp_ret. cbn. split; [split; [exact (eq_sym E1)|exact E2]|]. split; [reflexivity|]. auto.
  Qed.
  Lemma range_next_back_m s H fuel r1 r2 hp0 hp a r1' : own hp0 (sres s) -> H <= fuel -> rrep s H hp0 r1 r2 hp -> range_next_back r1 = Ret (a, r1') ->
    wp (h_range_next_back fuel r2) hp (fun r hp' => orel (irel s) a (fst r) /\ rrep s H hp0 r1' (snd r) hp').
  Proof.
    intros O Hf (-> & (p & q & Bt) & Af & Ab) E. pose proof (range_next_back_ok Bt) as Ok.
    assert (exists p q, between H (tree_of s) p q r1') as Bt'.
    { destruct (p =? q); [destruct Ok as (r' & E' & B')|destruct Ok as (x & r' & E' & _ & _ & B')]; rewrite E in E'; injection E' as _ <-; eauto. }
    unfold h_range_next_back. rewrite (handle_eqb_m O Af Ab). unfold range_next_back in E. destruct (handle_eqb (rfront r1) (rback r1)).
    - injection E as <- <-. apply wp_ret. cbn. split; [exact I|]. split; [reflexivity|]. auto.
    - destruct (next_back_unchecked (rback r1)) as [st_|] eqn:En; [|discriminate E]. injection E as <- <-.
      st wp_mono; [eapply next_back_m; [exact O|exact Ab|exact (proj1 (proj2 Bt))|exact Hf|exact En]|]. intros x hp' (-> & E1 & E2 & E3).
      apply wp_ret. cbn. split; [split; [exact (eq_sym E1)|exact E2]|]. split; [reflexivity|]. auto.
  Qed.
  Lemma iter_next_m s H fuel r1 r2 hp0 hp a r1' : own hp0 (sres s) -> H <= fuel -> irep s H hp0 r1 r2 hp -> iter_next r1 = Ret (a, r1') ->
    wp (h_iter_next fuel r2) hp (fun r hp' => orel (irel s) a (fst r) /\ irep s H hp0 r1' (snd r) hp').
  Proof.
    intros O Hf (-> & (p & q & Bt) & Af & Ab & El) E. pose proof (iter_next_ok Bt) as Ok.
    assert (exists p q, iter_ok H (tree_of s) p q r1') as Bt'.
    { destruct (p =? q); [destruct Ok as (r' & E' & B')|destruct Ok as (x & r' & E' & _ & _ & B')]; rewrite E in E'; injection E' as _ <-; eauto. }
    unfold h_iter_next. rewrite El. unfold iter_next in E. destruct (ilen r1 =? 0).
    - injection E as <- <-. apply wp_ret. cbn. split; [exact I|]. split; [reflexivity|]. auto.
    - destruct (next_unchecked (rfront (irange r1))) as [st_|] eqn:En; [|discriminate E]. injection E as <- <-.
      st wp_mono; [eapply next_m; [exact O|exact Af|exact (proj1 (proj1 Bt))|exact Hf|exact En]|]. intros x hp' (-> & E1 & E2 & E3).
      apply wp_ret. cbn. split; [split; [exact (eq_sym E1)|exact E2]|]. split; [reflexivity|]. auto.
  Qed.
  Lemma iter_next_back_m s H fuel r1 r2 hp0 hp a r1' : own hp0 (sres s) -> H <= fuel -> irep s H hp0 r1 r2 hp -> iter_next_back r1 = Ret (a, r1') ->
    wp (h_iter_next_back fuel r2) hp (fun r hp' => orel (irel s) a (fst r) /\ irep s H hp0 r1' (snd r) hp').
  Proof.
    intros O Hf (-> & (p & q & Bt) & Af & Ab & El) E. pose proof (iter_next_back_ok Bt) as Ok.
    assert (exists p q, iter_ok H (tree_of s) p q r1') as Bt'.
    { destruct (p =? q); [destruct Ok as (r' & E' & B')|destruct Ok as (x & r' & E' & _ & _ & B')]; rewrite E in E'; injection E' as _ <-; eauto. }
    unfold h_iter_next_back. rewrite El. unfold iter_next_back in E. destruct (ilen r1 =? 0).
    - injection E as <- <-. apply wp_ret. cbn. split; [exact I|]. split; [reflexivity|]. auto.
    - destruct (next_back_unchecked (rback (irange r1))) as [st_|] eqn:En; [|discriminate E]. injection E as <- <-.
      st wp_mono; [eapply next_back_m; [exact O|exact Ab|exact (proj1 (proj2 (proj1 Bt)))|exact Hf|exact En]|]. intros x hp' (-> & E1 & E2 & E3).
      apply wp_ret. cbn. split; [split; [exact (eq_sym E1)|exact E2]|]. split; [reflexivity|]. auto.
  Qed.

  (** ** The ends of a map *)
  Lemma edges_m m2 (m1 : bmap) s hp : mrep m2 m1 s -> own hp (sres s) -> kids any (bheight m1) (bnode m1) ->
    exists f b, first_leaf_edge (bheight m1) (bnode m1) [] = Some f /\ last_leaf_edge (bheight m1) (bnode m1) [] = Some b /\
      wp (h_first_leaf_edge (S (rh (mroot m2))) (mroot m2)) hp (fun r hp' => hp' = hp /\ at_edge s f r) /\
      wp (h_last_leaf_edge (S (rh (mroot m2))) (mroot m2)) hp (fun r hp' => hp' = hp /\ at_edge s b r).
  Proof.
    intros (EL & R) O Hk. destruct (@first_last_edges K V _ _ Hk) as (f & b & Ef & Eb & _). exists f, b. split; [exact Ef|]. split; [exact Eb|].
    destruct s as [T|].
    - destruct R as (R1 & R2 & R3). rewrite R1. cbn [rh]. rewrite R3 in *. apply own_part1 in O.
      split; [eapply (@part_first_leaf K V T [] hp O (bheight m1) T [])|eapply (@part_last_leaf K V T [] hp O (bheight m1) T [])]; eauto using dead_none_nil.
    - destruct R as (R1 & R2 & R3 & R4). rewrite R1. rewrite R3, R4 in *. cbn in Ef, Eb. injection Ef as <-. injection Eb as <-. cbn. auto.
  Qed.
  Lemma iter_m m2 (m1 : bmap) s hp : mrep m2 m1 s -> own hp (sres s) -> kids any (bheight m1) (bnode m1) -> blen m1 = length (entries m1) ->
    exists it, map_iter m1 = Ret it /\ wp (h_iter m2) hp (fun r hp' => irep s (bheight m1) hp it r hp').
  Proof.
    intros R O Hk HL. destruct (edges_m R O Hk) as (f & b & Ef & Eb & Wf & Wb).
    destruct (@first_last_edges K V _ _ Hk) as (f' & b' & Ef' & Eb' & Bt & _). rewrite Ef in Ef'. injection Ef' as <-. rewrite Eb in Eb'. injection Eb' as <-.
    exists (Iter (Range f b) (blen m1)). split; [unfold map_iter; now rewrite Ef, Eb|]. unfold h_iter.
    st wp_mono; [exact Wf|]. intros r hp' (-> & Af). st wp_mono; [exact Wb|]. intros r2 hp' (-> & Ab). apply wp_ret.
    split; [reflexivity|]. rewrite <- (tree_of_m R). cbn. split; [|split; [exact Af|]; split; [exact Ab|]; exact (proj1 R)].
    exists 0, (length (entries m1)). split; [exact Bt|]. cbn. rewrite Nat.sub_0_r. exact HL.
  Qed.

  (** ** Range *)
  Section Range.
    Variables (Q : Type) (qcmp : Q -> Q -> comparison) (borrow : K -> Q).
    Lemma linear_t T hp t c h q (P : nat * bool -> heap -> Prop) : part_ok hp T [] -> T = lplug t c ->
      P (search_linear q (lks t)) hp -> wp (h_search_linear q (NR h (lroot t))) hp P.
    Proof. intros ok E H. unfold h_search_linear. st part_keys; [exact ok|exact E|intros []|]. apply wp_ret. now rewrite key_linear_eq. Qed.
    Lemma min_edge_t T hp t c h found lo (P : nat * bool -> heap -> Prop) : part_ok hp T [] -> T = lplug t c ->
      P (min_edge qcmp borrow found lo (erase t)) hp -> wp (h_min_edge qcmp borrow found lo (NR h (lroot t))) hp P.
    Proof.
      intros ok E H. unfold h_min_edge, min_edge in *. rewrite kvs_erase, nlen_erase in H. destruct found, lo; cbn in H |- *;
        try (apply wp_ret; exact H);
        try (st part_keys; [exact ok|exact E|intros []|]; apply wp_ret; rewrite map_length; exact H);
        try (eapply linear_t; [exact ok|exact E|exact H]);
        (st linear_t; [exact ok|exact E|]); apply wp_ret; destruct (search_linear _ _); exact H.
    Qed.
    Lemma max_edge_t T hp t c h found hi (P : nat * bool -> heap -> Prop) : part_ok hp T [] -> T = lplug t c ->
      P (max_edge qcmp borrow found hi (erase t)) hp -> wp (h_max_edge qcmp borrow found hi (NR h (lroot t))) hp P.
    Proof.
      intros ok E H. unfold h_max_edge, max_edge in *. rewrite kvs_erase, nlen_erase in H. destruct found, hi; cbn in H |- *;
        try (apply wp_ret; exact H);
        try (st part_keys; [exact ok|exact E|intros []|]; apply wp_ret; rewrite map_length; exact H);
        try (eapply linear_t; [exact ok|exact E|exact H]);
        (st linear_t; [exact ok|exact E|]); apply wp_ret; destruct (search_linear _ _); exact H.
    Qed.
    Lemma min_edge_le found lo (n : node K V) : fst (min_edge qcmp borrow found lo n) <= nlen n.
    Proof.
      unfold min_edge, nlen. destruct found, lo; cbn; try lia; destruct (search_linear_len (qof qcmp borrow q) (kvs n)) as (H1 & H2);
        destruct (search_linear (qof qcmp borrow q) (kvs n)) as [i b]; cbn in *; try lia. destruct b; cbn; [specialize (H2 eq_refl)|]; lia.
    Qed.
    Lemma max_edge_le found hi (n : node K V) : fst (max_edge qcmp borrow found hi n) <= nlen n.
    Proof.
      unfold max_edge, nlen. destruct found, hi; cbn; try lia; destruct (search_linear_len (qof qcmp borrow q) (kvs n)) as (H1 & H2);
        destruct (search_linear (qof qcmp borrow q) (kvs n)) as [i b]; cbn in *; try lia. destruct b; cbn; [specialize (H2 eq_refl)|]; lia.
    Qed.
    Lemma range_loop_t T hp lo hi : part_ok hp T [] -> forall h t1 c1 t2 c2 f1 f2 dv fuel o, T = lplug t1 c1 -> T = lplug t2 c2 -> h < fuel ->
      range_loop qcmp borrow lo hi h (erase t1) (ectx c1) (erase t2) (ectx c2) f1 f2 dv = o -> (exists ab, o = Ret ab) \/ o = Panic ->
      wp (h_range_loop qcmp borrow fuel lo hi (NR h (lroot t1)) (NR h (lroot t2)) f1 f2 dv) hp (fun r hp' => hp' = hp /\
        match o with
        | Ret ab => exists x y, r = Ret (HRange x y) /\ edge_rep T (fst ab) x /\ edge_rep T (snd ab) y
        | _ => r = Panic
        end).
    Proof.
      intros ok h. induction h as [|h IH]; intros t1 c1 t2 c2 f1 f2 dv fuel o E1 E2 Hf E Ho; (destruct fuel as [|fuel]; [lia|]);
        cbn [h_range_loop range_loop rh] in *; (st min_edge_t; [exact ok|exact E1|]); (st max_edge_t; [exact ok|exact E2|]);
        pose proof (min_edge_le f1 lo (erase t1)) as L1; pose proof (max_edge_le f2 hi (erase t2)) as L2; rewrite nlen_erase in L1, L2;
        destruct (min_edge qcmp borrow f1 lo (erase t1)) as [i b1]; destruct (max_edge qcmp borrow f2 hi (erase t2)) as [j b2]; cbn [fst snd] in *;
        (destruct (negb dv && (j <? i)); [subst o; apply wp_ret; auto|]);
        (st part_edge; [exact ok|exact E1|intros []|exact L1|]); (st part_edge; [exact ok|exact E2|intros []|exact L2|]).
      - subst o. apply wp_ret. split; [reflexivity|]. do 2 eexists. split; [reflexivity|]. cbn. split; [exists t1, c1, 0, i; auto|exists t2, c2, 0, j; auto].
      - destruct (descend (erase t1) i) as [[e1 g1]|] eqn:D1; [|subst o; destruct Ho as [(? & Ho) | Ho]; discriminate Ho].
        destruct (descend (erase t2) j) as [[e2 g2]|] eqn:D2; [|subst o; destruct Ho as [(? & Ho) | Ho]; discriminate Ho].
        destruct (descend_loc D1) as (t1' & lf1 & Et1 & -> & -> & Hl1). destruct (descend_loc D2) as (t2' & lf2 & Et2 & -> & -> & Hl2).
        rewrite Et1, Et2 in *. cbn [HeapRep.lroot lfill].
        st part_down; [exact ok|exact E1|intros []|exact Hl1|]. st part_down; [exact ok|exact E2|intros []|exact Hl2|].
        apply (IH t1' (lf1 :: c1) t2' (lf2 :: c2)); auto; lia.
    Qed.
    Lemma range_m m2 (m1 : bmap) s hp lo hi : mrep m2 m1 s -> own hp (sres s) -> 
      (exists r, map_range qcmp borrow lo hi m1 = Ret r) \/ map_range qcmp borrow lo hi m1 = Panic ->
      wp (h_range qcmp borrow lo hi m2) hp (fun r hp' => hp' = hp /\
        match map_range qcmp borrow lo hi m1 with
        | Ret r1 => exists r2, r = Ret r2 /\ at_edge s (rfront r1) (xfront r2) /\ at_edge s (rback r1) (xback r2)
        | _ => r = Panic
        end).
    Proof.
      intros (EL & R) O Ho. unfold h_range. unfold map_range in *. destruct (bad_range qcmp lo hi); [apply wp_ret; auto|].
      destruct s as [T|].
      - destruct R as (R1 & R2 & R3). rewrite R1, R3 in *. cbn [rh] in *. apply own_part1 in O.
        set (o := range_loop qcmp borrow lo hi (bheight m1) (erase T) [] (erase T) [] false false false) in *.
        eapply wp_mono; [apply (@range_loop_t T hp lo hi O (bheight m1) T [] T [] false false false _ o); auto|].
        + destruct o as [[x y]| | | |]; [left; eauto|destruct e| now right | |]; destruct Ho as [(? & Ho) | Ho]; discriminate Ho.
        + intros r hp' (-> & Hr). split; [reflexivity|]. destruct o as [[x y]| | | |]; [|exact Hr|exact Hr|exact Hr|exact Hr].
          destruct Hr as (u & v & -> & H1 & H2). eexists. split; [reflexivity|]. auto.
      - destruct R as (R1 & R2 & R3 & R4). rewrite R1, R3, R4 in *. destruct lo, hi; cbn in Ho |- *; (split; [reflexivity|]); (eexists; split; [reflexivity|]; cbn; auto).
    Qed.
  End Range.

  (** ** Comparison *)
  Lemma zip_all_m eqb sa sb Ha Hb fa fb hp : own hp (sres sa) -> own hp (sres sb) -> Ha <= fa -> Hb <= fb ->
    forall n a1 b1 a2 b2 o, irep sa Ha hp a1 a2 hp -> irep sb Hb hp b1 b2 hp -> zip_all eqb n a1 b1 = Ret o ->
    wp (h_zip_all eqb fa fb n a2 b2) hp (fun r hp' => hp' = hp /\ r = o).
  Proof.
    intros Oa Ob Fa Fb n. induction n as [|n IH]; intros a1 b1 a2 b2 o Ra Rb E; cbn [zip_all h_zip_all] in *; [discriminate E|].
    destruct (iter_next a1) as [[x a1']| | | |] eqn:Ea; try discriminate E.
    st wp_mono; [eapply iter_next_m; [exact Oa|exact Fa|exact Ra|exact Ea]|]. intros r hp1 (Or & Ra'). pose proof Ra' as (-> & _).
    destruct x as [u|], r as [[u'|] r2]; cbn [orel fst snd] in *; try contradiction.
    - destruct (iter_next b1) as [[y b1']| | | |] eqn:Eb; try discriminate E.
      st wp_mono; [eapply iter_next_m; [exact Ob|exact Fb|exact Rb|exact Eb]|]. intros r hp1 (Or2 & Rb'). pose proof Rb' as (-> & _).
      destruct y as [v|], r as [[v'|] r3]; cbn [orel fst snd] in *; try contradiction.
      + destruct Or as (<- & _), Or2 as (<- & _). destruct (eqb (fst u) (fst v)).
        * eapply IH; eauto.
        * injection E as <-. apply wp_ret. auto.
      + injection E as <-. apply wp_ret. auto.
    - injection E as <-. apply wp_ret. auto.
  Qed.
  Lemma eq_m eqb ma2 mb2 (ma mb : bmap) sa sb hp o : mrep ma2 ma sa -> mrep mb2 mb sb -> own hp (sres sa) -> own hp (sres sb) ->
    kids any (bheight ma) (bnode ma) -> kids any (bheight mb) (bnode mb) -> blen ma = length (entries ma) -> blen mb = length (entries mb) ->
    map_eq eqb ma mb = Ret o -> wp (h_eq eqb ma2 mb2) hp (fun r hp' => hp' = hp /\ r = o).
  Proof.
    intros Ra Rb Oa Ob Ka Kb La Lb E. unfold h_eq. unfold map_eq, len in E. rewrite (proj1 Ra), (proj1 Rb).
    destruct (blen ma =? blen mb); [|injection E as <-; apply wp_ret; auto].
    destruct (iter_m Ra Oa Ka La) as (ia & Ea & Wa). destruct (iter_m Rb Ob Kb Lb) as (ib & Eb & Wb). rewrite Ea, Eb in E.
    st wp_mono; [exact Wa|]. intros a2 hp' Ia. pose proof Ia as (-> & _). st wp_mono; [exact Wb|]. intros b2 hp' Ib. pose proof Ib as (-> & _).
    eapply zip_all_m; [exact Oa|exact Ob|exact (mrep_height Ra)|exact (mrep_height Rb)|exact Ia|exact Ib|exact E].
  Qed.
  Lemma iter_cmp_m c sa sb Ha Hb fa fb hp : own hp (sres sa) -> own hp (sres sb) -> Ha <= fa -> Hb <= fb ->
    forall n a1 b1 a2 b2 o, irep sa Ha hp a1 a2 hp -> irep sb Hb hp b1 b2 hp -> iter_cmp c n a1 b1 = Ret o ->
    wp (h_iter_cmp c fa fb n a2 b2) hp (fun r hp' => hp' = hp /\ r = o).
  Proof.
    intros Oa Ob Fa Fb n. induction n as [|n IH]; intros a1 b1 a2 b2 o Ra Rb E; cbn [iter_cmp h_iter_cmp] in *; [discriminate E|].
    destruct (iter_next a1) as [[x a1']| | | |] eqn:Ea; try discriminate E.
    st wp_mono; [eapply iter_next_m; [exact Oa|exact Fa|exact Ra|exact Ea]|]. intros r hp1 (Or & Ra'). pose proof Ra' as (-> & _).
    destruct x as [u|], r as [[u'|] r2]; cbn [orel fst snd] in *; try contradiction;
      (destruct (iter_next b1) as [[y b1']| | | |] eqn:Eb; try discriminate E);
      (st wp_mono; [eapply iter_next_m; [exact Ob|exact Fb|exact Rb|exact Eb]|]; intros r hp1 (Or2 & Rb'); pose proof Rb' as (-> & _));
      destruct y as [v|], r as [[v'|] r3]; cbn [orel fst snd] in *; try contradiction;
      try (injection E as <-; apply wp_ret; auto; fail).
    destruct Or as (<- & _), Or2 as (<- & _). destruct (c (fst u) (fst v)) as [[| |]|];
      try (injection E as <-; apply wp_ret; auto; fail). eapply IH; eauto.
  Qed.
  Lemma cmp_m c ma2 mb2 (ma mb : bmap) sa sb hp o : mrep ma2 ma sa -> mrep mb2 mb sb -> own hp (sres sa) -> own hp (sres sb) ->
    kids any (bheight ma) (bnode ma) -> kids any (bheight mb) (bnode mb) -> blen ma = length (entries ma) -> blen mb = length (entries mb) ->
    map_partial_cmp c ma mb = Ret o -> wp (h_cmp c ma2 mb2) hp (fun r hp' => hp' = hp /\ r = o).
  Proof.
    intros Ra Rb Oa Ob Ka Kb La Lb E. unfold h_cmp. unfold map_partial_cmp, len in E. rewrite (proj1 Ra).
    destruct (iter_m Ra Oa Ka La) as (ia & Ea & Wa). destruct (iter_m Rb Ob Kb Lb) as (ib & Eb & Wb). rewrite Ea, Eb in E.
    st wp_mono; [exact Wa|]. intros a2 hp' Ia. pose proof Ia as (-> & _). st wp_mono; [exact Wb|]. intros b2 hp' Ib. pose proof Ib as (-> & _).
    eapply iter_cmp_m; [exact Oa|exact Ob|exact (mrep_height Ra)|exact (mrep_height Rb)|exact Ia|exact Ib|exact E].
  Qed.
End Iter.
