(** * HeapTorn: what happens, in raw memory, to a map whose length exceeds its entries *)
From Coq Require Import List Arith Lia Bool Permutation.
From Verif Require Import Base MapSpec IterSpec BTreeModel BTreeInv BTreeLemmas BTreeSearch BTreeInsert BTreeIterModel BTreeIter BTreeStep BTreeIterProofs BTreeOps BTreeTorn.
From Verif Require Import BTreeRange BTreeEntry BTreeWrites BTreeBulkModel HistoryModel.
From Verif Require Import HeapModel HeapMapModel HeapArr HeapRep HeapWp HeapNode HeapOps HeapOps2 HeapOps3 HeapOps4 HeapZip HeapRemove HeapSearch HeapInsert HeapRes HeapPart HeapMap HeapIter HeapInto.
Import ListNotations.
Set Implicit Arguments.
Unset Strict Implicit.

Section Torn.
  Variables (K V : Type).
  Notation kv := (K * V)%type.
  Notation heap := (HeapModel.heap K V).
  Notation HM := (HM K V).
  Notation ltree := (ltree K V).
  Notation lroot := (@lroot K V).
  Notation erase := (@erase K V).
  Notation bmap := (bmap K V).
  Notation src := (src K V).
  Notation res := (res K V).
  Implicit Types (hp : heap) (T t : ltree) (s : src).

  Lemma none_bind A C (m : HM A) (f : A -> HM C) hp (P : A -> heap -> Prop) :
    wp m hp P -> (forall a hp', P a hp' -> f a hp' = None) -> hbind m f hp = None.
  Proof. unfold wp, hbind. destruct (m hp) as [[a hp']|]; [|contradiction]. auto. Qed.
  Lemma none_fst A C (m : HM A) (f : A -> HM C) hp : m hp = None -> hbind m f hp = None.
  Proof. unfold hbind. now intros ->. Qed.

  (** ** Ascending from the right end frees the whole spine and then has no parent *)
  Lemma free_right_end T : forall c h t fuel hp F, own hp [Part T F] -> T = lplug t c ->
    Forall (@frame_ok K V) (ectx c) -> cafter (ectx c) = [] -> dead_none F (ectx c) ->
    h_free_right fuel (NR h (lroot t)) (is_int (les t)) hp = None.
  Proof.
    intros c. induction c as [|f c IH]; intros h t fuel hp F O E Fr Ec A; (destruct fuel as [|fuel]; [reflexivity|]); cbn [h_free_right].
    - eapply none_bind with (P := fun a _ => a = None); [eapply part_free; [exact (own_part_ok O)|exact E|exact (dead_none_self A)|]; intros hp1 G1; reflexivity|].
      intros a hp1 ->. reflexivity.
    - eapply none_bind with (P := fun a hp1 => a = Some (NR (S h) (lfl f), length (lfa f)) /\ goes hp [Part T F] hp1 [Part T (cpath (ectx (f :: c)) :: F)]).
      { eapply part_free; [exact (own_part_ok O)|exact E|exact (dead_none_self A)|]. intros hp1 G1. split; [reflexivity|exact G1]. }
      intros a hp1 (-> & G1). pose proof (own_part_ok (go_own G1)) as ok1. set (F1 := cpath (ectx (f :: c)) :: F) in *.
      assert (dead_none F1 (ectx c)) as A1.
      { apply dead_none_cons; [exact (dead_none_tl A)|apply spine_fresh]. }
      cbn [ectx map] in Fr, Ec. change (map (@eframe K V) c) with (ectx c) in *. inversion Fr as [|? ? Fr1 Fr2]; clear Fr; subst x l.
      cbn [cafter] in Ec. apply app_eq_nil in Ec as [Ea Ec]. apply after_nil in Ea; [|exact Fr1].
      assert ((length (lfa f) <? length (lks (lfill f t))) = false) as Ei.
      { apply Nat.ltb_ge. rewrite fidx_eframe in Ea. exact Ea. }
      eapply none_bind with (P := fun a hp2 => a = (NR (S h) (lroot (lfill f t)), length (lfa f)) /\ hp2 = hp1); [now apply wp_ret|]. intros a2 hp2 [-> ->].
      eapply none_bind with (P := fun k hp2 => k = None /\ hp2 = hp1).
      { eapply part_right_kv; [exact ok1|exact E|exact (dead_none_self A1)|]. now rewrite Ei. }
      intros k hp2 [-> ->]. cbn [fst].
      assert (is_int (les (lfill f t)) = true) as Hi by (cbn; now destruct (lfa f)).
      rewrite <- Hi. eapply (IH (S h) (lfill f t)); [exact (go_own G1)|exact E|exact Fr2|exact Ec|exact A1].
  Qed.

  (** ** The iterator with another count *)
  Definition hwith (n : nat) (i : hinto) : hinto := HInto (hfront i) (hback i) n.
  Lemma h_next_with fuel n i hp : n <> 0 -> hleft i <> 0 ->
    h_into_next fuel (hwith n i) hp = match h_into_next (K := K) (V := V) fuel i hp with
      | Some (x, i', hp') => Some (x, hwith (n - 1) i', hp') | None => None end.
  Proof.
    intros Hn Hi. unfold h_into_next. cbn [hwith hleft hfront hback]. apply Nat.eqb_neq in Hn, Hi. rewrite Hn, Hi. unfold hbind.
    destruct (right_kv (hfront i) hp) as [[[h|] hp1]|]; [| |reflexivity].
    - destruct (h_into_kv h hp1) as [[x hp2]|]; [|reflexivity]. destruct (right_edge h hp2) as [[re hp3]|]; reflexivity.
    - destruct (h_free_right fuel (fst (hfront i)) false hp1) as [[r hp2]|]; reflexivity.
  Qed.
  Lemma h_next_end T H fuel i1 i2 rs0 hp0 hp n : nrep (Some T) H rs0 hp0 i1 i2 hp ->
    into_ok H (erase T) false (length (inorder (erase T))) (length (inorder (erase T))) i1 -> n <> 0 ->
    h_into_next fuel (hwith n i2) hp = None.
  Proof.
    intros (G & _ & Af & _ & _) (Hb & _ & _ & _ & Pf) Hn. unfold h_into_next. cbn [hwith hleft hfront]. apply Nat.eqb_neq in Hn. rewrite Hn.
    pose proof (front_alive Hb) as Al. pose proof Hb as (Lf & _ & Ep & _). cbn [rfront] in *.
    pose proof (leaf_edge_inorder Lf) as Ein. destruct Lf as (Hok & H0 & Hi). rewrite Ein, !app_length in Ep. unfold pos, nlen in *.
    assert (cafter (hc (nfront i1)) = []) as Ec by (destruct (cafter (hc (nfront i1))); [reflexivity|simpl in Ep; lia]).
    assert (length (kvs (hn (nfront i1))) <= BTreeModel.hi (nfront i1)) as Ei by (rewrite Ec in Ep; cbn [length] in Ep; lia).
    apply hok_any in Hok as (_ & _ & Kk & Hc). apply cok_frames in Hc.
    destruct Af as (t & c & h & i & ET & Ehd & Er). rewrite Ehd in *. cbn [hh BTreeModel.hi hn hc] in *. subst h. rewrite Er.
    assert (dead_none (nfreed i1) (ectx c)) as A.
    { intros q Hq Hin. apply (Al q Hq). eapply Permutation_in; [exact Pf|exact Hin]. }
    pose proof (own_part_ok (go_own G)) as ok. rewrite kvs_erase in Ei.
    eapply none_bind with (P := fun k hp2 => k = None /\ hp2 = hp).
    { eapply part_right_kv; [exact ok|exact ET|exact (dead_none_self A)|]. apply Nat.ltb_ge in Ei. now rewrite Ei. }
    intros k hp2 [-> ->]. cbn [fst]. pose proof (leaf_is_leaf Kk) as Lf. apply none_fst. rewrite <- Lf.
    eapply free_right_end; [exact (go_own G)|exact ET|exact Hc|exact Ec|exact A].
  Qed.
  Lemma h_drain_over T H fuel rs0 hp0 k : H <= fuel -> forall a i1 i2 hp n, nrep (Some T) H rs0 hp0 i1 i2 hp ->
    into_ok H (erase T) false a (length (inorder (erase T))) i1 -> length (inorder (erase T)) - a < n ->
    h_drain fuel k (hwith n i2) hp = None.
  Proof.
    intros Hf. induction k as [|k IH]; intros a i1 i2 hp n R Ok Hn; cbn [h_drain];
      pose proof (into_next_ok Ok) as Hx; pose proof Ok as (Hb & Hl & _); pose proof (between_bound Hb) as Hbd;
      (destruct (Nat.eqb_spec a (length (inorder (erase T)))) as [Ea|Ea];
        [subst a; apply none_fst; eapply h_next_end; [exact R|exact Ok|lia]|]);
      destruct Hx as (x & i1' & E & _ & _ & Ok'); pose proof (into_next_m Hf R E) as Wn;
      (eapply none_bind with (P := fun r hp' => fst r = Some x /\ exists i2', snd r = hwith (n - 1) i2' /\ nrep (Some T) H rs0 hp0 i1' i2' hp');
        [unfold wp in *; rewrite h_next_with; [|lia|]; [|destruct R as (_ & _ & _ & _ & ->); lia];
         destruct (h_into_next fuel i2 hp) as [[[y i2'] hp']|]; [|contradiction]; cbn [fst snd] in *; destruct Wn as (Oy & R');
         destruct y as [y|]; cbn [orel] in Oy; [|contradiction]; subst y; split; [reflexivity|]; exists i2'; split; [reflexivity|exact R']|]);
      intros [y j] hp' (Ey & i2' & Ej & R'); cbn [fst snd] in *; subst y j.
    - reflexivity.
    - apply none_fst. eapply IH; [exact R'|exact Ok'|lia].
  Qed.

  (** dropping a map of which an insertion lost entries *)
  Lemma h_drop_overlong m2 (m1 : bmap) T hp : mrep m2 m1 (Some T) -> own hp [Root T] -> kids any (bheight m1) (bnode m1) ->
    length (entries m1) < blen m1 -> h_drop m2 hp = None.
  Proof.
    intros R O Hk Hl. destruct R as (Rl & Rr & Rs & Rn).
    set (m0 := BMap (bshared m1) (bnode m1) (bheight m1) (length (entries m1))). set (m2' := HMap (mroot m2) (length (entries m1))).
    assert (mrep m2' m0 (Some T)) as R0 by (repeat split; auto).
    destruct (@into_iter_m K V m2' m0 (Some T) hp R0 O Hk eq_refl) as (it & E & Wi).
    destruct (@map_into_iter_ok K V m0 Hk eq_refl) as (it' & E' & Ok); [cbn; congruence|]. rewrite E in E'. injection E' as <-.
    cbn [m0 bnode bheight bshared] in Ok. rewrite Rs, Rn in Ok. unfold m0, entries in Ok. cbn [bnode] in Ok. rewrite Rn in Ok. unfold h_drop.
    eapply none_bind with (P := fun j hp' => exists i2, j = hwith (mlen m2) i2 /\ nrep (Some T) (bheight m1) [Root T] hp it i2 hp').
    { unfold wp in *. unfold h_into_iter, hbind in *. cbn [m2' mroot mlen] in Wi.
      destruct (h_first_leaf_edge (S (rh (mroot m2))) (mroot m2) hp) as [[f hp1]|]; [|contradiction].
      destruct (h_last_leaf_edge (S (rh (mroot m2))) (mroot m2) hp1) as [[b hp2]|]; [|contradiction]. cbn [hret] in *.
      destruct Wi as [-> Wi]. exists (HInto f b (length (entries m1))). split; [reflexivity|exact Wi]. }
    intros j hp' (i2 & -> & N). unfold h_drop_into_iter. apply none_fst. eapply h_drain_over; [|exact N|exact Ok|].
    - rewrite Rr. cbn [rh]. apply le_n.
    - rewrite Rl, Nat.sub_0_r. unfold entries in Hl. rewrite Rn in Hl. exact Hl.
  Qed.

  (** a map of which an insertion lost entries *)
  Definition damaged (m1 : bmap) (s : src) : Prop :=
    s <> None /\ kids any (bheight m1) (bnode m1) /\ length (entries m1) < blen m1.
  Lemma h_drop_damaged m2 (m1 : bmap) s hp : mrep m2 m1 s -> own hp (sres s) -> damaged m1 s -> h_drop m2 hp = None.
  Proof. intros R O (N & Hk & Hl). destruct s as [T|]; [|congruence]. eapply h_drop_overlong; eauto. Qed.
End Torn.
