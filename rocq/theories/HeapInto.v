(** * HeapInto: consuming iteration and destruction free every node exactly once. *)
From Coq Require Import List Arith Lia Bool Permutation.
From Verif Require Import Base MapSpec IterSpec BTreeModel BTreeInv BTreeLemmas BTreeSearch BTreeInsert BTreeIterModel BTreeIter BTreeStep BTreeIterProofs.
From Verif Require Import BTreeRange BTreeOps BTreeEntry BTreeWrites BTreeBulkModel HistoryModel.
From Verif Require Import HeapModel HeapMapModel HeapArr HeapRep HeapWp HeapNode HeapOps HeapOps2 HeapOps3 HeapOps4 HeapZip HeapRemove HeapSearch HeapInsert HeapRes HeapPart HeapMap HeapIter.
Import ListNotations.
Set Implicit Arguments.
Unset Strict Implicit.

Section Into.
  Variables (K V : Type).
  Notation kv := (K * V)%type.
  Notation cell := (cell K V).
  Notation heap := (heap K V).
  Notation HM := (HM K V).
  Notation ltree := (ltree K V).
  Notation lroot := (@lroot K V).
  Notation erase := (@erase K V).
  Notation bmap := (bmap K V).
  Notation src := (src K V).
  Notation res := (res K V).
  Implicit Types (hp : heap).

  Lemma own_part_ok hp T F : own hp [Part T F] -> part_ok hp T F.
  Proof. intros [H _]. now inversion H. Qed.
  Lemma goes_part hp T : own hp [Root T] -> goes hp [Root T] hp [Part T []].
  Proof.
    intro O. eapply goes_eq; [apply goes_refl; exact O|apply own_part; exact O|]. intro x. unfold rflocs. cbn. now rewrite !app_nil_r, plocs_nil.
  Qed.
  Lemma dead_none_cons F p (c : ctx K V) : dead_none F c -> ~ In p (spine c) -> dead_none (p :: F) c.
  Proof. intros H N q Hq [<- | I]; [exact (N Hq)|exact (H q Hq I)]. Qed.
  Lemma spine_fresh f (c : ctx K V) : ~ In (cpath (f :: c)) (spine c).
  Proof. intro I. pose proof (spine_NoDup (f :: c)) as N. cbn [spine] in N. inversion N. contradiction. Qed.
  Lemma dealloc_cons p l F fr : dealloc_all false (p :: l) F = Some fr -> ~ In p F /\ dealloc_all false l (p :: F) = Some fr.
  Proof.
    cbn [dealloc_all orb]. destruct (freed_mem p F) eqn:E; [discriminate|]. intro H. split; [|exact H].
    intro I. apply freed_mem_In in I. congruence.
  Qed.
  Lemma climb_right_left c : forall h (n : node K V) left s, climb_right h n c left = Some s -> exists new, s_left s = left ++ cpath c :: new.
  Proof.
    induction c as [|f c IH]; intros h n left s E; cbn [climb_right] in E; [discriminate|].
    destruct (fidx f <? nlen (fill f n)).
    - destruct (nth_error (kvs (fill f n)) (fidx f)); [|discriminate]. destruct (descend (fill f n) (fidx f + 1)) as [[e f']|]; [|discriminate].
      destruct (first_leaf_edge h e (f' :: c)); [|discriminate]. injection E as <-. exists []. reflexivity.
    - destruct (IH _ _ _ _ E) as (new & ->). exists (cpath c :: new). now rewrite <- app_assoc.
  Qed.
  Lemma climb_left_left c : forall h (n : node K V) left s, climb_left h n c left = Some s -> exists new, s_left s = left ++ cpath c :: new.
  Proof.
    induction c as [|f c IH]; intros h n left s E; cbn [climb_left] in E; [discriminate|].
    destruct (0 <? fidx f).
    - destruct (nth_error (kvs (fill f n)) (fidx f - 1)); [|discriminate]. destruct (descend (fill f n) (fidx f - 1)) as [[e f']|]; [|discriminate].
      destruct (last_leaf_edge h e (f' :: c)); [|discriminate]. injection E as <-. exists []. reflexivity.
    - destruct (IH _ _ _ _ E) as (new & ->). exists (cpath c :: new). now rewrite <- app_assoc.
  Qed.

  Lemma free_right_t T : forall c h t left s fuel hp F new fr, own hp [Part T F] -> T = lplug t c -> length c <= fuel ->
    climb_right h (erase t) (ectx c) left = Some s -> dead_none F (ectx c) ->
    s_left s = left ++ new -> dealloc_all false new F = Some fr -> dead_none fr (hc (s_edge s)) ->
    wp (h_free_right fuel (NR h (lroot t)) (is_int (les t))) hp (fun r hp' =>
      fst r = s_kv s /\ edge_rep T (s_edge s) (snd r) /\ goes hp [Part T F] hp' [Part T fr]).
  Proof.
    intros c. induction c as [|f c IH]; intros h t left s fuel hp F new fr O E Hf Hc A Hl Hd As; cbn [ectx map climb_right] in Hc; [discriminate Hc|].
    change (map (@eframe K V) c) with (ectx c) in *. destruct fuel as [|fuel]; [cbn [length] in Hf; lia|]. cbn [h_free_right].
    assert (new = cpath (ectx (f :: c)) :: skipn 1 new) as En.
    { destruct (@climb_right_left (ectx (f :: c)) h (erase t) left s) as (new' & En); [exact Hc|]. rewrite En in Hl. apply app_inv_head in Hl. subst new. reflexivity. }
    rewrite En in Hl, Hd. set (new' := skipn 1 new) in *. clearbody new'. clear En new. apply dealloc_cons in Hd as (Na & Hd).
    st part_free; [exact (own_part_ok O)|exact E|exact Na|]. intros hp1 G1. cbn [lpar]. st wp_option; [reflexivity|].
    pose proof (own_part_ok (go_own G1)) as ok1. set (F1 := cpath (ectx (f :: c)) :: F) in *.
    assert (dead_none F1 (ectx c)) as A1.
    { apply dead_none_cons; [exact (dead_none_tl A)|apply spine_fresh]. }
    rewrite <- erase_fill, fidx_eframe in Hc. change (lfl f) with (lroot (lfill f t)).
    st part_right_kv; [exact ok1|exact E|exact (dead_none_self A1)|]. rewrite nlen_erase in Hc.
    destruct (length (lfa f) <? length (lks (lfill f t))) eqn:Ei.
    - rewrite kvs_erase in Hc. destruct (nth_error (lks (lfill f t)) (length (lfa f))) as [x|] eqn:Ex; [|discriminate Hc].
      destruct (descend (erase (lfill f t)) (length (lfa f) + 1)) as [[e f']|] eqn:Ed; [|discriminate Hc].
      destruct (first_leaf_edge h e (f' :: ectx c)) as [hd|] eqn:Ef; [|discriminate Hc]. injection Hc as <-. cbn [s_kv s_addr s_edge s_left] in *.
      apply app_inv_head in Hl. injection Hl as <-. cbn [dealloc_all] in Hd. injection Hd as <-.
      destruct (descend_loc Ed) as (e' & lf & Et & -> & -> & Hl). apply Nat.ltb_lt in Ei.
      assert (lroot (lfill f t) = lfl lf) as Rl by (rewrite Et; reflexivity).
      st part_read_kv; [exact ok1|exact E|exact (dead_none_self A1)|exact Ex|]. unfold right_edge. cbn [fst snd].
      st part_edge; [exact ok1|exact E|exact (dead_none_self A1)|lia|]. rewrite Rl. cbn [lplug] in E. rewrite Et in E.
      st part_down; [exact ok1|exact E|exact (dead_none_self A1)|exact Hl|]. cbn [rh].
      st wp_mono; [eapply part_first_leaf with (c := lf :: c); [exact ok1|exact E| |exact Ef|exact As]; lia|]. cbn beta. intros r hp' [-> R].
      apply wp_ret. cbn [fst snd]. split; [reflexivity|]. split; [exact R|exact G1].
    - assert (is_int (les (lfill f t)) = true) as Hi by (cbn; now destruct (lfa f)).
      rewrite <- Hi. eapply wp_mono; [eapply (IH (S h) (lfill f t)); [exact (go_own G1)|exact E|cbn [length] in Hf; lia|exact Hc|exact A1| |exact Hd|exact As]|].
      + rewrite <- app_assoc. exact Hl.
      + intros r hp' (E1 & E2 & G2). split; [exact E1|]. split; [exact E2|]. exact (goes_trans G1 G2).
  Qed.
  Lemma free_left_t T : forall c h t left s fuel hp F new fr, own hp [Part T F] -> T = lplug t c -> length c <= fuel ->
    climb_left h (erase t) (ectx c) left = Some s -> dead_none F (ectx c) ->
    s_left s = left ++ new -> dealloc_all false new F = Some fr -> dead_none fr (hc (s_edge s)) ->
    Forall (fun f => length (lfa f) <= length (lfk f)) c ->
    wp (h_free_left fuel (NR h (lroot t)) (is_int (les t))) hp (fun r hp' =>
      fst r = s_kv s /\ edge_rep T (s_edge s) (snd r) /\ goes hp [Part T F] hp' [Part T fr]).
  Proof.
    intros c. induction c as [|f c IH]; intros h t left s fuel hp F new fr O E Hf Hc A Hl Hd As Fr; cbn [ectx map climb_left] in Hc; [discriminate Hc|].
    change (map (@eframe K V) c) with (ectx c) in *. destruct fuel as [|fuel]; [cbn [length] in Hf; lia|]. cbn [h_free_left].
    assert (new = cpath (ectx (f :: c)) :: skipn 1 new) as En.
    { destruct (@climb_left_left (ectx (f :: c)) h (erase t) left s) as (new' & En); [exact Hc|]. rewrite En in Hl. apply app_inv_head in Hl. subst new. reflexivity. }
    rewrite En in Hl, Hd. set (new' := skipn 1 new) in *. clearbody new'. clear En new. apply dealloc_cons in Hd as (Na & Hd).
    st part_free; [exact (own_part_ok O)|exact E|exact Na|]. intros hp1 G1. cbn [lpar]. st wp_option; [reflexivity|].
    pose proof (own_part_ok (go_own G1)) as ok1. set (F1 := cpath (ectx (f :: c)) :: F) in *.
    assert (dead_none F1 (ectx c)) as A1.
    { apply dead_none_cons; [exact (dead_none_tl A)|apply spine_fresh]. }
    inversion Fr as [|? ? Fr1 Fr2]; clear Fr; subst x l.
    rewrite <- erase_fill, fidx_eframe in Hc. change (lfl f) with (lroot (lfill f t)).
    st part_left_kv; [exact ok1|exact E|exact (dead_none_self A1)|exact Fr1|].
    destruct (0 <? length (lfa f)) eqn:Ei.
    - rewrite kvs_erase in Hc. destruct (nth_error (lks (lfill f t)) (length (lfa f) - 1)) as [x|] eqn:Ex; [|discriminate Hc].
      destruct (descend (erase (lfill f t)) (length (lfa f) - 1)) as [[e f']|] eqn:Ed; [|discriminate Hc].
      destruct (last_leaf_edge h e (f' :: ectx c)) as [hd|] eqn:Ef; [|discriminate Hc]. injection Hc as <-. cbn [s_kv s_addr s_edge s_left] in *.
      apply app_inv_head in Hl. injection Hl as <-. cbn [dealloc_all] in Hd. injection Hd as <-.
      destruct (descend_loc Ed) as (e' & lf & Et & -> & -> & Hl). apply Nat.ltb_lt in Ei.
      assert (lroot (lfill f t) = lfl lf) as Rl by (rewrite Et; reflexivity).
      st part_read_kv; [exact ok1|exact E|exact (dead_none_self A1)|exact Ex|]. unfold left_edge. cbn [fst snd].
      assert (length (lfa f) - 1 <= length (lks (lfill f t))) as Hk by (cbn [lfill lks]; lia).
      st part_edge; [exact ok1|exact E|exact (dead_none_self A1)|exact Hk|]. rewrite Rl. cbn [lplug] in E. rewrite Et in E.
      st part_down; [exact ok1|exact E|exact (dead_none_self A1)|exact Hl|]. cbn [rh].
      st wp_mono; [eapply part_last_leaf with (c := lf :: c); [exact ok1|exact E| |exact Ef|exact As]; lia|]. cbn beta. intros r hp' [-> R].
      apply wp_ret. cbn [fst snd]. split; [reflexivity|]. split; [exact R|exact G1].
    - assert (is_int (les (lfill f t)) = true) as Hi by (cbn; now destruct (lfa f)).
      rewrite <- Hi. eapply wp_mono; [eapply (IH (S h) (lfill f t)); [exact (go_own G1)|exact E|cbn [length] in Hf; lia|exact Hc|exact A1| |exact Hd|exact As|exact Fr2]|].
      + rewrite <- app_assoc. exact Hl.
      + intros r hp' (E1 & E2 & G2). split; [exact E1|]. split; [exact E2|]. exact (goes_trans G1 G2).
  Qed.

  (** ** The iterator *)
  Definition pres (s : src) (F : list path) : list res := match s with Some T => [Part T F] | None => [] end.
  Definition shared_of (s : src) : bool := match s with Some _ => false | None => true end.
  Definition nrep (s : src) (H : nat) (rs0 : list res) (hp0 : heap) (i1 : into_iter K V) (i2 : hinto) hp : Prop :=
    goes hp0 rs0 hp (pres s (nfreed i1)) /\ (exists a b, into_ok H (tree_of s) (shared_of s) a b i1) /\
    at_edge s (nfront i1) (hfront i2) /\ at_edge s (nback i1) (hback i2) /\ hleft i2 = nleft_ i1.

  Lemma leaf_is_leaf (t : ltree) : kids any 0 (erase t) -> is_int (les t) = false.
  Proof. rewrite (ltree_eta t), erase_eq. cbn. destruct (les t); [reflexivity|]. intro H. inversion H; discriminate. Qed.
  Lemma into_next_m s H fuel r1 r2 rs0 hp0 hp a r1' : H <= fuel -> nrep s H rs0 hp0 r1 r2 hp -> into_next r1 = Ret (a, r1') ->
    wp (h_into_next fuel r2) hp (fun r hp' => orel eq a (fst r) /\ nrep s H rs0 hp0 r1' (snd r) hp').
  Proof.
    intros Hf (G & (p & q & Bt) & Af & Ab & El) E. pose proof (into_next_ok Bt) as Ok.
    assert (exists p q, into_ok H (tree_of s) (shared_of s) p q r1') as Bt'.
    { destruct (p =? q); [destruct Ok as (r' & E' & B')|destruct Ok as (x & r' & E' & _ & _ & B')]; rewrite E in E'; injection E' as _ <-; eauto. }
    unfold h_into_next. rewrite El. unfold into_next in E. destruct (nleft_ r1 =? 0).
    - injection E as <- <-. apply wp_ret. cbn. split; [exact I|]. split; [exact G|]. auto.
    - destruct (spine_alive (nfreed r1) (hc (nfront r1))) eqn:Al; [|discriminate E]. cbn [negb] in E.
      destruct (next_unchecked (nfront r1)) as [st_|] eqn:En; [|discriminate E].
      destruct (dealloc_all (nshared r1) (s_left st_) (nfreed r1)) as [fr|] eqn:Ed; [|discriminate E].
      destruct (spine_alive fr (hc (s_edge st_))) eqn:Al2; [|discriminate E]. injection E as <- <-.
      apply spine_alive_iff in Al. apply spine_alive_iff in Al2. destruct s as [T|].
      2:{ destruct Af as (Ef & _). rewrite Ef in En. discriminate En. }
      pose proof Bt as (((Hok & H0 & Hi) & _) & _ & Esh & _). cbn [rfront shared_of] in Hok, H0, Hi, Esh. rewrite Esh in Ed.
      pose proof Hok as Hok'. apply hok_any in Hok' as (_ & EH & Kk & _).
      destruct Af as (t & c & h & i & ET & Ehd & Er). rewrite Ehd in *. cbn [hh hi hn hc] in *. subst h. rewrite ectx_length in EH.
      rewrite Er. unfold next_unchecked in En. cbn [hi hn hc hh] in En. rewrite nlen_erase, kvs_erase in En. pose proof (own_part_ok (go_own G)) as ok.
      st part_right_kv; [exact ok|exact ET|exact (dead_none_self Al)|].
      destruct (i <? length (lks t)) eqn:Ei.
      + destruct (nth_error (lks t) i) as [x|] eqn:Ex; [|discriminate En]. injection En as <-. cbn [s_kv s_addr s_edge s_left] in *.
        cbn [dealloc_all] in Ed. injection Ed as <-. apply Nat.ltb_lt in Ei.
        st part_read_kv; [exact ok|exact ET|exact (dead_none_self Al)|exact Ex|]. unfold right_edge. cbn [fst snd].
        st part_edge; [exact ok|exact ET|exact (dead_none_self Al)|lia|]. apply wp_ret. cbn [orel fst snd]. split; [reflexivity|].
        split; [exact G|]. split; [exact Bt'|]. cbn. split; [exists t, c, 0, (i + 1); auto|]. auto.
      + pose proof (leaf_is_leaf Kk) as Lf. cbn [fst]. rewrite <- Lf.
        st wp_mono; [eapply (@free_right_t T c 0 t [] st_ fuel hp (nfreed r1) (s_left st_) fr); [exact (go_own G)|exact ET|lia|exact En|exact Al|reflexivity|exact Ed|exact Al2]|].
        intros [x e] hp1 (E1 & E2 & G2). cbn [fst snd] in *. apply wp_ret. cbn [orel fst snd]. split; [congruence|].
        split; [exact (goes_trans G G2)|]. split; [exact Bt'|]. cbn. auto.
  Qed.
  Lemma into_next_back_m s H fuel r1 r2 rs0 hp0 hp a r1' : H <= fuel -> nrep s H rs0 hp0 r1 r2 hp -> into_next_back r1 = Ret (a, r1') ->
    wp (h_into_next_back fuel r2) hp (fun r hp' => orel eq a (fst r) /\ nrep s H rs0 hp0 r1' (snd r) hp').
  Proof.
    intros Hf (G & (p & q & Bt) & Af & Ab & El) E. pose proof (into_next_back_ok Bt) as Ok.
    assert (exists p q, into_ok H (tree_of s) (shared_of s) p q r1') as Bt'.
    { destruct (p =? q); [destruct Ok as (r' & E' & B')|destruct Ok as (x & r' & E' & _ & _ & B')]; rewrite E in E'; injection E' as _ <-; eauto. }
    unfold h_into_next_back. rewrite El. unfold into_next_back in E. destruct (nleft_ r1 =? 0).
    - injection E as <- <-. apply wp_ret. cbn. split; [exact I|]. split; [exact G|]. auto.
    - destruct (spine_alive (nfreed r1) (hc (nback r1))) eqn:Al; [|discriminate E]. cbn [negb] in E.
      destruct (next_back_unchecked (nback r1)) as [st_|] eqn:En; [|discriminate E].
      destruct (dealloc_all (nshared r1) (s_left st_) (nfreed r1)) as [fr|] eqn:Ed; [|discriminate E].
      destruct (spine_alive fr (hc (s_edge st_))) eqn:Al2; [|discriminate E]. injection E as <- <-.
      apply spine_alive_iff in Al. apply spine_alive_iff in Al2. destruct s as [T|].
      2:{ destruct Ab as (Ef & _). rewrite Ef in En. discriminate En. }
      pose proof Bt as ((_ & Lb & _) & _ & Esh & _). cbn [rback shared_of] in Lb, Esh. rewrite Esh in Ed.
      destruct Ab as (t & c & h & i & ET & Ehd & Er). rewrite Ehd in *. pose proof Lb as (Hok & H0 & Hi). cbn [hh hi hn hc] in *. subst h.
      pose proof Hok as Hok'. apply hok_any in Hok' as (_ & EH & Kk & _). cbn [hh hi hn hc] in *. rewrite ectx_length in EH.
      rewrite Er. unfold next_back_unchecked in En. cbn [hi hn hc hh] in En. rewrite kvs_erase in En. rewrite nlen_erase in Hi. pose proof (own_part_ok (go_own G)) as ok.
      st part_left_kv; [exact ok|exact ET|exact (dead_none_self Al)|exact Hi|].
      destruct (0 <? i) eqn:Ei.
      + destruct (nth_error (lks t) (i - 1)) as [x|] eqn:Ex; [|discriminate En]. injection En as <-. cbn [s_kv s_addr s_edge s_left] in *.
        cbn [dealloc_all] in Ed. injection Ed as <-.
        st part_read_kv; [exact ok|exact ET|exact (dead_none_self Al)|exact Ex|]. unfold left_edge. cbn [fst snd].
        st part_edge; [exact ok|exact ET|exact (dead_none_self Al)|lia|]. apply wp_ret. cbn [orel fst snd]. split; [reflexivity|].
        split; [exact G|]. split; [exact Bt'|]. cbn. split; [exact Af|]. split; [exists t, c, 0, (i - 1); auto|]. auto.
      + pose proof (leaf_is_leaf Kk) as Lf. cbn [fst]. rewrite <- Lf.
        st wp_mono; [eapply (@free_left_t T c 0 t [] st_ fuel hp (nfreed r1) (s_left st_) fr); [exact (go_own G)|exact ET|lia|exact En|exact Al|reflexivity|exact Ed|exact Al2|eapply frames_le; exact Lb]|].
        intros [x e] hp1 (E1 & E2 & G2). cbn [fst snd] in *. apply wp_ret. cbn [orel fst snd]. split; [congruence|].
        split; [exact (goes_trans G G2)|]. split; [exact Bt'|]. cbn. auto.
  Qed.
  Lemma into_iter_m m2 (m1 : bmap) s hp : mrep m2 m1 s -> own hp (sres s) -> kids any (bheight m1) (bnode m1) -> blen m1 = length (entries m1) ->
    exists it, map_into_iter m1 = Ret it /\ wp (h_into_iter m2) hp (fun r hp' => hp' = hp /\ nrep s (bheight m1) (sres s) hp it r hp').
  Proof.
    intros R O Hk HL. destruct (edges_m R O Hk) as (f & b & Ef & Eb & Wf & Wb).
    assert (bshared m1 = shared_of s) as Sh by (destruct R as (_ & R); destruct s; tauto).
    destruct (@map_into_iter_ok K V m1 Hk HL) as (it & E & Ok).
    { destruct R as (_ & R); destruct s; [destruct R as (_ & -> & _); discriminate|tauto]. }
    exists it. split; [exact E|]. unfold map_into_iter in E. rewrite Ef, Eb in E. injection E as <-. unfold h_into_iter.
    st wp_mono; [exact Wf|]. intros r hp' (-> & Af). st wp_mono; [exact Wb|]. intros r2 hp' (-> & Ab). apply wp_ret. split; [reflexivity|].
    split; [|rewrite <- (tree_of_m R), <- Sh; split; [eauto|]; cbn; split; [exact Af|]; split; [exact Ab|]; exact (proj1 R)].
    cbn. destruct s as [T|]; [now apply goes_part|now apply goes_refl].
  Qed.
  Lemma drain_m s H fuel rs0 hp0 n : H <= fuel -> forall i1 i2 hp l i1', nrep s H rs0 hp0 i1 i2 hp -> drain n i1 = Ret (l, i1') ->
    wp (h_drain fuel n i2) hp (fun r hp' => fst r = l /\ nrep s H rs0 hp0 i1' (snd r) hp').
  Proof.
    intro Hf. induction n as [|n IH]; intros i1 i2 hp l i1' R E; cbn [drain h_drain] in *;
      (destruct (into_next i1) as [[[x|] i1a]| | | |] eqn:En; try discriminate E);
      (st wp_mono; [eapply into_next_m; [exact Hf|exact R|exact En]|]); intros [[y|] i2a] hp1 (Oy & R1); cbn [orel fst snd] in *; try contradiction.
    - injection E as <- <-. apply wp_ret. auto.
    - destruct (drain n i1a) as [[l' i']| | | |] eqn:Ed; try discriminate E. injection E as <- <-. subst y.
      st wp_mono; [eapply IH; [exact R1|exact Ed]|]. intros r hp2 (<- & R2). apply wp_ret. auto.
    - injection E as <- <-. apply wp_ret. auto.
  Qed.
  Lemma free_spine_t T : forall c h t fuel hp F fr, own hp [Part T F] -> T = lplug t c -> length c < fuel ->
    dealloc_all false (spine (ectx c)) F = Some fr ->
    wp (h_free_spine fuel (NR h (lroot t)) (is_int (les t))) hp (fun _ hp' => goes hp [Part T F] hp' [Part T fr]).
  Proof.
    intros c. induction c as [|f c IH]; intros h t fuel hp F fr O E Hf Hd; (destruct fuel as [|fuel]; [cbn [length] in Hf; lia|]);
      cbn [h_free_spine]; cbn [ectx map spine] in Hd; apply dealloc_cons in Hd as (Na & Hd).
    - st part_free; [exact (own_part_ok O)|exact E|exact Na|]. intros hp1 G1. cbn [lpar]. apply wp_ret. cbn in Hd. injection Hd as <-. exact G1.
    - st part_free; [exact (own_part_ok O)|exact E|exact Na|]. intros hp1 G1. cbn [lpar fst].
      assert (is_int (les (lfill f t)) = true) as Hi by (cbn; now destruct (lfa f)). rewrite <- Hi.
      change (lfl f) with (lroot (lfill f t)). eapply wp_mono; [eapply (IH (S h) (lfill f t)); [exact (go_own G1)|exact E|cbn [length] in Hf; lia|exact Hd]|].
      intros r hp2 G2. exact (goes_trans G1 G2).
  Qed.
  Lemma drop_into_m s H fuel i1 i2 rs0 hp0 hp l fr : H <= fuel -> kids any H (tree_of s) -> nrep s H rs0 hp0 i1 i2 hp -> drop_into_iter i1 = Ret (l, fr) ->
    wp (h_drop_into_iter fuel i2) hp (fun r hp' => r = l /\ goes hp0 rs0 hp' []).
  Proof.
    intros Hf Hk R E. pose proof R as (_ & (p & q & Ok) & _ & _ & El). destruct (drop_into_iter_ok Hk Ok) as (fr' & E' & Pf).
    rewrite E in E'. injection E' as _ <-. unfold drop_into_iter in E.
    destruct (drain (nleft_ i1) i1) as [[l' i1']| | | |] eqn:Ed; try discriminate E. unfold h_drop_into_iter. rewrite El.
    st wp_mono; [eapply drain_m; [exact Hf|exact R|exact Ed]|]. intros [l2 i2'] hp1 (El2 & R1). cbn [fst snd] in *. subst l2.
    destruct R1 as (G & (p' & q' & Ok') & Af & _). pose proof Ok' as ((Lf & _) & _ & Sh & _). rewrite Sh in E. destruct s as [T|]; cbn [shared_of] in *.
    - destruct (dealloc_all false (spine (hc (nfront i1'))) (nfreed i1')) as [fr1|] eqn:Edd; [|discriminate E]. injection E as <- <-.
      destruct Lf as (Hok & H0 & Hi). cbn [rfront] in Hok, H0, Hi. apply hok_any in Hok as (_ & EH & Kk & _).
      destruct Af as (t & c & h & i & ET & Ehd & Er). rewrite Ehd in *. cbn [hh hi hn hc] in *. subst h. rewrite ectx_length in EH. rewrite Er. cbn [fst rl].
      destruct (lroot t =? sroot) eqn:Es.
      + apply Nat.eqb_eq in Es. exfalso. assert (~ In (cpath (ectx c)) (nfreed i1')) as Na.
        { destruct c; cbn [ectx map spine] in Edd; now apply dealloc_cons in Edd. }
        destruct (proj2 (own_part_ok (go_own G)) t c ET Na) as (N & _). exact (N Es).
      + rewrite <- (leaf_is_leaf Kk). st wp_mono; [eapply (@free_spine_t T c 0 t (S fuel)); [exact (go_own G)|exact ET|lia|exact Edd]|].
        intros u hp2 G2. apply wp_ret. split; [reflexivity|]. pose proof (goes_trans G G2) as G3. eapply goes_eq; [exact G3| |].
        * constructor; constructor.
        * intro x. unfold rflocs. cbn. rewrite app_nil_r. split; [|tauto]. apply part_done. intros p0 Hp0. eapply Permutation_in; [symmetry; exact Pf|exact Hp0].
    - destruct Af as (_ & Er). rewrite Er. cbn. injection E as <- <-. split; [reflexivity|]. exact G.
  Qed.
  Lemma drop_m m2 (m1 : bmap) s hp : mrep m2 m1 s -> own hp (sres s) -> kids any (bheight m1) (bnode m1) -> blen m1 = length (entries m1) ->
    exists l fr, drop_map m1 = Ret (l, fr) /\ wp (h_drop m2) hp (fun r hp' => r = l /\ goes hp (sres s) hp' []).
  Proof.
    intros R O Hk HL. destruct (into_iter_m R O Hk HL) as (it & E & W).
    destruct (@map_into_iter_ok K V m1 Hk HL) as (it' & E' & Ok).
    { destruct R as (_ & R); destruct s; [destruct R as (_ & -> & _); discriminate|tauto]. }
    rewrite E in E'. injection E' as <-. destruct (drop_into_iter_ok Hk Ok) as (fr & E2 & _). do 2 eexists.
    split; [unfold drop_map; rewrite E; exact E2|]. unfold h_drop. st wp_mono; [exact W|]. intros i2 hp1 (-> & R1).
    eapply drop_into_m; [exact (mrep_height R)| |exact R1|exact E2]. rewrite <- (tree_of_m R). exact Hk.
  Qed.
End Into.
