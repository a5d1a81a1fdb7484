(** * HeapMap: a map in memory stands for a map of the tree model; lookups and
    writes through references. *)
From Coq Require Import List Arith Lia Bool Permutation.
From Verif Require Import Base MapSpec IterSpec BTreeModel BTreeInv BTreeLemmas BTreeSearch BTreeInsert BTreeIterModel BTreeIter BTreeStep BTreeIterProofs.
From Verif Require Import BTreeOps BTreeEntry BTreeWrites.
From Verif Require Import HeapModel HeapMapModel HeapArr HeapRep HeapWp HeapNode HeapOps HeapOps2 HeapOps3 HeapOps4 HeapZip HeapRemove HeapSearch HeapInsert HeapRes HeapPart.
Import ListNotations.
Set Implicit Arguments.
Unset Strict Implicit.

Section Map.
  Variables (K V : Type).
  Notation kv := (K * V)%type.
  Notation cell := (cell K V).
  Notation heap := (heap K V).
  Notation HM := (HM K V).
  Notation ltree := (ltree K V).
  Notation lroot := (@lroot K V).
  Notation erase := (@erase K V).
  Notation bmap := (bmap K V).
  Notation res := (res K V).
  Implicit Types (hp : heap).

  (** the tree that a map owns; [None]: the shared empty root *)
  Definition src := option ltree.
  Definition sres (s : src) : list res := match s with Some T => [Root T] | None => [] end.
  Definition mrep (m2 : hmap) (m1 : bmap) (s : src) : Prop :=
    mlen m2 = blen m1 /\
    match s with
    | Some T => mroot m2 = NR (bheight m1) (lroot T) /\ bshared m1 = false /\ bnode m1 = erase T
    | None => mroot m2 = NR 0 sroot /\ bshared m1 = true /\ bnode m1 = @empty_leaf K V /\ bheight m1 = 0
    end.
  Lemma mrep_new : mrep h_new (@new K V) None.
  Proof. repeat (split; auto). Qed.

  Lemma own_root_owned hp T : own hp [Root T] -> owned hp [T] /\ hung hp (lroot T) None.
  Proof. intro O. apply own_root in O as [O H]. split; [|exact H]. apply own_trees. exact O. Qed.
  Lemma owned_own_root hp T : owned hp [T] -> hung hp (lroot T) None -> own hp [Root T].
  Proof. intros O H. apply own_root. split; [|exact H]. now apply own_trees in O. Qed.
  Lemma goes_root hp T hp' T' : evolves hp [T] hp' [T'] -> hung hp' (lroot T') None -> goes hp [Root T] hp' [Root T'].
  Proof. intros E H. exact (@goes_roots _ _ hp T hp' T' [] E H). Qed.
  Lemma own_part1 hp T : own hp [Root T] -> part_ok hp T [].
  Proof. intro O. apply own_part in O. destruct O as [F _]. now inversion F. Qed.

  (** ** Handles and places *)
  Definition at_edge (s : src) (hd : handle K V) (r : hhandle) : Prop :=
    match s with
    | Some T => edge_rep T hd r
    | None => hd = Handle (@empty_leaf K V) 0 [] 0 /\ r = (NR 0 sroot, 0)
    end.

  Lemma lat_split p : forall (T t : ltree), lat T p = Some t -> exists c, T = lplug t c /\ p = cpath (ectx c).
  Proof.
    induction p as [|j p IH]; intros T t H; cbn [lat] in H.
    - exists []. split; [cbn; congruence|reflexivity].
    - destruct T as [l ks es]; cbn [les] in H. destruct (nth_error es j) as [e|] eqn:E; [|discriminate].
      destruct (IH _ _ H) as (c & -> & ->). apply nth_error_split in E as (a & z & -> & L).
      exists (c ++ [LF l ks a z]). split.
      + rewrite lplug_app. reflexivity.
      + unfold ectx, cpath. rewrite !map_app, rev_app_distr. cbn. unfold fidx; cbn. now rewrite map_length, L.
  Qed.
  Definition at_place (s : src) (a : addr) (p : place_) : Prop :=
    match s with
    | Some T => option_map lroot (lat T (fst a)) = Some (fst p) /\ snd a = snd p
    | None => False
    end.
  Lemma place_at T a p : place_rep T a p -> at_place (Some T) a p.
  Proof.
    intros (t & c & -> & E & E2 & E3). cbn. split; [|exact E3]. rewrite E, <- (app_nil_r (cpath _)), lat_plug. cbn. congruence.
  Qed.
  Lemma at_place_rep T a p : at_place (Some T) a p -> place_rep T a p.
  Proof.
    intros (E & E2). cbn in E. destruct (lat T (fst a)) as [t|] eqn:L; [|discriminate]. cbn in E. injection E as E.
    destruct (lat_split L) as (c & -> & Ep). exists t, c. auto.
  Qed.
  (** the same nodes in the same places *)
  Definition lay (T T' : ltree) : Prop := forall p, option_map lroot (lat T' p) = option_map lroot (lat T p).
  Lemma lay_plug c : forall t t', lay t t' -> lay (lplug t c) (lplug t' c).
  Proof.
    induction c as [|f c IH]; intros t t' H; [exact H|]. cbn [lplug]. apply IH. intro p. destruct p as [|j p]; [reflexivity|].
    cbn [lat les lfill]. destruct (lt_eq_lt_dec j (length (lfa f))) as [[Hj | Hj] | Hj].
    - rewrite !nth_error_app1 by lia. reflexivity.
    - subst j. rewrite !nth_error_app2, !Nat.sub_diag by lia. cbn [nth_error]. apply H.
    - rewrite !nth_error_app2 by lia. destruct (j - length (lfa f)) as [|k] eqn:Ej; [lia|]. reflexivity.
  Qed.
  Lemma lay_place T T' a p : lay T T' -> at_place (Some T) a p -> at_place (Some T') a p.
  Proof. intros H (E & E2). split; [|exact E2]. rewrite H. exact E. Qed.

  (** ** Searching *)
  Lemma search_m q m2 (m1 : bmap) s hp : mrep m2 m1 s -> own hp (sres s) -> kids any (bheight m1) (bnode m1) ->
    wp (h_search_tree (S (rh (mroot m2))) q (mroot m2)) hp (fun r hp' => hp' = hp /\
      ((exists hd x, search q m1 = Some (Found hd) /\ r = HFound x /\ at_edge s hd x /\ hi hd < nlen (hn hd)) \/
       (exists hd x, search q m1 = Some (GoDown hd) /\ r = HGoDown x /\ at_edge s hd x /\ hh hd = 0 /\ hi hd <= nlen (hn hd)))).
  Proof.
    intros (EL & R) O Hk. destruct s as [T|].
    - destruct R as (R1 & R2 & R3). rewrite R1. cbn [rh]. cbn [sres] in O. destruct (own_root_owned O) as (Ow & Hu).
      rewrite R3 in Hk. eapply wp_mono; [apply (@search_t K V q (bheight m1) T hp []); [lia|exact Ow|exact Hk]|].
      intros r hp' (-> & t & c & h & i & ET & EH & [(-> & Hi & D) | (-> & H0 & Hi & D)]); (split; [reflexivity|]).
      + left. exists (Handle (erase t) h (ectx c) i), (NR h (lroot t), i). unfold search. rewrite R3, D, app_nil_r.
        split; [reflexivity|]. split; [reflexivity|]. split; [exists t, c, h, i; auto|]. cbn. now rewrite nlen_erase.
      + right. exists (Handle (erase t) h (ectx c) i), (NR h (lroot t), i). unfold search. rewrite R3, D, app_nil_r.
        split; [reflexivity|]. split; [reflexivity|]. split; [exists t, c, h, i; auto|]. cbn. now rewrite nlen_erase.
    - destruct R as (R1 & R2 & R3 & R4). rewrite R1. cbn. split; [reflexivity|]. right. exists (Handle (@empty_leaf K V) 0 [] 0), (NR 0 sroot, 0).
      unfold search. rewrite R3, R4. cbn. auto.
  Qed.

  Lemma get_m q m2 (m1 : bmap) s hp : mrep m2 m1 s -> own hp (sres s) -> kids any (bheight m1) (bnode m1) ->
    wp (h_get_key_value q m2) hp (fun r hp' => hp' = hp /\ get_key_value q m1 = Ret r).
  Proof.
    intros R O Hk. unfold h_get_key_value. st wp_mono; [apply (search_m q R O Hk)|].
    intros r hp' (-> & [(hd & x & E & -> & A & Hi) | (hd & x & E & -> & A & _ & Hi)]); unfold get_key_value; rewrite E.
    - destruct s as [T|].
      + destruct A as (t & c & h & i & ET & -> & ->). cbn [hi hn] in Hi. rewrite nlen_erase in Hi.
        destruct (nth_error (lks t) i) as [y|] eqn:Ey; [|apply nth_error_None in Ey; lia].
        cbn [sres] in O. apply own_part1 in O. st part_read_kv; [exact O|exact ET|intro H; exact H|exact Ey|]. apply wp_ret.
        split; [reflexivity|]. unfold into_kv. cbn [hn hi]. now rewrite kvs_erase, Ey.
      + destruct A as (-> & _). cbn in Hi. lia.
    - apply wp_ret. auto.
  Qed.

  (** node.rs 1158-1182 *)
  Lemma kv_mut_t T hd x hp : own hp [Root T] -> edge_rep T hd x -> hi hd < nlen (hn hd) ->
    wp (h_kv_mut x) hp (fun p hp' => hp' = hp /\ at_place (Some T) (haddr hd) p).
  Proof.
    intros O (t & c & h & i & ET & -> & ->) Hi. cbn in Hi. apply own_part1 in O. unfold h_kv_mut.
    assert (rl (NR h (lroot t)) <> sroot) as N. { destruct O as [_ O]. destruct (O t c ET (fun H => H)) as (N & _). exact N. }
    st wp_not_shared; [exact N|]. st part_keys; [exact O|exact ET|intro H; exact H|]. st part_vals; [exact O|exact ET|intro H; exact H|].
    apply wp_ret. split; [reflexivity|]. apply place_at. exists t, c. cbn. auto.
  Qed.

  (** ** Writes through references *)
  Lemma write_val_cell l i x (f : V -> V) ka kz (es : list ltree) hp :
    owned hp [LN l (ka ++ x :: kz) es] -> length ka = i ->
    wp (ref_write (l, i) f) hp (fun r hp' =>
      r = snd x /\ evolves hp [LN l (ka ++ x :: kz) es] hp' [LN l (ka ++ write_val f x :: kz) es] /\ keeps hp hp' l).
  Proof.
    intros O Lk. destruct (owned_node O) as (N & (c & G & C) & _). destruct C as [C1 C2 C3 C4 C5 C6].
    pose proof C4 as C4'. rewrite map_app in C4'. cbn [map] in C4'.
    destruct (holds_mid C4') as (V1 & _ & _). rewrite map_length, Lk in V1.
    destruct (@overwrite_holds V _ _ _ i (snd x) (f (snd x)) (map snd ka) (map snd kz) C4') as (va' & Ev & Hva); [apply pick_app'; lens|].
    unfold ref_write. cbn [fst snd].
    st wp_a_read; [hgs|exact V1|]. st wp_a_write; [exact N|hgs|exact Ev|]. intros hp1 U. cbn in U.
    apply wp_ret. split; [reflexivity|]. split.
    - eapply evolves_cell; [exact O|exact U|]. unfold write_val.
      constructor; cbn; auto; rewrite ?map_app in *; auto; [lens|].
      revert C6. destruct (is_int es); intro; [lens|assumption].
    - eapply keeps_hup; [exact G|exact U|reflexivity|reflexivity].
  Qed.
  Lemma write_key_cell l i x k ka kz (es : list ltree) hp :
    owned hp [LN l (ka ++ x :: kz) es] -> length ka = i ->
    wp (ref_write_key (l, i) k) hp (fun r hp' =>
      r = fst x /\ evolves hp [LN l (ka ++ x :: kz) es] hp' [LN l (ka ++ (k, snd x) :: kz) es] /\ keeps hp hp' l).
  Proof.
    intros O Lk. destruct (owned_node O) as (N & (c & G & C) & _). destruct C as [C1 C2 C3 C4 C5 C6].
    pose proof C3 as C3'. rewrite map_app in C3'. cbn [map] in C3'.
    destruct (holds_mid C3') as (V1 & _ & _). rewrite map_length, Lk in V1.
    destruct (@overwrite_holds K _ _ _ i (fst x) k (map fst ka) (map fst kz) C3') as (va' & Ev & Hva); [apply pick_app'; lens|].
    unfold ref_write_key. cbn [fst snd].
    st wp_a_read; [hgs|exact V1|]. st wp_a_write; [exact N|hgs|exact Ev|]. intros hp1 U. cbn in U.
    apply wp_ret. split; [reflexivity|]. split.
    - eapply evolves_cell; [exact O|exact U|].
      constructor; cbn; auto; rewrite ?map_app in *; auto; [lens|].
      revert C6. destruct (is_int es); intro; [lens|assumption].
    - eapply keeps_hup; [exact G|exact U|reflexivity|reflexivity].
  Qed.
  (** a write [m] that does [g] to the pair at a place *)
  Definition writes (A : Type) (m : place_ -> HM A) (g : kv -> kv) (old : kv -> A) : Prop :=
    forall l i x ka kz (es : list ltree) hp, owned hp [LN l (ka ++ x :: kz) es] -> length ka = i ->
       wp (m (l, i)) hp (fun r hp' => r = old x /\ evolves hp [LN l (ka ++ x :: kz) es] hp' [LN l (ka ++ g x :: kz) es] /\ keeps hp hp' l).
  Lemma write_plug (A : Type) (m : place_ -> HM A) (g : kv -> kv) (old : kv -> A) : writes m g old ->
    forall T t c ka x kz hp, own hp [Root T] -> T = lplug t c -> lks t = ka ++ x :: kz ->
    let T' := lplug (LN (lroot t) (ka ++ g x :: kz) (les t)) c in
    wp (m (lroot t, length ka)) hp (fun r hp' => r = old x /\ goes hp [Root T] hp' [Root T']) /\
    update_node (cpath (ectx c)) (length ka) g (erase T) = Some (erase T') /\ lay T T' /\ lroot T' = lroot T.
  Proof.
    intros Hm T t c ka x kz hp O ET Ek T'. destruct (own_root_owned O) as (Ow & Hu). rewrite ET in Ow. pose proof (owned_focus Ow) as Ot.
    destruct t as [l ks es]. cbn [lks HeapRep.lroot les] in *. subst ks. split; [|split; [|split]].
    - eapply wp_mono; [apply (Hm l (length ka) x ka kz es hp Ot eq_refl)|]. intros r hp' (-> & Ev & Ke). split; [reflexivity|].
      destruct (@evolves_plug _ _ hp hp' c _ [] _ [] Ow Ev eq_refl Ke) as (Ev' & Ke').
      subst T. apply goes_root; [exact Ev'|]. unfold T'. rewrite (@lplug_root _ _ c (LN l (ka ++ x :: kz) es)) by reflexivity. apply (keeps_none Ke' Hu).
    - unfold T'. rewrite ET, !erase_plug. rewrite <- (app_nil_r (cpath _)), update_node_plug. cbn [update_node erase_eq].
      rewrite !erase_eq. cbn [kvs edges]. rewrite pick_app' by reflexivity. reflexivity.
    - subst T. apply lay_plug. intros [|q0 q]; reflexivity.
    - subst T. now apply lplug_root.
  Qed.
  Lemma write_t (A : Type) (m : place_ -> HM A) (g : kv -> kv) (old : kv -> A) : writes m g old ->
    forall T a p x hp, own hp [Root T] -> at_place (Some T) a p -> kv_at (erase T) a = Some x ->
    wp (m p) hp (fun r hp' => r = old x /\ exists T', update_node (fst a) (snd a) g (erase T) = Some (erase T') /\
      goes hp [Root T] hp' [Root T'] /\ lay T T' /\ lroot T' = lroot T).
  Proof.
    intros Hm T [pa i] [l j] x hp O A0 Ex. destruct (at_place_rep A0) as (t & c & ET & E & E2 & E3). cbn in E, E2, E3. subst pa l j.
    rewrite ET, erase_plug, <- (app_nil_r (cpath _)), kv_at_plug, kv_at_nil, kvs_erase in Ex.
    apply nth_error_split in Ex as (ka & kz & Ek & <-).
    destruct (write_plug Hm O ET Ek) as (Wp & Un & La & Lr).
    eapply wp_mono; [exact Wp|]. intros r hp' (-> & G). split; [reflexivity|]. eexists. split; [exact Un|]. auto.
  Qed.
  Lemma writes_val f : writes (fun p => ref_write p f) (write_val f) snd.
  Proof. intros l i x ka kz es hp O Lk. now apply write_val_cell. Qed.
  Lemma writes_key k : writes (fun p => ref_write_key p k) (fun e => (k, snd e)) fst.
  Proof. intros l i x ka kz es hp O Lk. now apply write_key_cell. Qed.

  Lemma update_node_some p : forall i g (n n' : node K V), update_node p i g n = Some n' -> exists x, kv_at n (p, i) = Some x.
  Proof.
    induction p as [|j p IH]; intros i g n n' H; cbn [update_node] in H.
    - unfold pick in H. rewrite kv_at_nil. destruct (nth_error (kvs n) i) as [x|]; [eauto|discriminate].
    - unfold pick in H. destruct (nth_error (edges n) j) as [e|] eqn:E; [|discriminate].
      destruct (update_node p i g e) as [e'|] eqn:Eu; [|discriminate]. destruct (IH _ _ _ _ Eu) as (x & Hx).
      exists x. rewrite <- Hx. now apply kv_at_cons.
  Qed.

  (** a write to a map *)
  Lemma write_m (A : Type) (m : place_ -> HM A) (g : kv -> kv) (old : kv -> A) : writes m g old ->
    forall m2 (m1 m1' : bmap) s a p hp, mrep m2 m1 s -> own hp (sres s) -> at_place s a p -> update_at a g m1 = Some m1' ->
    wp (m p) hp (fun r hp' => exists s' x, mrep m2 m1' s' /\ goes hp (sres s) hp' (sres s') /\ (forall a p, at_place s a p -> at_place s' a p) /\
      kv_at (bnode m1) a = Some x /\ r = old x).
  Proof.
    intros Hm m2 m1 m1' s a p hp (EL & R) O P U. destruct s as [T|]; [|destruct P]. destruct R as (R1 & R2 & R3).
    unfold update_at in U. rewrite R3 in U. destruct (update_node (fst a) (snd a) g (erase T)) as [n'|] eqn:Eu; [|discriminate].
    destruct (update_node_some Eu) as (x & Hx). rewrite <- surjective_pairing in Hx. injection U as <-.
    eapply wp_mono; [apply (write_t Hm O P Hx)|]. intros r hp' (-> & T' & Eu' & G & La & Lr). rewrite Eu in Eu'. injection Eu' as ->.
    exists (Some T'), x. split; [split; [exact EL|]; split; [now rewrite Lr|]; split; [exact R2|reflexivity]|]. split; [exact G|]. split; [intros a0 p0; now apply lay_place|].
    split; [now rewrite R3|reflexivity].
  Qed.
  Lemma write_all_m ws1 : forall ws2 m2 (m1 m1' : bmap) s hp, mrep m2 m1 s -> own hp (sres s) ->
    Forall2 (fun x y => at_place s (fst x) (fst y) /\ snd x = snd y) ws1 ws2 -> write_all ws1 m1 = Some m1' ->
    wp (ref_write_all ws2) hp (fun _ hp' => exists s', mrep m2 m1' s' /\ goes hp (sres s) hp' (sres s')).
  Proof.
    induction ws1 as [|[a f] ws1 IH]; intros ws2 m2 m1 m1' s hp R O F U.
    - inversion F; subst. cbn in U |- *. injection U as <-. exists s. split; [exact R|]. now apply goes_refl.
    - inversion F as [|? [p f'] ? ws2' (P & Ef) F']; subst. cbn [fst snd] in *. subst f'. cbn [write_all] in U.
      destruct (update_at a (write_val f) m1) as [m1a|] eqn:E; [|discriminate]. cbn [ref_write_all].
      st wp_mono; [apply (write_m (writes_val f) R O P E)|]. intros r hp1 (s1 & x & R1 & G1 & A1 & _).
      eapply wp_mono; [eapply (IH ws2' m2 m1a m1' s1 hp1 R1 (go_own G1)); [|exact U]|].
      + clear - F' A1. induction F' as [|u v ? ? (H & H') F IH]; constructor; [split; [now apply A1|exact H']|exact IH].
      + intros r2 hp2 (s2 & R2 & G2). exists s2. split; [exact R2|]. exact (goes_trans G1 G2).
  Qed.

  (** map.rs 716-725 *)
  Lemma get_mut_m q m2 (m1 : bmap) s hp : mrep m2 m1 s -> own hp (sres s) -> kids any (bheight m1) (bnode m1) ->
    wp (h_get_mut q m2) hp (fun r hp' => hp' = hp /\
      match r with Some p => exists a, get_mut q m1 = Ret (Some a) /\ at_place s a p | None => get_mut q m1 = Ret None end).
  Proof.
    intros R O Hk. unfold h_get_mut. st wp_mono; [apply (search_m q R O Hk)|].
    intros r hp' (-> & [(hd & x & E & -> & A & Hi) | (hd & x & E & -> & A & _ & Hi)]); unfold get_mut; rewrite E.
    - destruct s as [T|]; [|destruct A as (-> & _); cbn in Hi; lia].
      st wp_mono; [apply (kv_mut_t O A Hi)|]. intros p hp' (-> & P). apply wp_ret. split; [reflexivity|].
      exists (haddr hd). split; [|exact P]. unfold into_kv.
      destruct (nth_error (kvs (hn hd)) (hi hd)) eqn:Ey; [reflexivity|]. apply nth_error_None in Ey. unfold nlen in Hi. lia.
    - apply wp_ret. auto.
  Qed.

  (** ** Removal *)
  Lemma remove_at_m m2 (m1 : bmap) s hd x hp : mrep m2 m1 s -> own hp (sres s) -> hok fair root_fair (bheight m1) (bnode m1) hd ->
    at_edge s hd x -> hi hd < nlen (hn hd) ->
    wp (h_remove_entry_at m2 x) hp (fun r hp' => exists m1' s',
      remove_entry_at m1 hd = (Ret (fst r), m1') /\ mrep (snd r) m1' s' /\ goes hp (sres s) hp' (sres s')).
  Proof.
    intros (EL & R) O Hok A Hi. destruct s as [T|]; [|destruct A as (-> & _); cbn in Hi; lia]. destruct R as (R1 & R2 & R3).
    destruct A as (t & c & h & i & ET & -> & ->). cbn [hi hn] in Hi. rewrite nlen_erase in Hi.
    destruct (nth_error (lks t) i) as [y|] eqn:Ey; [|apply nth_error_None in Ey; lia].
    destruct (own_root_owned O) as (Ow & Hu). pose proof Hok as (_ & EH & _). cbn [hh hc] in EH. rewrite ectx_length in EH.
    unfold h_remove_entry_at. rewrite R1, <- EH. rewrite R3, <- EH in Hok.
    st wp_mono; [apply (remove_kv_t ET Ow Hu Hok Ey)|]. intros r hp' (T' & H' & E & -> & Ev & Hu').
    apply wp_ret. cbn [fst snd]. exists (BMap (bshared m1) (erase T') H' (blen m1 - 1)), (Some T').
    split; [unfold remove_entry_at; now rewrite <- EH, E|]. split; [|now apply goes_root].
    split; [cbn; now rewrite EL|]. split; [reflexivity|]. split; [exact R2|reflexivity].
  Qed.
  Lemma remove_m q m2 (m1 : bmap) s hp : mrep m2 m1 s -> own hp (sres s) -> sound m1 -> cutq q (entries m1) ->
    wp (h_remove_entry q m2) hp (fun r hp' => exists m1' s',
      remove_entry q m1 = (Ret (fst r), m1') /\ mrep (snd r) m1' s' /\ goes hp (sres s) hp' (sres s')).
  Proof.
    intros R O S C. unfold h_remove_entry. pose proof (search_ok S C) as Hs.
    assert (kids any (bheight m1) (bnode m1)) as Hk. { destruct S as (B & _). destruct B as (_ & B). eapply kids_weaken; [|exact B]. unfold any; auto. }
    st wp_mono; [apply (search_m q R O Hk)|].
    intros r hp' (-> & [(hd & x & E & -> & A & Hi) | (hd & x & E & -> & A & _ & Hi)]); rewrite E in Hs.
    - destruct Hs as (Hok & _). st wp_mono; [apply (remove_at_m R O Hok A Hi)|]. intros [y m2'] hp1 (m1' & s' & E1 & R1 & G1).
      apply wp_ret. exists m1', s'. cbn [fst snd] in *. unfold remove_entry. rewrite E, E1. auto.
    - apply wp_ret. exists m1, s. unfold remove_entry. rewrite E. split; [reflexivity|]. split; [exact R|]. now apply goes_refl.
  Qed.
End Map.
