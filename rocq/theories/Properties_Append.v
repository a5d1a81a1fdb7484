(** * Properties_Append: what a panicking append leaves behind

    When append panics - a comparison did, or memory was refused - the map that
    was appended to holds a first part of both maps, and the other map is empty.
    Its tree is not balanced, but len() is right, and dropping or clearing the
    map is defined: it frees every node of it, after which the variable can be
    used as any other. *)
From Coq Require Import List Arith Lia Bool Permutation.
From Verif Require Import Base MapSpec IterSpec BTreeModel BTreeInv BTreeLemmas BTreeIterModel BTreeClone HeapModel HistoryModel HistorySpec HistoryProofs HeapMapModel HeapArr HeapRep HeapWp HeapInto HeapRes HeapMap HeapSplit HeapSpec HeapHistory HeapMemory.
From Verif Require Import HeapBorder.
From Verif Require Import HostileModel HostileSpec HostilePure HostileOps HostileAppend HostileHistory ContainSpec ContainProofs.
From Verif Require Import Examples Properties_BTree Properties_History Properties_Heap Properties_Hostile Properties_Contain Properties_Torn Properties_Split.
Import ListNotations.
Set Implicit Arguments.

Section Rough.
  Variables (K V : Type).
  Notation kv := (K * V)%type.
  Notation heap := (heap K V).
  (** [stored] of HeapSpec without the minimal number of entries of a node *)
  Fixpoint rough (hp : heap) (h : nat) (l : loc) (par : option (loc * nat)) (es : list kv) (ls : list loc) : Prop :=
    l <> sroot /\
    exists c ks els, hget hp l = Some c /\
      match h with
      | 0 => cell_ok c false ks els par /\ es = ks /\ ls = [l]
      | Datatypes.S h' => cell_ok c true ks els par /\
          exists parts : list (list kv * list loc),
            length parts = length els /\ es = between (map fst parts) ks /\ ls = l :: concat (map snd parts) /\
            forall i e x, nth_error els i = Some e -> nth_error parts i = Some x -> rough hp h' e (Some (l, i)) (fst x) (snd x)
      end.
  Lemma body_rough hp : forall h (T : ltree K V) par, body hp T -> hung hp (lroot T) par -> kids any h (erase T) ->
    rough hp h (lroot T) par (inorder (erase T)) (locs T).
  Proof.
    induction h as [|h IH]; intros [l ks es] par B (c & G & L) Hk; apply body_eq in B as (N & (c' & G' & C) & B); cbn [lroot] in G;
      rewrite G in G'; apply some_inj in G'; subst c'; cbn [lroot rough].
    - cbn [kids erase edges] in Hk. apply map_eq_nil in Hk. subst es. split; [exact N|]. exists c, ks, []. split; [exact G|].
      split; [now apply cell_spec|]. split; [reflexivity|reflexivity].
    - apply kids_S in Hk as [Hk1 Hk2]. split; [exact N|]. exists c, ks, (map (@lroot K V) es). split; [exact G|].
      cbn [erase edges nlen kvs] in Hk1. rewrite map_length in Hk1. unfold nlen in Hk1. cbn [kvs] in Hk1.
      split. { apply cell_spec; [|exact L]. destruct es; [discriminate Hk1|exact C]. }
      exists (map (fun e => (inorder (erase e), locs e)) es). rewrite !map_length. split; [reflexivity|]. split; [|split].
      + rewrite (inorder_eq (erase _)). cbn [erase edges kvs]. rewrite !map_map. cbn [fst]. apply weave_between. rewrite map_length. exact Hk1.
      + rewrite map_map. cbn [snd]. rewrite locs_eq. unfold flocs. now rewrite flat_map_concat_map.
      + intros i x p E1 E2. rewrite nth_error_map in E1, E2. destruct (nth_error es i) as [e|] eqn:E; [|discriminate E1]. cbn [option_map] in E1, E2.
        apply some_inj in E1. apply some_inj in E2. subst x p. cbn [fst snd]. destruct (kids_nth B E) as [H1 H2].
        cbn [erase edges] in Hk2. rewrite Forall_forall in Hk2. destruct (Hk2 (erase e)) as [F1 F2]. { apply in_map. eapply nth_error_In; eauto. }
        apply IH; auto.
  Qed.
  (** the record [m] is that of a map of the entries [es], whose tree may be unbalanced *)
  Definition rough_map (hp : heap) (m : hmap) (es : list kv) : Prop :=
    mlen m = length es /\ ((mroot m = NR 0 sroot /\ es = []) \/ exists ls, rough hp (rh (mroot m)) (rl (mroot m)) None es ls).
End Rough.

Section Hostile.
  Variables (K V Q W : Type) (nalloc : bool -> W -> option reserve_error * W) (place : heap K V -> W -> loc).
  Variables (kclone : K -> W -> outcome reserve_error K * W) (vclone : V -> W -> outcome reserve_error V * W).
  Notation kv := (K * V)%type.
  Notation heap := (heap K V).
  Variables (kcmp : K -> K -> asks W comparison) (qcmp : Q -> K -> asks W comparison) (qeq qgt : Q -> Q -> asks W bool) (view : bound_ Q -> asks W (bound_ Q)).
  Variables (eqb : kv -> kv -> asks W bool) (pcmp : kv -> kv -> asks W (option comparison)).
  Notation hxstep := (hxstep nalloc place kcmp qcmp qeq qgt view kclone vclone eqb pcmp).
  Notation hxrun := (hxrun nalloc place kcmp qcmp qeq qgt view kclone vclone eqb pcmp).
  Notation lt := (fun _ _ : K => Lt).
  Notation some_panic := (some_panic kcmp qcmp eqb pcmp).
  Notation result := (outcome reserve_error (obs K V) * hregs * heap)%type.
  Notation runs_contained := (runs_contained (K := K) (V := V) (Q := Q) (no_memory nalloc) (cloned kclone vclone) (clone_fails nalloc kclone vclone) some_panic).

  (** the variable [r] holds a tree with the entries [m], of which the program owns the nodes *)
  Definition halfbuilt (D : list nat) (s2 : hregs) (lost : list (res K V)) (r : nat) (m : list kv) : Prop :=
    In r D /\ exists m1 sr Y, mrep (s2 r) m1 sr /\ kids any (bheight m1) (bnode m1) /\ blen m1 = length (entries m1) /\ entries m1 = m /\ Permutation lost (sres sr ++ Y).

  Section Run.
    Hypothesis place_fresh : forall hp w, hget hp (place hp w) = None.

    Lemma append_step r t D s2 s hp (S : nat -> list kv) s1 ss rs lost s2' hp' (w w' : W) :
      ward lt D s2 s hp S s1 ss rs lost -> r <> t -> ~ In r D -> ~ In t D -> hxstep (Append r t) s2 hp w = (Panic, s2', hp', w') ->
      exists T s' s1' ss' rs' lost' m, ward lt (r :: D) s2' s' hp' T s1' ss' rs' lost' /\ halfbuilt (r :: D) s2' lost' r m /\
        partly (S r) (S t) m /\ T t = [] /\ forall i, i <> r -> i <> t -> T i = S i.
    Proof.
      intros Wd Ne Hr Ht E. pose proof Wd as [W1 W2 W3 W4 W5 W6 W7].
      assert (forall i, sound (s1 i)) as Sn by (intros i; destruct (W7 i) as [X _]; exact (proj1 X)).
      assert (forall a b, calm some_panic (kcmp a b)) as Ck by (unfold calm, Properties_Hostile.some_panic; eauto 10).
      destruct (@append_h K V W some_panic kcmp Ck nalloc place place_fresh _ _ _ _ _ _ hp w (W3 r) (W3 t) (own_regs W4 (own_sub W5) Ne) (Sn r) (Sn t))
        as (o & m2' & o2' & m1' & o1' & sm' & so' & hp2 & w2 & lo & Eo & R1 & R2 & G & M).
      rewrite <- (W1 r Hr), <- (W1 t Ht) in Eo. cbn [HostileModel.hxstep] in E. rewrite Eo in E.
      destruct o as [u|e| | |]; try contradiction; [discriminate E|]. cbn [fmap omap] in E. injection E as <- <- <-.
      destruct M as (_ & Hk & Hl & Hp & ->). destruct (W7 r) as [_ Er]. destruct (W7 t) as [_ Et]. rewrite Er, Et in Hp.
      assert (o2' = h_new) as ->.
      { pose proof (f_equal (fun x => snd (fst (fst x))) Eo) as X. cbn [fst snd] in X. rewrite <- X. apply hx_append_other. rewrite Eo. reflexivity. }
      destruct (@ward_harm2 K V lt D s2 s hp S s1 ss rs lost r t hp2 (sres sm' ++ sres so' ++ lo) (hup_ (hup_ s2 r m2') t h_new) (upd S t []) Wd Ne Ht G)
        as (T & sn & s1x & ssx & rsx & lostx & ET & Wd' & ->).
      { intros i Hi Hi2. unfold hup_. destruct (Nat.eqb_spec i t); [contradiction|]. destruct (Nat.eqb_spec i r); [contradiction|reflexivity]. }
      { unfold hup_. now rewrite Nat.eqb_refl. }
      { intros i Hi Hi2. unfold upd. destruct (Nat.eqb_spec i t); congruence. }
      { unfold upd. now rewrite Nat.eqb_refl. }
      exists T, sn, s1x, ssx, rsx, ((sres sm' ++ sres so' ++ lo) ++ lost), (entries m1'). split; [exact Wd'|]. split; [|split; [exact Hp|split]].
      - split; [now left|]. exists m1', sm', ((sres so' ++ lo) ++ lost). split; [|split; [exact Hk|split; [exact Hl|split; [reflexivity|now rewrite <- app_assoc]]]].
        unfold hup_. destruct (Nat.eqb_spec r t); [contradiction|]. now rewrite Nat.eqb_refl.
      - rewrite ET by congruence. unfold upd. now rewrite Nat.eqb_refl.
      - intros i Hi Hi2. rewrite ET by exact Hi. unfold upd. destruct (Nat.eqb_spec i t); congruence.
    Qed.

    Lemma halfbuilt_step c D s2 s hp (S : nat -> list kv) s1 ss rs lost o s2' hp' (w w' : W) r m :
      ward lt D s2 s hp S s1 ss rs lost -> halfbuilt D s2 lost r m -> legal c -> avoids c D -> hxstep c s2 hp w = (o, s2', hp', w') -> o <> Abort -> o <> UB ->
      exists T s' s1' ss' rs' lost', ward lt (suspect c o ++ D) s2' s' hp' T s1' ss' rs' lost' /\ halfbuilt (suspect c o ++ D) s2' lost' r m.
    Proof.
      intros Wd (HD & m1 & sr & Y & M & Hk & Hl & Em & P) Hc Av E Na Nu.
      edestruct careful_step as (T & s' & s1' & ss' & rs' & Y' & Wd'); [exact place_fresh|exact Wd|exact Hc|exact Av|exact E|exact Na|exact Nu|].
      exists T, s', s1', ss', rs', (Y' ++ lost). split; [exact Wd'|]. split; [apply in_or_app; now right|]. exists m1, sr, (Y' ++ Y). split; [|split; [exact Hk|split; [exact Hl|split; [exact Em|]]]].
      - pose proof (@hxstep_touches K V Q W nalloc place kclone vclone kcmp qcmp qeq qgt view eqb pcmp c s2 hp w r) as Ht. rewrite E in Ht. cbn [fst snd] in Ht. rewrite Ht; [exact M|].
        intros I. apply (Av r); [|exact HD]. clear - I. destruct c; cbn [touches mentions In] in *; tauto.
      - rewrite P. apply Permutation_app_swap_app.
    Qed.

    Lemma in_remove_iff (x y : nat) l : In x (List.remove Nat.eq_dec y l) <-> In x l /\ x <> y.
    Proof. clear. split; [intros H; now apply in_remove in H|intros [H N]; now apply in_in_remove]. Qed.

    Lemma halfbuilt_rough D s2 s hp (S : nat -> list kv) s1 ss rs lost r m :
      ward lt D s2 s hp S s1 ss rs lost -> halfbuilt D s2 lost r m -> rough_map hp (s2 r) m.
    Proof.
      intros [W1 W2 W3 W4 W5 W6 W7] (_ & m1 & sr & Y & M & Hk & Hl & <- & P). destruct M as (El & M). split; [congruence|].
      destruct sr as [T|].
      - right. destruct M as (R1 & _ & R3). rewrite R1. cbn [rh rl]. exists (locs T).
        apply own_app in W5 as (_ & O & _). apply (own_perm P) in O. apply own_sub in O. destruct O as [O _]. apply Forall_inv in O. destruct O as [B Hh].
        unfold entries. rewrite R3 in *. now apply body_rough.
      - left. destruct M as (R1 & _ & R3 & _). split; [exact R1|]. unfold entries. now rewrite R3.
    Qed.

    (** dropping it is defined, and gives the variable back *)
    Lemma halfbuilt_drop d D s2 s hp (S : nat -> list kv) s1 ss rs lost r m (w : W) :
      ward lt D s2 s hp S s1 ss rs lost -> halfbuilt D s2 lost r m -> d = New r \/ d = Clear r ->
      exists s2' hp' lost', hxstep d s2 hp w = (Ret (@OUnit K V), s2', hp', w) /\ ward lt (List.remove Nat.eq_dec r D) s2' s hp' (upd S r []) s1 ss rs lost'.
    Proof.
      intros [W1 W2 W3 W4 W5 W6 W7] (HD & m1 & sr & Y & M & Hk & Hl & _ & P) Ed.
      assert (own hp (sres sr ++ rs ++ Y)) as O.
      { eapply own_perm; [|exact W5]. rewrite P. apply Permutation_app_swap_app. }
      destruct (drop_m M (own_sub O) Hk Hl) as (l & fr & _ & Wp). unfold wp in Wp. destruct (h_drop (s2 r) hp) as [[l' hp']|] eqn:Eh; [|contradiction]. destruct Wp as (_ & G).
      pose proof (goes_fst G O) as G1. cbn [app] in G1.
      exists (hup_ s2 r h_new), hp', Y. split.
      - destruct Ed as [-> | ->]; cbn [HostileModel.hxstep]; unfold pure, hbind, hret; rewrite Eh; reflexivity.
      - constructor.
        + intros i Hi. unfold hup_. destruct (Nat.eqb_spec i r) as [->|Ni]; [symmetry; now apply W2|]. apply W1. intros I. apply Hi, in_remove_iff. auto.
        + intros i Hi. apply in_remove_iff in Hi as [Hi _]. now apply W2.
        + exact W3.
        + exact W4.
        + exact (go_own G1).
        + eapply goes_exact; [exact G1|]. intros x Hx Hg. specialize (W6 x Hx Hg). eapply rflocs_perm; [|exact W6].
          rewrite P. apply Permutation_app_swap_app.
        + intros i. unfold upd. destruct (Nat.eqb_spec i r) as [->|]; [|apply W7]. destruct (W7 r) as [Va Ee]. split; [exact Va|].
          destruct (W3 r) as (El & _). rewrite (W2 r HD) in El. cbn in El. destruct Va as [(_ & _ & Hlen) _]. rewrite <- El in Hlen. now apply length_zero_iff_nil.
    Qed.

    Definition state_after (s : hregs) (hp : heap) (res : list result) : hregs * heap := match rev res with [] => (s, hp) | (_, s', hp') :: _ => (s', hp') end.
    Lemma state_after_cons s hp (x : result) res : state_after s hp (x :: res) = state_after (snd (fst x)) (snd x) res.
    Proof.
      clear. unfold state_after. cbn [rev]. destruct (rev res) as [|z l] eqn:E; cbn [app]; [destruct x as [[? ?] ?]; reflexivity|reflexivity].
    Qed.

    Lemma clear_run d r (Ed : d = New r \/ d = Clear r) m ops2 : forall D s2 s hp (S : nat -> list kv) s1 ss rs lost (w : W) res2 rest,
      ward lt D s2 s hp S s1 ss rs lost -> halfbuilt D s2 lost r m -> Forall (@legal K V Q) ops2 -> length res2 = length ops2 -> rest <> [] ->
      careful D ops2 (map (fun x : result => fst (fst x)) res2) -> hxrun (ops2 ++ [d]) s2 hp w = res2 ++ rest ->
      exists T D' s' hp' s0 hp0, D' = left_alone D ops2 (map (fun x : result => fst (fst x)) res2) /\ (s0, hp0) = state_after s2 hp res2 /\
        rest = [(Ret (@OUnit K V), s', hp')] /\ sound_memory lt D' s0 hp0 T /\ rough_map hp0 (s0 r) m /\ s0 r = s2 r /\
        exists sn s1' ss' rs' lost', ward lt (List.remove Nat.eq_dec r D') s' sn hp' (upd T r []) s1' ss' rs' lost'.
    Proof.
      induction ops2 as [|c ops2 IH]; intros D s2 s hp S s1 ss rs lost w res2 rest Wd Hd HL El Ne C E.
      - destruct res2; [|discriminate El]. cbn [app HostileModel.hxrun] in E.
        destruct (halfbuilt_drop w Wd Hd Ed) as (s2' & hp' & lost' & Ex & Wd'). rewrite Ex in E. subst rest.
        exists S, D, s2', hp', s2, hp. split; [reflexivity|]. split; [reflexivity|]. split; [reflexivity|]. split; [exact (ward_memory Wd)|].
        split; [exact (halfbuilt_rough Wd Hd)|]. split; [reflexivity|]. eauto 10.
      - destruct res2 as [|[[o s'] hp'] res2]; [discriminate El|]. cbn [app] in E. apply run_cut in E as (c0 & ops' & w' & Eo & Ex & Er). cbn [app] in Eo. injection Eo as <- <-.
        destruct Er as (Na & Nu & Er); [intros Hn; apply app_eq_nil in Hn as [_ Hn]; contradiction|]. cbn [fst snd] in *.
        cbn [map careful] in C. destruct C as [Av C]. cbn [fst] in C. inversion HL as [|? ? Hc HL']; subst.
        destruct (halfbuilt_step _ Wd Hd Hc Av Ex Na Nu) as (T & sn & s1' & ss' & rs' & lost' & Wd' & Hd').
        destruct (IH _ _ _ _ _ _ _ _ _ _ _ _ Wd' Hd' HL' (f_equal Nat.pred El) Ne C Er) as (T2 & D2 & s3 & hp3 & s0 & hp0 & X1 & X2 & X3 & X4 & X5 & X6 & X7).
        exists T2, D2, s3, hp3, s0, hp0. cbn [map left_alone fst]. split; [exact X1|]. split; [rewrite state_after_cons; exact X2|]. split; [exact X3|]. split; [exact X4|]. split; [exact X5|].
        split; [|exact X7]. rewrite X6. pose proof (@hxstep_touches K V Q W nalloc place kclone vclone kcmp qcmp qeq qgt view eqb pcmp c s2 hp w r) as Ht. rewrite Ex in Ht. apply Ht.
        intros I. apply (Av r); [|exact (proj1 Hd)]. clear - I. destruct c; cbn [touches mentions In] in *; tauto.
    Qed.

    Lemma append_run r t ops1 : forall D s2 s hp (S : nat -> list kv) s1 ss rs lost (w : W) res1 sx hpx,
      ward lt D s2 s hp S s1 ss rs lost -> Forall (@legal K V Q) (ops1 ++ [Append r t]) -> length res1 = length ops1 ->
      careful D (ops1 ++ [Append r t]) (map (fun x : result => fst (fst x)) (res1 ++ [(Panic, sx, hpx)])) ->
      hxrun (ops1 ++ [Append r t]) s2 hp w = res1 ++ [(Panic, sx, hpx)] ->
      exists S' D' s0 hp0, D' = left_alone D ops1 (map (fun x : result => fst (fst x)) res1) /\ (s0, hp0) = state_after s2 hp res1 /\ sound_memory lt D' s0 hp0 S' /\
        exists T s' s1' ss' rs' lost' m, ward lt (r :: D') sx s' hpx T s1' ss' rs' lost' /\ halfbuilt (r :: D') sx lost' r m /\
          partly (S' r) (S' t) m /\ T t = [] /\ forall i, i <> r -> i <> t -> T i = S' i.
    Proof.
      induction ops1 as [|c1 ops1 IH]; intros D s2 s hp S s1 ss rs lost w res1 sx hpx Wd HL El C E.
      - destruct res1; [|discriminate El]. cbn [app] in *. apply run_cut in E as (c0 & ops' & w' & Eo & Ex & Er). injection Eo as <- <-. cbn [fst snd] in *.
        cbn [map careful] in C. destruct C as [Av _]. inversion HL as [|? ? Hc _]; subst.
        exists S, D, s2, hp. split; [reflexivity|]. split; [reflexivity|]. split; [exact (ward_memory Wd)|].
        eapply append_step; [exact Wd|exact Hc|apply Av; now left|apply Av; right; now left|exact Ex].
      - destruct res1 as [|[[o s'] hp'] res1]; [discriminate El|]. cbn [app] in E. apply run_cut in E as (c0 & ops' & w' & Eo & Ex & Er). cbn [app] in Eo. injection Eo as <- <-.
        destruct Er as (Na & Nu & Er); [intros Hx; apply app_eq_nil in Hx as [_ Hx]; discriminate Hx|]. cbn [fst snd] in *.
        cbn [app map careful] in C. destruct C as [Av C]. cbn [fst] in C. cbn [app] in HL. inversion HL as [|? ? Hc HL']; subst.
        edestruct careful_step as (T & sn & s1' & ss' & rs' & Y & Wd'); [exact place_fresh|exact Wd|exact Hc|exact Av|exact Ex|exact Na|exact Nu|].
        destruct (IH _ _ _ _ _ _ _ _ _ _ _ sx hpx Wd' HL' (f_equal Nat.pred El) C Er) as (S' & D' & s0 & hp0 & ED & E0 & Hm & Hx).
        exists S', D', s0, hp0. cbn [map left_alone fst]. split; [exact ED|]. split; [rewrite state_after_cons; exact E0|]. split; [exact Hm|exact Hx].
    Qed.

    (** For every program that has left damaged maps alone and whose last operation is an append to [r] that panicked: let [S] be the lists of
        its maps just before, [D] the maps it leaves alone, [m] some list that weaves together first parts of the two maps.  Whatever the
        program goes on to do with its other maps ([ops2]), [r] then holds the entries [m] in order, in an unbalanced tree, and
        dropping or clearing it is defined; from then on [r] is an empty map and all that the program does is contained. *)
    Theorem C43_append_panics : forall ops1 r t w res1 s hp D s0 hp0,
      Forall (@legal K V Q) (ops1 ++ [Append r t]) ->
      hxrun (ops1 ++ [Append r t]) hstart [] w = res1 ++ [(Panic, s, hp)] -> length res1 = length ops1 ->
      careful [] (ops1 ++ [Append r t]) (map (fun x : result => fst (fst x)) (res1 ++ [(Panic, s, hp)])) ->
      D = left_alone [] ops1 (map (fun x : result => fst (fst x)) res1) -> (s0, hp0) = state_after hstart [] res1 ->
      exists S T m, sound_memory lt D s0 hp0 S /\ partly (S r) (S t) m /\ sound_memory lt (r :: D) s hp T /\ rough_map hp (s r) m /\ T t = [] /\ (forall i, i <> r -> i <> t -> T i = S i) /\
        forall ops2 d w2 res2 rest s3 hp3 D2, Forall (@legal K V Q) ops2 -> d = New r \/ d = Clear r ->
          hxrun (ops2 ++ [d]) s hp w2 = res2 ++ rest -> length res2 = length ops2 -> rest <> [] ->
          careful (r :: D) ops2 (map (fun x : result => fst (fst x)) res2) ->
          (s3, hp3) = state_after s hp res2 -> D2 = left_alone (r :: D) ops2 (map (fun x : result => fst (fst x)) res2) ->
          exists T2 s' hp', rest = [(Ret (@OUnit K V), s', hp')] /\ sound_memory lt D2 s3 hp3 T2 /\ rough_map hp3 (s3 r) m /\
            sound_memory lt (List.remove Nat.eq_dec r D2) s' hp' (upd T2 r []) /\
            forall ops3 w3, Forall (@legal K V Q) ops3 -> runs_contained (List.remove Nat.eq_dec r D2) (upd T2 r []) ops3 (hxrun ops3 s' hp' w3).
    Proof.
      intros ops1 r t w res1 s hp D s0 hp0 HL E El C -> EL.
      edestruct append_run as (S & D' & s9 & hp9 & -> & E9 & Hm & T & s' & s1' & ss' & rs' & lost' & m & Wd & Hd & Hp & Tt & To); [apply start_ward|exact HL|exact El|exact C|exact E|].
      rewrite <- EL in E9. injection E9 as -> ->.
      exists S, T, m. split; [exact Hm|]. split; [exact Hp|]. split; [exact (ward_memory Wd)|]. split; [exact (halfbuilt_rough Wd Hd)|]. split; [exact Tt|]. split; [exact To|].
      intros ops2 d w2 res2 rest s3 hp3 D2 HL2 Ed E2 El2 Ne C2 E3 ->.
      destruct (clear_run Ed _ _ Wd Hd HL2 El2 Ne C2 E2) as (T2 & D' & s4 & hp4 & s5 & hp5 & -> & E5 & -> & Hm2 & Hr2 & _ & sn & s1'' & ss'' & rs'' & lost'' & Wd2).
      rewrite <- E3 in E5. injection E5 as -> ->.
      exists T2, s4, hp4. split; [reflexivity|]. split; [exact Hm2|]. split; [exact Hr2|]. split; [exact (ward_memory Wd2)|].
      intros ops3 w3 HL3. eapply hxrun_contained; eauto.
    Qed.
  End Run.
End Hostile.

(** ** A program that meets this: the even numbers below 16 appended with the odd ones; the comparison panics after 12 of the 16 entries *)
Definition append_before : list (op nat nat nat) :=
  map (fun k => Insert 0 (2 * k) k) (seq 0 8) ++ map (fun k => Insert 1 (2 * k + 1) k) (seq 0 8).
Definition append_after : list (op nat nat nat) := [Len 1; Insert 1 4 4; Len 1].
Example append_outcomes : skipn 16 (srun (append_before ++ Append 0 1 :: append_after ++ [Clear 0; Len 0; Insert 0 7 7; Insert 0 5 5; IntoIter_ 0 [Front; Back]]) 68) =
  [Panic; Ret (ONat 0); Ret (OVal nat None); Ret (ONat 1); Ret (@OUnit nat nat); Ret (ONat 0); Ret (OVal nat None); Ret (OVal nat None); Ret (ODropped [Some (5, 5); Some (7, 7)] [])].
Proof. vm_compute. reflexivity. Qed.
(** the entries it holds: [m] of the theorem *)
Example append_kept : skipn 17 (srun (append_before ++ [Append 0 1; Len 0; IntoIter_ 0 []]) 68) =
  [Ret (ONat 12); Ret (ODropped [] (map (fun k => (k, k / 2)) (seq 0 12)))].
Proof. vm_compute. reflexivity. Qed.
Example append_legal : Forall (@legal nat nat nat) (append_before ++ [Append 0 1]).
Proof. repeat constructor; discriminate. Qed.
Example append_careful : careful [] (append_before ++ [Append 0 1]) (srun (append_before ++ [Append 0 1]) 68) /\
  careful [0] append_after (skipn 17 (srun (append_before ++ Append 0 1 :: append_after) 68)).
Proof. vm_compute. repeat split; intros r H I; repeat (destruct H as [<- |H]); try destruct H; repeat (destruct I as [I|I]; try discriminate I); destruct I. Qed.

Print Assumptions C43_append_panics.
