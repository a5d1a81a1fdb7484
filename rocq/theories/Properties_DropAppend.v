(** * Properties_DropAppend: what an append with a panicking destructor leaves behind

    When append panics - the destructor of a replaced entry did, or memory was
    refused - the map that was appended to holds a first part of the merged
    map, and the other map is empty.  Its tree is not balanced, but len() is
    right, and dropping or clearing the map is defined: it destroys the entries
    in order, after which the variable can be used as any other. *)
From Coq Require Import List Arith Lia Bool Permutation.
From Verif Require Import Base MapSpec MergeSpec IterSpec BTreeModel BTreeInv BTreeLemmas BTreeIterModel BTreeClone HeapModel HistoryModel HistorySpec HistoryProofs HeapMapModel HeapArr HeapRep HeapWp HeapInto HeapRes HeapMap HeapSplit HeapSpec HeapHistory HeapMemory.
From Verif Require Import HeapBorder.
From Verif Require Import DropModel DropSpec DropProofs DropAppend DropHistory ContainSpec ContainProofs.
From Verif Require Import Examples Properties_BTree Properties_BTree2 Properties_History Properties_Heap Properties_Drop Properties_Contain Properties_Split Properties_Append.
Import ListNotations.
Set Implicit Arguments.

Section Lawful.
  Variables (K V Q : Type) (cmp : K -> K -> comparison) (qcmp : Q -> Q -> comparison) (borrow : K -> Q).
  Notation kv := (K * V)%type.
  Notation heap := (heap K V).
  Variables (W : Type) (nalloc : bool -> W -> option reserve_error * W) (place : heap -> W -> loc).
  Variables (kclone : K -> W -> outcome reserve_error K * W) (vclone : V -> W -> outcome reserve_error V * W).
  Variables (eqb : kv -> kv -> bool) (pcmp : kv -> kv -> option comparison).
  Variables (kdrop : K -> W -> bool * W) (vdrop : V -> W -> bool * W).
  Notation hdrun := (hdrun kdrop vdrop nalloc place cmp qcmp borrow kclone vclone eqb pcmp).
  Notation hdstep := (hdstep kdrop vdrop nalloc place cmp qcmp borrow kclone vclone eqb pcmp).
  Notation keeps_going := (keeps_going cmp qcmp borrow eqb pcmp (no_memory nalloc) (cloned kclone vclone) (clone_fails nalloc kclone vclone) kdrop vdrop).
  Notation panics := (panics kdrop vdrop).
  Notation blasts := (blasts kdrop vdrop).
  Notation result := (outcome reserve_error (obs K V) * list kv * hregs * heap)%type.

  Section Run.
    Hypothesis (L1 : ord_laws cmp) (L2 : borrow_laws cmp qcmp borrow).
    Hypothesis L3 : forall k w k' w', kclone k w = (Ret k', w') -> cmp k k' = Eq.
    Hypothesis place_fresh : forall hp w, hget hp (place hp w) = None.

    Lemma suspects (c : op K V Q) D s2 s hp (S : nat -> list kv) s1 ss rs lost (o : outcome reserve_error (obs K V)) :
      ward cmp D s2 s hp S s1 ss rs lost -> exists T s' s1' ss' rs' Y, ward cmp (suspect c o ++ D) s2 s' hp T s1' ss' rs' (Y ++ lost).
    Proof.
      intros Wd. assert (suspect c o = [] \/ exists r, suspect c o = [r]) as [->|(r & ->)].
      { destruct c; cbn [suspect]; auto; destruct o; eauto. }
      { exists S, s, s1, ss, rs, []. exact Wd. }
      pose proof Wd as [W1 W2 W3 W4 W5 W6 W7].
      edestruct ward_harm as (T & s' & s1' & ss' & rs' & lost' & ET & Wd' & ->).
      - exact Wd.
      - apply (@goes_refl K V hp (sres (ss r))). exact (own_reg W4 (own_sub W5) r).
      - intros i _. reflexivity.
      - intros i _. reflexivity.
      - exists T, s', s1', ss', rs', (sres (ss r)). exact Wd'.
    Qed.

    Lemma careful_step_d c D s2 s hp (S : nat -> list kv) s1 ss rs lost o l s2' hp' (w w' : W) :
      ward cmp D s2 s hp S s1 ss rs lost -> legal c -> avoids c D -> hdstep c s2 hp w = (o, l, s2', hp', w') -> o <> Abort -> o <> UB ->
      exists T s' s1' ss' rs' Y, ward cmp (suspect c o ++ D) s2' s' hp' T s1' ss' rs' (Y ++ lost).
    Proof.
      intros Wd Hc Av E2 Na Nu. pose proof Wd as [W1 W2 W3 W4 W5 W6 W7].
      pose proof (@step_fine_d K V Q cmp qcmp borrow L1 L2 W nalloc place place_fresh kclone vclone L3 eqb pcmp kdrop vdrop s1 s ss rs hp S W3 W4 (own_sub W5) W7 c w Hc) as HF.
      destruct (@hdstep_agree K V Q cmp qcmp borrow W nalloc place kclone vclone eqb pcmp kdrop vdrop c s2 s hp w) as (A1 & A2 & A3 & A4); [intros r Hr; apply W1, Av; exact Hr|].
      assert (forall i, In i D -> snd (fst (fst (hdstep c s hp w))) i = h_new) as New.
      { intros i Hi. rewrite <- (W2 i Hi). apply hdstep_touches. intros I. apply (Av i); [|exact Hi]. clear - I. destruct c; cbn [touches mentions In] in *; tauto. }
      rewrite E2 in A1, A2, A3, A4. destruct (hdstep c s hp w) as [[[[ov lv] sv] hpv] wv]. cbn [fst snd] in A1, A2, A3, A4, New. injection A1 as <- <-. subst hpv wv.
      assert (forall S' lo, kept_ok cmp S' sv hp rs hp' lo -> exists T s' s1' ss' rs' Y, ward cmp (suspect c o ++ D) s2' s' hp' T s1' ss' rs' (Y ++ lost)) as Keep.
      { intros S' lo (s1' & ss' & rs' & RS' & R' & H' & G). pose proof (goes_fst G W5) as G1. rewrite <- app_assoc in G1.
        assert (ward cmp D s2' sv hp' S' s1' ss' rs' (lo ++ lost)) as Wd'. { constructor; auto. - exact (go_own G1). - exact (goes_exact G1 W6). }
        destruct (suspects c o Wd') as (T & s' & s1'' & ss'' & rs'' & Y & Wd''). exists T, s', s1'', ss'', rs'', (Y ++ lo). rewrite <- app_assoc. exact Wd''. }
      cbn [fine_d] in HF.
      inversion HF as [o0 l0 sx hx S' HS El _ _ Kp E1 E3 E4 E5|l0 x kept sx hx S' lo a Hr HS Hd Hp Kp E1 E3 E4 E5|o0 l0 sx hx S' HS Ho E1 E3 E4 E5|l0 sx hx HB E1 E3 E4 E5|o0 l0 sx hx HG HT E1 E3 E4 E5|r t l0 kept sx hx Ec HB Pm HT E1 E3 E4 E5]; subst.
      - exact (Keep _ _ Kp).
      - exact (Keep _ _ Kp).
      - destruct Ho; congruence.
      - congruence.
      - destruct c; cbn [HistorySpec.gave_up] in HG; try contradiction;
          try (destruct HG as (e & -> & _); cbn [suspect];
               destruct (harm_one_d nalloc place kclone vclone eqb pcmp kdrop vdrop L1 L2 L3 place_fresh _ _ Wd Hc eq_refl (Av r (or_introl eq_refl)) E2 Na Nu) as (T & s' & s1' & ss' & rs' & lost' & ET & Wd' & Y & ->);
               exists T, s', s1', ss', rs', Y; exact Wd').
        all: destruct HG as [-> HG]; cbn [suspect].
        all: first [ destruct (harm_one_d nalloc place kclone vclone eqb pcmp kdrop vdrop L1 L2 L3 place_fresh _ _ Wd Hc eq_refl (Av r (or_introl eq_refl)) E2 Na Nu) as (T & s' & s1' & ss' & rs' & lost' & ET & Wd' & Y & ->);
                     exists T, s', s1', ss', rs', Y; exact Wd'
                   | destruct (harm_append_d nalloc place kclone vclone eqb pcmp kdrop vdrop L1 L2 L3 place_fresh _ Wd Hc (Av r (or_introl eq_refl)) (Av _ (or_intror (or_introl eq_refl))) E2) as (T & s' & s1' & ss' & rs' & lost' & Et & ET & Wd' & Y & ->);
                     exists T, s', s1', ss', rs', Y; exact Wd' ].
      - destruct (harm_append_d nalloc place kclone vclone eqb pcmp kdrop vdrop L1 L2 L3 place_fresh _ Wd Hc (Av r (or_introl eq_refl)) (Av _ (or_intror (or_introl eq_refl))) E2) as (T & s' & s1' & ss' & rs' & lost' & Et & ET & Wd' & Y & ->).
        exists T, s', s1', ss', rs', Y. exact Wd'.
    Qed.

    Lemma append_step_d r t D s2 s hp (S : nat -> list kv) s1 ss rs lost l s2' hp' (w w' : W) :
      ward cmp D s2 s hp S s1 ss rs lost -> r <> t -> ~ In r D -> ~ In t D -> hdstep (Append r t) s2 hp w = (Panic, l, s2', hp', w') ->
      exists T s' s1' ss' rs' lost' m tail, ward cmp (r :: D) s2' s' hp' T s1' ss' rs' lost' /\ halfbuilt (r :: D) s2' lost' r m /\
        s_append cmp (S r) (S t) = m ++ tail /\ Permutation (S r ++ S t) (m ++ l) /\ (blasts l 1 \/ exists e, no_memory nalloc e) /\
        T t = [] /\ forall i, i <> r -> i <> t -> T i = S i.
    Proof.
      intros Wd Ne Hr Ht E. pose proof Wd as [W1 W2 W3 W4 W5 W6 W7].
      destruct (W7 r) as [[Sr Or] Er]. destruct (W7 t) as [[St Ot] Et].
      destruct (@append_d K V W kdrop vdrop cmp nalloc place place_fresh _ _ _ _ _ _ hp w (W3 r) (W3 t) (own_regs W4 (own_sub W5) Ne) Sr St)
        as (o & log & m2' & o2' & hp2 & w2 & Eo & M).
      rewrite <- (W1 r Hr), <- (W1 t Ht) in Eo. cbn [DropModel.hdstep] in E. rewrite Eo in E.
      destruct o as [u|e| | |]; try contradiction; [discriminate E| |discriminate E]. cbn [fmap omap] in E. injection E as <- <- <- <-.
      destruct M as (m1' & o1' & sm' & so' & lo & R1 & R2 & G & U & P & Hk & Hl & Eo1 & -> & _ & tail & Em).
      rewrite merge2_append in Em by (eassumption || (rewrite ?Er, ?Et; assumption)). rewrite Er, Et in *.
      destruct (@ward_harm2 K V cmp D s2 s hp S s1 ss rs lost r t hp2 (sres sm' ++ sres so' ++ lo) (hup_ (hup_ s2 r m2') t h_new) (upd S t []) Wd Ne Ht G)
        as (T & sn & s1x & ssx & rsx & lostx & ET & Wd' & ->).
      { intros i Hi Hi2. unfold hup_. destruct (Nat.eqb_spec i t); [contradiction|]. destruct (Nat.eqb_spec i r); [contradiction|reflexivity]. }
      { unfold hup_. now rewrite Nat.eqb_refl. }
      { intros i Hi Hi2. unfold upd. destruct (Nat.eqb_spec i t); congruence. }
      { unfold upd. now rewrite Nat.eqb_refl. }
      exists T, sn, s1x, ssx, rsx, ((sres sm' ++ sres so' ++ lo) ++ lost), (entries m1'), tail. split; [exact Wd'|]. split; [|split; [exact Em|split; [exact P|split; [exact U|split]]]].
      - split; [now left|]. exists m1', sm', ((sres so' ++ lo) ++ lost). split; [|split; [exact Hk|split; [exact Hl|split; [reflexivity|now rewrite <- app_assoc]]]].
        unfold hup_. destruct (Nat.eqb_spec r t); [contradiction|]. now rewrite Nat.eqb_refl.
      - rewrite ET by congruence. unfold upd. now rewrite Nat.eqb_refl.
      - intros i Hi Hi2. rewrite ET by exact Hi. unfold upd. destruct (Nat.eqb_spec i t); congruence.
    Qed.

    Lemma halfbuilt_step_d c D s2 s hp (S : nat -> list kv) s1 ss rs lost o l s2' hp' (w w' : W) r m :
      ward cmp D s2 s hp S s1 ss rs lost -> halfbuilt D s2 lost r m -> legal c -> avoids c D -> hdstep c s2 hp w = (o, l, s2', hp', w') -> o <> Abort -> o <> UB ->
      exists T s' s1' ss' rs' lost', ward cmp (suspect c o ++ D) s2' s' hp' T s1' ss' rs' lost' /\ halfbuilt (suspect c o ++ D) s2' lost' r m /\ s2' r = s2 r.
    Proof.
      intros Wd (HD & m1 & sr & Y & M & Hk & Hl & Em & P) Hc Av E Na Nu.
      destruct (careful_step_d _ Wd Hc Av E Na Nu) as (T & s' & s1' & ss' & rs' & Y' & Wd').
      assert (s2' r = s2 r) as Er.
      { pose proof (@hdstep_touches K V Q cmp qcmp borrow W nalloc place kclone vclone eqb pcmp kdrop vdrop c s2 hp w r) as Ht. rewrite E in Ht. cbn [fst snd] in Ht. apply Ht.
        intros I. apply (Av r); [|exact HD]. clear - I. destruct c; cbn [touches mentions In] in *; tauto. }
      exists T, s', s1', ss', rs', (Y' ++ lost). split; [exact Wd'|]. split; [|exact Er]. split; [apply in_or_app; now right|]. exists m1, sr, (Y' ++ Y).
      split; [rewrite Er; exact M|split; [exact Hk|split; [exact Hl|split; [exact Em|]]]]. rewrite P. apply Permutation_app_swap_app.
    Qed.

    Lemma halfbuilt_rough_d D s2 s hp (S : nat -> list kv) s1 ss rs lost r m :
      ward cmp D s2 s hp S s1 ss rs lost -> halfbuilt D s2 lost r m -> rough_map hp (s2 r) m.
    Proof.
      intros [W1 W2 W3 W4 W5 W6 W7] (_ & m1 & sr & Y & M & Hk & Hl & <- & P). destruct M as (El & M). split; [congruence|].
      destruct sr as [T|].
      - right. destruct M as (R1 & _ & R3). rewrite R1. cbn [rh rl]. exists (locs T).
        apply own_app in W5 as (_ & O & _). apply (own_perm P) in O. apply own_sub in O. destruct O as [O _]. apply Forall_inv in O. destruct O as [B Hh].
        unfold entries. rewrite R3 in *. now apply body_rough.
      - left. destruct M as (R1 & _ & R3 & _). split; [exact R1|]. unfold entries. now rewrite R3.
    Qed.

    (** what dropping the entries [m] can come to: they are all destroyed in order; or one destructor panics, and the entries after it are
        never destroyed; or two of them panic *)
    Definition demolished (o : outcome reserve_error (obs K V)) (l m : list kv) : Prop :=
      match o with
      | Ret a => a = @OUnit K V /\ l = m
      | Panic => exists l0 x kept, l = l0 ++ [x] /\ m = l0 ++ x :: kept /\ panics x
      | Abort => blasts l 2
      | _ => False
      end.

    Lemma halfbuilt_drop_d d D s2 s hp (S : nat -> list kv) s1 ss rs lost r m (w : W) :
      ward cmp D s2 s hp S s1 ss rs lost -> halfbuilt D s2 lost r m -> d = New r \/ d = Clear r ->
      exists o l s2' hp' w' lost', hdstep d s2 hp w = (o, l, s2', hp', w') /\ demolished o l m /\ ward cmp (List.remove Nat.eq_dec r D) s2' s hp' (upd S r []) s1 ss rs lost'.
    Proof.
      intros [W1 W2 W3 W4 W5 W6 W7] (HD & m1 & sr & Y & M & Hk & Hl & Em & P) Ed.
      assert (own hp (sres sr ++ rs ++ Y)) as O.
      { eapply own_perm; [|exact W5]. rewrite P. apply Permutation_app_swap_app. }
      destruct (@hd_drop_m K V W kdrop vdrop (s2 r) m1 sr hp w M (own_sub O) Hk Hl) as (o & l & hp' & w' & lo & Eh & G & Ho).
      pose proof (goes_fst G O) as G1.
      exists (fmap (fun _ => @OUnit K V) o), l, (hup_ s2 r h_new), hp', w', (lo ++ Y). split; [|split].
      - destruct Ed as [-> | ->]; cbn [DropModel.hdstep]; unfold hd_assign; rewrite Eh; reflexivity.
      - rewrite Em in Ho. destruct o as [u|e| | |]; try contradiction; cbn [fmap omap demolished]; [split; [reflexivity|apply Ho]|exact Ho|apply Ho].
      - assert (goes hp (sres sr ++ rs ++ Y) hp' (rs ++ lo ++ Y)) as G2.
        { eapply goes_perm; [reflexivity| |exact G1]. apply Permutation_app_swap_app. }
        constructor.
        + intros i Hi. unfold hup_. destruct (Nat.eqb_spec i r) as [->|Ni]; [symmetry; now apply W2|]. apply W1. intros I. apply Hi, in_remove_iff. auto.
        + intros i Hi. apply in_remove_iff in Hi as [Hi _]. now apply W2.
        + exact W3.
        + exact W4.
        + exact (go_own G2).
        + eapply goes_exact; [exact G2|]. intros x Hx Hg. specialize (W6 x Hx Hg). eapply rflocs_perm; [|exact W6].
          rewrite P. apply Permutation_app_swap_app.
        + intros i. unfold upd. destruct (Nat.eqb_spec i r) as [->|]; [|apply W7]. destruct (W7 r) as [Va Ee]. split; [exact Va|].
          destruct (W3 r) as (El & _). rewrite (W2 r HD) in El. cbn in El. destruct Va as [(_ & _ & Hlen) _]. rewrite <- El in Hlen. now apply length_zero_iff_nil.
    Qed.

    Definition state_after_d (s : hregs) (hp : heap) (res : list result) : hregs * heap := match rev res with [] => (s, hp) | (_, s', hp') :: _ => (s', hp') end.
    Lemma state_after_d_cons s hp (x : result) res : state_after_d s hp (x :: res) = state_after_d (snd (fst x)) (snd x) res.
    Proof.
      clear. unfold state_after_d. cbn [rev]. destruct (rev res) as [|z l] eqn:E; cbn [app]; [destruct x as [[? ?] ?]; reflexivity|reflexivity].
    Qed.
    Notation outs := (map (fun x : result => fst (fst (fst x)))).

    Lemma run_cut_d (x : result) rest ops s hp (w : W) : hdrun ops s hp w = x :: rest ->
      exists c ops' w', ops = c :: ops' /\ hdstep c s hp w = (fst (fst (fst x)), snd (fst (fst x)), snd (fst x), snd x, w') /\
        (rest <> [] -> fst (fst (fst x)) <> Abort /\ fst (fst (fst x)) <> UB /\ hdrun ops' (snd (fst x)) (snd x) w' = rest) /\
        (fst (fst (fst x)) <> Abort -> fst (fst (fst x)) <> UB -> hdrun ops' (snd (fst x)) (snd x) w' = rest).
    Proof.
      destruct ops as [|c ops]; [discriminate|]. cbn [DropModel.hdrun]. destruct (hdstep c s hp w) as [[[[o l] s'] hp'] w'] eqn:E. intros H. injection H as <- <-.
      exists c, ops, w'. split; [reflexivity|]. cbn [fst snd]. split; [exact E|]. cbn [fst snd].
      split; [intros Ne; destruct o; try (split; [discriminate|]; split; [discriminate|reflexivity]); exfalso; apply Ne; reflexivity|].
      intros Na Nu. destruct o; congruence.
    Qed.

    Lemma clear_run_d d r (Ed : d = New r \/ d = Clear r) m ops2 : forall D s2 s hp (S : nat -> list kv) s1 ss rs lost (w : W) res2 rest,
      ward cmp D s2 s hp S s1 ss rs lost -> halfbuilt D s2 lost r m -> Forall (@legal K V Q) ops2 -> length res2 = length ops2 -> rest <> [] ->
      careful D ops2 (outs res2) -> hdrun (ops2 ++ [d]) s2 hp w = res2 ++ rest ->
      exists T D' o l s' hp' s0 hp0, D' = left_alone D ops2 (outs res2) /\ (s0, hp0) = state_after_d s2 hp res2 /\
        rest = [(o, l, s', hp')] /\ demolished o l m /\ sound_memory cmp D' s0 hp0 T /\ rough_map hp0 (s0 r) m /\ s0 r = s2 r /\
        exists sn s1' ss' rs' lost', ward cmp (List.remove Nat.eq_dec r D') s' sn hp' (upd T r []) s1' ss' rs' lost'.
    Proof.
      induction ops2 as [|c ops2 IH]; intros D s2 s hp S s1 ss rs lost w res2 rest Wd Hd HL El Ne C E.
      - destruct res2; [|discriminate El]. cbn [app DropModel.hdrun] in E.
        destruct (halfbuilt_drop_d w Wd Hd Ed) as (o & l & s2' & hp' & w' & lost' & Ex & De & Wd'). rewrite Ex in E.
        assert (rest = [(o, l, s2', hp')]) as -> by (subst rest; destruct o; reflexivity).
        exists S, D, o, l, s2', hp', s2, hp. split; [reflexivity|]. split; [reflexivity|]. split; [reflexivity|]. split; [exact De|]. split; [exact (ward_memory Wd)|].
        split; [exact (halfbuilt_rough_d Wd Hd)|]. split; [reflexivity|]. eauto 10.
      - destruct res2 as [|[[[o l] s'] hp'] res2]; [discriminate El|]. cbn [app] in E. apply run_cut_d in E as (c0 & ops' & w' & Eo & Ex & Er & _). cbn [app] in Eo. injection Eo as <- <-.
        destruct Er as (Na & Nu & Er); [intros Hn; apply app_eq_nil in Hn as [_ Hn]; contradiction|]. cbn [fst snd] in *.
        cbn [map careful] in C. destruct C as [Av C]. cbn [fst] in C. inversion HL as [|? ? Hc HL']; subst.
        destruct (halfbuilt_step_d _ Wd Hd Hc Av Ex Na Nu) as (T & sn & s1' & ss' & rs' & lost' & Wd' & Hd' & Es).
        destruct (IH _ _ _ _ _ _ _ _ _ _ _ _ Wd' Hd' HL' (f_equal Nat.pred El) Ne C Er) as (T2 & D2 & o2 & l2 & s3 & hp3 & s0 & hp0 & X1 & X2 & X3 & X3' & X4 & X5 & X6 & X7).
        exists T2, D2, o2, l2, s3, hp3, s0, hp0. cbn [map left_alone fst]. split; [exact X1|]. split; [rewrite state_after_d_cons; exact X2|]. split; [exact X3|]. split; [exact X3'|]. split; [exact X4|]. split; [exact X5|].
        split; [congruence|exact X7].
    Qed.

    Lemma append_run_d r t ops1 : forall D s2 s hp (S : nat -> list kv) s1 ss rs lost (w : W) res1 log sx hpx,
      ward cmp D s2 s hp S s1 ss rs lost -> Forall (@legal K V Q) (ops1 ++ [Append r t]) -> length res1 = length ops1 ->
      careful D (ops1 ++ [Append r t]) (outs (res1 ++ [(Panic, log, sx, hpx)])) ->
      hdrun (ops1 ++ [Append r t]) s2 hp w = res1 ++ [(Panic, log, sx, hpx)] ->
      exists S' D' s0 hp0, D' = left_alone D ops1 (outs res1) /\ (s0, hp0) = state_after_d s2 hp res1 /\ sound_memory cmp D' s0 hp0 S' /\
        exists T s' s1' ss' rs' lost' m tail, ward cmp (r :: D') sx s' hpx T s1' ss' rs' lost' /\ halfbuilt (r :: D') sx lost' r m /\
          s_append cmp (S' r) (S' t) = m ++ tail /\ Permutation (S' r ++ S' t) (m ++ log) /\ (blasts log 1 \/ exists e, no_memory nalloc e) /\
          T t = [] /\ forall i, i <> r -> i <> t -> T i = S' i.
    Proof.
      induction ops1 as [|c1 ops1 IH]; intros D s2 s hp S s1 ss rs lost w res1 log sx hpx Wd HL El C E.
      - destruct res1; [|discriminate El]. cbn [app] in *. apply run_cut_d in E as (c0 & ops' & w' & Eo & Ex & Er & _). injection Eo as <- <-. cbn [fst snd] in *.
        cbn [map careful] in C. destruct C as [Av _]. inversion HL as [|? ? Hc _]; subst.
        exists S, D, s2, hp. split; [reflexivity|]. split; [reflexivity|]. split; [exact (ward_memory Wd)|].
        eapply append_step_d; [exact Wd|exact Hc|apply Av; now left|apply Av; right; now left|exact Ex].
      - destruct res1 as [|[[[o l] s'] hp'] res1]; [discriminate El|]. cbn [app] in E. apply run_cut_d in E as (c0 & ops' & w' & Eo & Ex & Er & _). cbn [app] in Eo. injection Eo as <- <-.
        destruct Er as (Na & Nu & Er); [intros Hx; apply app_eq_nil in Hx as [_ Hx]; discriminate Hx|]. cbn [fst snd] in *.
        cbn [app map careful] in C. destruct C as [Av C]. cbn [fst] in C. cbn [app] in HL. inversion HL as [|? ? Hc HL']; subst.
        destruct (careful_step_d _ Wd Hc Av Ex Na Nu) as (T & sn & s1' & ss' & rs' & Y & Wd').
        destruct (IH _ _ _ _ _ _ _ _ _ _ _ log sx hpx Wd' HL' (f_equal Nat.pred El) C Er) as (S' & D' & s0 & hp0 & ED & E0 & Hm & Hx).
        exists S', D', s0, hp0. cbn [map left_alone fst]. split; [exact ED|]. split; [rewrite state_after_d_cons; exact E0|]. split; [exact Hm|exact Hx].
    Qed.

    Lemma start_ward_d : ward cmp [] hstart hstart [] (nothing K V) (start K V) (fun _ => None) [] [].
    Proof.
      constructor.
      - reflexivity.
      - intros r0 [].
      - intros r0. apply mrep_new.
      - exists 0. split; [reflexivity|constructor].
      - constructor; [constructor|constructor].
      - intros l Hl Hg. apply Hg. unfold hget. destruct (l =? sroot) eqn:E0; [apply Nat.eqb_eq in E0; congruence|reflexivity].
      - apply start_rep.
    Qed.

    (** For every program that has left damaged maps alone and whose last operation is an append to [r] that panicked, whatever the destructors
        do: let [S] be the lists of its maps just before, [D] the maps it leaves alone.  [r] then holds the entries [m], a first part of
        the merged map, in order, in an unbalanced tree; every other entry of the two maps was destroyed, once.  Whatever the program goes on
        to do with its other maps ([ops2]), dropping or clearing [r] then destroys the entries [m] in order and frees the variable for any use; a
        destructor that panics meanwhile ends the destruction, and a second one aborts the process. *)
    Theorem C44_append_panics : forall ops1 r t w res1 log s hp D s0 hp0,
      Forall (@legal K V Q) (ops1 ++ [Append r t]) ->
      hdrun (ops1 ++ [Append r t]) hstart [] w = res1 ++ [(Panic, log, s, hp)] -> length res1 = length ops1 ->
      careful [] (ops1 ++ [Append r t]) (outs (res1 ++ [(Panic, log, s, hp)])) ->
      D = left_alone [] ops1 (outs res1) -> (s0, hp0) = state_after_d hstart [] res1 ->
      exists S T m tail, sound_memory cmp D s0 hp0 S /\ s_append cmp (S r) (S t) = m ++ tail /\ Permutation (S r ++ S t) (m ++ log) /\ (blasts log 1 \/ exists e, no_memory nalloc e) /\
        sound_memory cmp (r :: D) s hp T /\ rough_map hp (s r) m /\ T t = [] /\ (forall i, i <> r -> i <> t -> T i = S i) /\
        forall ops2 d w2 res2 rest s3 hp3 D2, Forall (@legal K V Q) ops2 -> d = New r \/ d = Clear r ->
          hdrun (ops2 ++ [d]) s hp w2 = res2 ++ rest -> length res2 = length ops2 -> rest <> [] ->
          careful (r :: D) ops2 (outs res2) ->
          (s3, hp3) = state_after_d s hp res2 -> D2 = left_alone (r :: D) ops2 (outs res2) ->
          exists T2 o l s' hp', rest = [(o, l, s', hp')] /\ demolished o l m /\ sound_memory cmp D2 s3 hp3 T2 /\ rough_map hp3 (s3 r) m /\
            sound_memory cmp (List.remove Nat.eq_dec r D2) s' hp' (upd T2 r []) /\
            forall ops3 w3, Forall (@legal K V Q) ops3 -> keeps_going (List.remove Nat.eq_dec r D2) (upd T2 r []) ops3 (hdrun ops3 s' hp' w3).
    Proof.
      intros ops1 r t w res1 log s hp D s0 hp0 HL E El C -> EL.
      edestruct append_run_d as (S & D' & s9 & hp9 & -> & E9 & Hm & T & s' & s1' & ss' & rs' & lost' & m & tail & Wd & Hd & Hp & Pm & U & Tt & To); [exact start_ward_d|exact HL|exact El|exact C|exact E|].
      rewrite <- EL in E9. injection E9 as -> ->.
      exists S, T, m, tail. split; [exact Hm|]. split; [exact Hp|]. split; [exact Pm|]. split; [exact U|]. split; [exact (ward_memory Wd)|]. split; [exact (halfbuilt_rough_d Wd Hd)|]. split; [exact Tt|]. split; [exact To|].
      intros ops2 d w2 res2 rest s3 hp3 D2 HL2 Ed E2 El2 Ne C2 E3 ->.
      destruct (clear_run_d Ed _ _ Wd Hd HL2 El2 Ne C2 E2) as (T2 & D' & o & l & s4 & hp4 & s5 & hp5 & -> & E5 & -> & De & Hm2 & Hr2 & _ & sn & s1'' & ss'' & rs'' & lost'' & Wd2).
      rewrite <- E3 in E5. injection E5 as -> ->.
      exists T2, o, l, s4, hp4. split; [reflexivity|]. split; [exact De|]. split; [exact Hm2|]. split; [exact Hr2|]. split; [exact (ward_memory Wd2)|].
      intros ops3 w3 HL3. eapply hdrun_contained; eauto.
    Qed.
  End Run.
End Lawful.

(** ** A program that meets this: [bombed] of Properties_Drop, of which the value 13 panics when it is destroyed *)
Definition before_bomb : list (op nat nat nat) := map (fun k => Insert 0 k (k + 1)) (seq 0 16) ++ [Insert 1 12 100].
Definition after_bomb : list (op nat nat nat) := [Len 1; Insert 1 4 4; Len 1].
Example bombed_outcomes : skipn 17 (outs_ (brun (before_bomb ++ Append 0 1 :: after_bomb ++ [Clear 0; Len 0; Insert 0 7 7; Insert 0 5 5; IntoIter_ 0 [Front; Back]]) hstart [] tt)) =
  [Panic; Ret (ONat 0); Ret (OVal nat None); Ret (ONat 1); Ret (@OUnit nat nat); Ret (ONat 0); Ret (OVal nat None); Ret (OVal nat None); Ret (ODropped [Some (5, 5); Some (7, 7)] [])].
Proof. vm_compute. reflexivity. Qed.
(** the first twelve entries are kept and destroyed by clear, the others by append *)
Example bombed_logs : skipn 17 (logs_ (brun (before_bomb ++ [Append 0 1; Clear 0]) hstart [] tt)) =
  [(12, 13) :: map (fun k => (k, k + 1)) [13; 14; 15] ++ [(12, 100)]; map (fun k => (k, k + 1)) (seq 0 12)].
Proof. vm_compute. reflexivity. Qed.
(** a second such value among the kept ones: clear panics there, and the map is empty and usable all the same *)
Definition two_bombs : list (op nat nat nat) := map (fun k => Insert 0 k (k + 1)) (seq 0 16) ++ [Insert 0 3 13; Insert 1 12 100].
Example two_bombs_outcomes : skipn 18 (outs_ (brun (two_bombs ++ [Append 0 1; Clear 0; Len 0; Insert 0 7 7; Get 0 7]) hstart [] tt)) =
  [Panic; Panic; Ret (ONat 0); Ret (OVal nat None); Ret (OVal nat (Some 7))].
Proof. vm_compute. reflexivity. Qed.
Example two_bombs_logs : skipn 19 (logs_ (brun (two_bombs ++ [Append 0 1; Clear 0]) hstart [] tt)) = [[(0, 1); (1, 2); (2, 3); (3, 13)]].
Proof. vm_compute. reflexivity. Qed.
Example bombed_legal : Forall (@legal nat nat nat) (before_bomb ++ [Append 0 1]).
Proof. repeat constructor; discriminate. Qed.
Example bombed_careful : careful [] (before_bomb ++ [Append 0 1]) (outs_ (brun (before_bomb ++ [Append 0 1]) hstart [] tt)) /\
  careful [0] after_bomb (skipn 18 (outs_ (brun (before_bomb ++ Append 0 1 :: after_bomb) hstart [] tt))).
Proof. vm_compute. repeat split; intros r H I; repeat (destruct H as [<- |H]); try destruct H; repeat (destruct I as [I|I]; try discriminate I); destruct I. Qed.

Print Assumptions C44_append_panics.
