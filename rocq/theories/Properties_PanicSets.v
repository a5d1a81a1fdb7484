(** * Properties_PanicSets: C24 and C43 for programs over sets

    What a refused insertion into a set, or a panicking append or split_off of
    sets, leaves behind: the theorems of Properties_Torn, Properties_Split and
    Properties_Append, for programs that also compare, combine, iterate over and
    build sets. *)
From Coq Require Import List Arith Lia Bool Permutation.
From Verif Require Import Base MapSpec IterSpec SetSpec BTreeModel BTreeInv BTreeLemmas BTreeIterModel BTreeClone HeapModel HistoryModel HistorySpec HistoryProofs HeapMapModel HeapRes HeapMap HeapTorn HeapSplit HeapSpec HeapHistory HeapMemory.
From Verif Require Import HostileModel HostileSpec HostileOps HostileAppend HostileHistory HostileSetModel HostileSetSpec HostileSets HostileSetOps HostileSetHistory ContainSpec ContainProofs ContainSetSpec.
From Verif Require Import Examples Properties_BTree Properties_BTree2 Properties_History Properties_Heap Properties_Hostile Properties_HostileSet Properties_Contain Properties_ContainSet Properties_Torn Properties_Split Properties_Append.
Import ListNotations.
Set Implicit Arguments.

Section HostileSet.
  Variables (T Q W : Type) (nalloc : bool -> W -> option reserve_error * W) (place : heap T unit -> W -> loc).
  Variable tclone : T -> W -> outcome Empty_set T * W.
  Variables (kcmp : T -> T -> asks W comparison) (qcmp : Q -> T -> asks W comparison) (qeq qgt : Q -> Q -> asks W bool) (view : bound_ Q -> asks W (bound_ Q)).
  Variables (eqb : T * unit -> T * unit -> asks W bool) (pcmp : T * unit -> T * unit -> asks W (option comparison)).
  Notation xstep := (xstep kcmp nalloc place tclone qcmp qeq qgt view eqb pcmp).
  Notation xrun := (xrun kcmp nalloc place tclone qcmp qeq qgt view eqb pcmp).
  Notation kc := (xkclone tclone).
  Notation vc := (@xvclone W).
  Notation hxstep := (hxstep nalloc place kcmp qcmp qeq qgt view kc vc eqb pcmp).
  Notation lt := (fun _ _ : T => Lt).
  Notation sc := (some_panic (K := T) (V := unit) (Q := Q) (W := W) kcmp qcmp eqb pcmp).
  Notation xcontained := (xcontained (T := T) (Q := Q) (no_memory nalloc) (clones tclone) (clone_ends tclone) (clone_fails nalloc kc vc) sc).
  Notation kv := (T * unit)%type.
  Notation heap := (heap T unit).
  Notation xop := (xop T Q).
  Notation result := (outcome reserve_error (xobs T) * hregs * heap)%type.
  Notation outs res := (map (fun x : result => fst (fst x)) res).

  (** the sets a program leaves alone after operations with these outcomes *)
  Fixpoint xleft_alone (D : list nat) (ops : list xop) (os : list (outcome reserve_error (xobs T))) : list nat :=
    match ops, os with
    | c :: ops', o :: os' => xleft_alone (xsuspect c o ++ D) ops' os'
    | _, _ => D
    end.
  (** the variables and the memory after a run *)
  Definition xstate_after (s : hregs) (hp : heap) (res : list result) : hregs * heap := match rev res with [] => (s, hp) | (_, s', hp') :: _ => (s', hp') end.
  Lemma xstate_after_cons s hp (x : result) res : xstate_after s hp (x :: res) = xstate_after (snd (fst x)) (snd x) res.
  Proof. unfold xstate_after. cbn [rev]. destruct (rev res) as [|z l] eqn:E; cbn [app]; [destruct x as [[? ?] ?]; reflexivity|reflexivity]. Qed.

  (** the variable [r] holds a tree with [X], of which the program owns the nodes *)
  Definition spoilt (X : bmap T unit -> src T unit -> Prop) (D : list nat) (s2 : hregs) (lost : list (res T unit)) (r : nat) : Prop :=
    In r D /\ exists m1 sr Y, mrep (s2 r) m1 sr /\ X m1 sr /\ Permutation lost (sres sr ++ Y).
  Lemma spoilt_doomed D s2 lost r : spoilt (fun m1 sr => damaged m1 sr) D s2 lost r <-> doomed D s2 lost r.
  Proof. reflexivity. Qed.
  Definition weave_of (m : list kv) (m1 : bmap T unit) (_ : src T unit) : Prop := kids any (bheight m1) (bnode m1) /\ blen m1 = length (entries m1) /\ entries m1 = m.
  Lemma spoilt_halfbuilt m D s2 lost r : spoilt (weave_of m) D s2 lost r <-> halfbuilt D s2 lost r m.
  Proof.
    unfold spoilt, halfbuilt, weave_of. split; intros (H & m1 & sr & Y & M); (split; [exact H|]); exists m1, sr, Y; tauto.
  Qed.

  Section Run.
    Hypothesis place_fresh : forall hp w, hget hp (place hp w) = None.

    Lemma xcareful_step c D s2 s hp (S : nat -> list kv) s1 ss rs lost o s2' hp' (w w' : W) :
      ward lt D s2 s hp S s1 ss rs lost -> xlegal c -> xavoids c D -> xstep c s2 hp w = (o, s2', hp', w') -> o <> Abort -> o <> UB ->
      exists T' s' s1' ss' rs' Y, ward lt (xsuspect c o ++ D) s2' s' hp' T' s1' ss' rs' (Y ++ lost).
    Proof.
      intros Wd Hc Av E Na Nu. destruct c as [c|k r t n m|r t|r t|r t|k r t u|r l].
      1:{ cbn [HostileSetModel.xstep] in E. destruct (hxstep c s2 hp w) as [[[o' s2x] hpx] wx] eqn:E2. injection E as <- <- <- <-.
        edestruct careful_step as (T' & s' & s1' & ss' & rs' & Y & Wd'); [exact place_fresh|exact Wd|exact Hc|exact Av|exact E2|intros ->; now apply Na|intros ->; now apply Nu|].
        exists T', s', s1', ss', rs', Y. replace (xsuspect (XMap c) (fmap XObs o')) with (suspect c o'); [exact Wd'|]. destruct c; try reflexivity; destruct o'; reflexivity. }
      all: match type of E with HostileSetModel.xstep _ _ _ _ _ _ _ _ _ _ ?c _ _ _ = _ =>
        destruct (@set_step T Q W nalloc place tclone kcmp qcmp qeq qgt view eqb pcmp place_fresh c D s2 s hp S s1 ss rs lost o s2' hp' w w' Wd)
          as [(S' & _ & [Ho|[Ho|(s' & s1' & ss' & rs' & Wd')]])|(Ho & _)]; [discriminate|exact Av|exact E|contradiction..| |contradiction] end;
        exists S', s', s1', ss', rs', []; exact Wd'.
    Qed.
    Lemma spoilt_step X c D s2 s hp (S : nat -> list kv) s1 ss rs lost o s2' hp' (w w' : W) r :
      ward lt D s2 s hp S s1 ss rs lost -> spoilt X D s2 lost r -> xlegal c -> xavoids c D -> xstep c s2 hp w = (o, s2', hp', w') -> o <> Abort -> o <> UB ->
      s2' r = s2 r /\ exists T' s' s1' ss' rs' lost', ward lt (xsuspect c o ++ D) s2' s' hp' T' s1' ss' rs' lost' /\ spoilt X (xsuspect c o ++ D) s2' lost' r.
    Proof.
      intros Wd (HD & m1 & sr & Y & M & Hd & P) Hc Av E Na Nu. destruct (xcareful_step _ Wd Hc Av E Na Nu) as (T' & s' & s1' & ss' & rs' & Y' & Wd').
      assert (s2' r = s2 r) as Er.
      { pose proof (@xstep_touches T Q W nalloc place tclone kcmp qcmp qeq qgt view eqb pcmp c s2 hp w r) as Ht. rewrite E in Ht. apply Ht.
        intros I. apply (Av r); [|exact HD]. clear - I. destruct c as [c| | | | | |]; cbn [xtouches xmentions In] in *; try tauto. destruct c; cbn [touches mentions In] in *; tauto. }
      split; [exact Er|].
      exists T', s', s1', ss', rs', (Y' ++ lost). split; [exact Wd'|]. split; [apply in_or_app; now right|]. exists m1, sr, (Y' ++ Y). split; [now rewrite Er|]. split; [exact Hd|].
      rewrite P. apply Permutation_app_swap_app.
    Qed.
    Lemma xrun_cut (x : result) rest ops s hp (w : W) : xrun ops s hp w = x :: rest ->
      exists c ops' w', ops = c :: ops' /\ xstep c s hp w = (fst (fst x), snd (fst x), snd x, w') /\
        (rest <> [] -> fst (fst x) <> Abort /\ fst (fst x) <> UB /\ xrun ops' (snd (fst x)) (snd x) w' = rest).
    Proof.
      destruct ops as [|c ops]; [discriminate|]. cbn [HostileSetModel.xrun]. destruct (xstep c s hp w) as [[[o s'] hp'] w'] eqn:E. intros H. injection H as <- <-.
      exists c, ops, w'. split; [reflexivity|]. cbn [fst snd]. split; [exact E|]. intros Ne. destruct o; try (split; [discriminate|]; split; [discriminate|reflexivity]); exfalso; apply Ne; reflexivity.
    Qed.

    (** a careful program up to one more operation *)
    Lemma prefix_run c ops1 : forall D s2 s hp (S : nat -> list kv) s1 ss rs lost (w : W) res1 x rest,
      ward lt D s2 s hp S s1 ss rs lost -> Forall (@xlegal T Q) (ops1 ++ [c]) -> length res1 = length ops1 ->
      xcareful D (ops1 ++ [c]) (outs (res1 ++ [x])) -> forall ops2, xrun (ops1 ++ c :: ops2) s2 hp w = res1 ++ x :: rest ->
      exists S' s0 hp0 sn s1' ss' rs' lost' w0 w1, (s0, hp0) = xstate_after s2 hp res1 /\
        let D' := xleft_alone D ops1 (outs res1) in
        ward lt D' s0 sn hp0 S' s1' ss' rs' lost' /\ xlegal c /\ xavoids c D' /\ xstep c s0 hp0 w0 = (fst (fst x), snd (fst x), snd x, w1) /\
        (rest <> [] -> fst (fst x) <> Abort /\ fst (fst x) <> UB /\ xrun ops2 (snd (fst x)) (snd x) w1 = rest).
    Proof.
      induction ops1 as [|c1 ops1 IH]; intros D s2 s hp S s1 ss rs lost w res1 x rest Wd HL El C ops2 E.
      - destruct res1; [|discriminate El]. cbn [app] in *. apply xrun_cut in E as (c0 & ops' & w' & Eo & Ex & Er). injection Eo as <- <-.
        cbn [map xcareful] in C. destruct C as [Av _]. inversion HL as [|? ? Hc _]; subst.
        exists S, s2, hp, s, s1, ss, rs, lost, w, w'. split; [reflexivity|]. cbn [xleft_alone map]. auto.
      - destruct res1 as [|[[o s'] hp'] res1]; [discriminate El|]. cbn [app] in E. apply xrun_cut in E as (c0 & ops' & w' & Eo & Ex & Er). cbn [app] in Eo. injection Eo as <- <-.
        destruct Er as (Na & Nu & Er); [intros Hx; apply app_eq_nil in Hx as [_ Hx]; discriminate Hx|]. cbn [fst snd] in *.
        cbn [app map xcareful] in C. destruct C as [Av C]. cbn [fst] in C. cbn [app] in HL. inversion HL as [|? ? Hc HL']; subst.
        destruct (xcareful_step _ Wd Hc Av Ex Na Nu) as (T' & sn & s1' & ss' & rs' & Y & Wd').
        destruct (IH _ _ _ _ _ _ _ _ _ _ _ x rest Wd' HL' (f_equal Nat.pred El) C ops2 Er) as (S' & s0 & hp0 & sn' & s1x & ssx & rsx & lox & w0 & w1 & E0 & H).
        exists S', s0, hp0, sn', s1x, ssx, rsx, lox, w0, w1. rewrite xstate_after_cons. split; [exact E0|exact H].
    Qed.
    (** the same while a set is spoilt, which stays as it is *)
    Lemma spoilt_run X c r ops2 : forall D s2 s hp (S : nat -> list kv) s1 ss rs lost (w : W) res2 rest,
      ward lt D s2 s hp S s1 ss rs lost -> spoilt X D s2 lost r -> Forall (@xlegal T Q) ops2 -> length res2 = length ops2 -> rest <> [] ->
      xcareful D ops2 (outs res2) -> xrun (ops2 ++ [c]) s2 hp w = res2 ++ rest ->
      exists T' s0 hp0 sn s1' ss' rs' lost' w0, (s0, hp0) = xstate_after s2 hp res2 /\ s0 r = s2 r /\
        let D' := xleft_alone D ops2 (outs res2) in
        ward lt D' s0 sn hp0 T' s1' ss' rs' lost' /\ spoilt X D' s0 lost' r /\ xrun [c] s0 hp0 w0 = rest.
    Proof.
      induction ops2 as [|c2 ops2 IH]; intros D s2 s hp S s1 ss rs lost w res2 rest Wd Hd HL El Ne C E.
      - destruct res2; [|discriminate El]. exists S, s2, hp, s, s1, ss, rs, lost, w. split; [reflexivity|]. split; [reflexivity|]. cbn [xleft_alone map]. auto.
      - destruct res2 as [|[[o s'] hp'] res2]; [discriminate El|]. cbn [app] in E. apply xrun_cut in E as (c0 & ops' & w' & Eo & Ex & Er). cbn [app] in Eo. injection Eo as <- <-.
        destruct Er as (Na & Nu & Er); [intros Hn; apply app_eq_nil in Hn as [_ Hn]; contradiction|]. cbn [fst snd] in *.
        cbn [map xcareful] in C. destruct C as [Av C]. cbn [fst] in C. inversion HL as [|? ? Hc HL']; subst.
        destruct (spoilt_step _ Wd Hd Hc Av Ex Na Nu) as (Es & T' & sn & s1' & ss' & rs' & lost' & Wd' & Hd').
        destruct (IH _ _ _ _ _ _ _ _ _ _ _ _ Wd' Hd' HL' (f_equal Nat.pred El) Ne C Er) as (T2 & s0 & hp0 & sn' & s1x & ssx & rsx & lox & w0 & E0 & E1 & H).
        exists T2, s0, hp0, sn', s1x, ssx, rsx, lox, w0. rewrite xstate_after_cons. split; [exact E0|]. split; [congruence|exact H].
    Qed.

    (** For every program over sets that has so far left damaged sets alone: when an insertion [c] into [r] fails, and the set is not empty,
        then whatever the program goes on to do with its other sets, dropping or clearing [r] is undefined behaviour. *)
    Theorem C24_sets_drop : forall ops1 c r ops2 d w res1 e s hp res2 rest,
      Forall (@xlegal T Q) (ops1 ++ [XMap c]) -> Forall (@xlegal T Q) ops2 -> adds c r -> d = New r \/ d = Clear r ->
      xrun (ops1 ++ XMap c :: ops2 ++ [XMap d]) hstart [] w = res1 ++ (Err e, s, hp) :: res2 ++ rest ->
      length res1 = length ops1 -> length res2 = length ops2 -> rest <> [] ->
      xcareful [] (ops1 ++ [XMap c]) (outs (res1 ++ [(Err e, s, hp)])) ->
      xcareful (r :: xleft_alone [] ops1 (outs res1)) ops2 (outs res2) ->
      mlen (s r) <> 0 ->
      exists s' hp', rest = [(UB, s', hp')].
    Proof.
      intros ops1 c r ops2 d w res1 e s hp res2 rest HL HL2 Ad Ed E El1 El2 Ne C C2 Hn.
      edestruct (@prefix_run (XMap c) ops1) as (S' & s0 & hp0 & sn & s1' & ss' & rs' & lost' & w0 & w1 & E0 & Wd & Hc & Av & Ex & Er); [exact (@start_ward T unit)|exact HL|exact El1|exact C|exact E|].
      cbn [fst snd] in *. destruct Er as (_ & _ & Er); [intros Hx; apply app_eq_nil in Hx as [_ Hx]; contradiction|].
      cbn [HostileSetModel.xstep] in Ex. destruct (hxstep c s0 hp0 w0) as [[[o' s2x] hpx] wx] eqn:E2. injection Ex as Eo <- <- <-.
      destruct o' as [a|e'| | |]; try discriminate Eo. cbn [fmap omap] in Eo. injection Eo as ->.
      edestruct refused_step as (T' & sn' & s1x & ssx & rsx & lox & Wd' & Hd'); [exact place_fresh|exact Wd|exact Hc|exact Av|exact Ad|exact E2|exact Hn|].
      assert (suspect c (@Err _ (obs T unit) e) = [r]) as Es by (destruct c; cbn [adds] in Ad; try contradiction; subst; reflexivity). rewrite Es in Wd', Hd'.
      apply spoilt_doomed in Hd'.
      edestruct spoilt_run as (T2 & s3 & hp3 & sn3 & s13 & ss3 & rs3 & lo3 & w3 & _ & _ & Wd3 & Hd3 & E3); [exact Wd'|exact Hd'|exact HL2|exact El2|exact Ne|exact C2|exact Er|].
      apply spoilt_doomed in Hd3. cbn [HostileSetModel.xrun HostileSetModel.xstep] in E3.
      erewrite doomed_drop in E3; [|exact Wd3|exact Hd3|exact Ed]. subst rest. eauto.
    Qed.

    (** For every program over sets that has left damaged sets alone and whose last operation is a split_off that panicked: either the
        panic has changed nothing, or every later drop or clear of the set that was to be split is undefined. *)
    Theorem C43_sets_split_off : forall ops1 r x t w res1 s hp D s0 hp0,
      Forall (@xlegal T Q) (ops1 ++ [XMap (SplitOff r x t)]) ->
      xrun (ops1 ++ [XMap (SplitOff r x t)]) hstart [] w = res1 ++ [(Panic, s, hp)] -> length res1 = length ops1 ->
      xcareful [] (ops1 ++ [XMap (SplitOff r x t)]) (outs (res1 ++ [(Panic, s, hp)])) ->
      D = xleft_alone [] ops1 (outs res1) -> (s0, hp0) = xstate_after hstart [] res1 ->
      exists S, sound_memory lt D s0 hp0 S /\
        ((sound_memory lt D s hp S /\ forall ops2 w2, Forall (@xlegal T Q) ops2 -> xcontained D S ops2 (xrun ops2 s hp w2)) \/
         (forall ops2 d w2 res2 rest, Forall (@xlegal T Q) ops2 -> d = New r \/ d = Clear r ->
            xrun (ops2 ++ [XMap d]) s hp w2 = res2 ++ rest -> length res2 = length ops2 -> rest <> [] ->
            xcareful (r :: D) ops2 (outs res2) -> exists s' hp', rest = [(UB, s', hp')])).
    Proof.
      intros ops1 r x t w res1 s hp D s0 hp0 HL E El C -> EL.
      edestruct (@prefix_run (XMap (SplitOff r x t)) ops1) as (S' & s9 & hp9 & sn & s1' & ss' & rs' & lost' & w0 & w1 & E0 & Wd & Hc & Av & Ex & _); [exact (@start_ward T unit)|exact HL|exact El|exact C|exact E|].
      rewrite <- EL in E0. injection E0 as -> ->. cbn [fst snd] in *. exists S'. split; [exact (ward_memory Wd)|].
      cbn [HostileSetModel.xstep] in Ex. destruct (hxstep (SplitOff r x t) s0 hp0 w0) as [[[o' s2x] hpx] wx] eqn:E2. injection Ex as Eo <- <- <-.
      destruct o' as [a|e'| | |]; try discriminate Eo.
      edestruct split_step as [(s' & s1x & ssx & rsx & lox & Wd')|(T' & s' & s1x & ssx & rsx & lox & Wd' & Hd')]; [exact place_fresh|exact Wd|apply Av; now left|exact E2|left|right].
      - split; [exact (ward_memory Wd')|]. intros ops2 w2 HL2. eapply xrun_contained; eauto.
      - intros ops2 d w2 res2 rest HL2 Ed Er El2 Ne C2. apply spoilt_doomed in Hd'.
        edestruct spoilt_run as (T2 & s3 & hp3 & sn3 & s13 & ss3 & rs3 & lo3 & w3 & _ & _ & Wd3 & Hd3 & E3); [exact Wd'|exact Hd'|exact HL2|exact El2|exact Ne|exact C2|exact Er|].
        apply spoilt_doomed in Hd3. cbn [HostileSetModel.xrun HostileSetModel.xstep] in E3.
        erewrite doomed_drop in E3; [|exact Wd3|exact Hd3|exact Ed]. subst rest. eauto.
    Qed.

    (** For every program over sets that has left damaged sets alone and whose last operation is an append to [r] that panicked: [r] holds a
        weave of first parts of both sets, the other set is empty, the rest is as before; whatever the program goes on to do with its
        other sets, dropping or clearing [r] is defined and gives the variable back. *)
    Theorem C43_sets_append : forall ops1 r t w res1 s hp D s0 hp0,
      Forall (@xlegal T Q) (ops1 ++ [XMap (Append r t)]) ->
      xrun (ops1 ++ [XMap (Append r t)]) hstart [] w = res1 ++ [(Panic, s, hp)] -> length res1 = length ops1 ->
      xcareful [] (ops1 ++ [XMap (Append r t)]) (outs (res1 ++ [(Panic, s, hp)])) ->
      D = xleft_alone [] ops1 (outs res1) -> (s0, hp0) = xstate_after hstart [] res1 ->
      exists S T' m, sound_memory lt D s0 hp0 S /\ partly (S r) (S t) m /\ sound_memory lt (r :: D) s hp T' /\ rough_map hp (s r) m /\ T' t = [] /\ (forall i, i <> r -> i <> t -> T' i = S i) /\
        forall ops2 d w2 res2 rest s3 hp3 D2, Forall (@xlegal T Q) ops2 -> d = New r \/ d = Clear r ->
          xrun (ops2 ++ [XMap d]) s hp w2 = res2 ++ rest -> length res2 = length ops2 -> rest <> [] ->
          xcareful (r :: D) ops2 (outs res2) ->
          (s3, hp3) = xstate_after s hp res2 -> D2 = xleft_alone (r :: D) ops2 (outs res2) ->
          exists T2 s' hp', rest = [(Ret (XObs (@OUnit T unit)), s', hp')] /\ sound_memory lt D2 s3 hp3 T2 /\ rough_map hp3 (s3 r) m /\
            sound_memory lt (List.remove Nat.eq_dec r D2) s' hp' (upd T2 r []) /\
            forall ops3 w3, Forall (@xlegal T Q) ops3 -> xcontained (List.remove Nat.eq_dec r D2) (upd T2 r []) ops3 (xrun ops3 s' hp' w3).
    Proof.
      intros ops1 r t w res1 s hp D s0 hp0 HL E El C -> EL.
      edestruct (@prefix_run (XMap (Append r t)) ops1) as (S' & s9 & hp9 & sn & s1' & ss' & rs' & lost' & w0 & w1 & E0 & Wd & Hc & Av & Ex & _); [exact (@start_ward T unit)|exact HL|exact El|exact C|exact E|].
      rewrite <- EL in E0. injection E0 as -> ->. cbn [fst snd] in *.
      cbn [HostileSetModel.xstep] in Ex. destruct (hxstep (Append r t) s0 hp0 w0) as [[[o' s2x] hpx] wx] eqn:E2. injection Ex as Eo <- <- <-.
      destruct o' as [a|e'| | |]; try discriminate Eo.
      edestruct append_step as (T' & s' & s1x & ssx & rsx & lox & m & Wd' & Hd & Hp & Tt & To); [exact place_fresh|exact Wd|exact Hc|apply Av; now left|apply Av; right; now left|exact E2|].
      exists S', T', m. split; [exact (ward_memory Wd)|]. split; [exact Hp|]. split; [exact (ward_memory Wd')|]. split; [eapply halfbuilt_rough; eassumption|]. split; [exact Tt|]. split; [exact To|].
      intros ops2 d w2 res2 rest s3 hp3 D2 HL2 Ed E9 El2 Ne C2 E3 ->. apply spoilt_halfbuilt in Hd.
      edestruct spoilt_run as (T2 & s4 & hp4 & sn3 & s13 & ss3 & rs3 & lo3 & w3 & E4 & _ & Wd3 & Hd3 & Er); [exact Wd'|exact Hd|exact HL2|exact El2|exact Ne|exact C2|exact E9|].
      rewrite <- E3 in E4. injection E4 as -> ->. apply spoilt_halfbuilt in Hd3. cbn [HostileSetModel.xrun HostileSetModel.xstep] in Er.
      edestruct halfbuilt_drop as (s5 & hp5 & lo5 & E5 & Wd5); [exact Wd3|exact Hd3|exact Ed|]. rewrite E5 in Er. cbn [fmap omap] in Er. subst rest.
      exists T2, s5, hp5. split; [reflexivity|]. split; [exact (ward_memory Wd3)|]. split; [eapply halfbuilt_rough; eassumption|]. split; [exact (ward_memory Wd5)|].
      intros ops3 w9 HL3. eapply xrun_contained; eauto.
    Qed.
  End Run.
End HostileSet.

(** ** All three happen *)
Notation ptrun := (xrun (T := nat) (W := nat) (fun a b => tick (Nat.compare a b)) (fun _ w => (None, w)) (@place_reuse nat unit nat) (fun x w => (Ret x, w))
  (Q := nat) (fun a b => tick (Nat.compare a b)) (fun a b => tick (a =? b)) (fun a b => tick (b <? a)) (fun b => tick b)
  (fun x y => tick (fst x =? fst y)) (fun x y => tick (Some (Nat.compare (fst x) (fst y))))).
Notation pouts res := (map (fun x => fst (fst x)) res).

(** the twelfth insertion into set 0 is refused; set 1 is used on, set 0 is then cleared *)
Definition refused_before : list (xop nat nat) := XMap (Insert 1 5 tt) :: map (fun k => XMap (Insert 0 k tt)) (seq 0 11).
Definition refused_between : list (xop nat nat) := [XMap (Contains 1 5); XLazy Union 1 2 1 1; XDisjoint 1 2; XMap (Remove 1 5)].
Example refused_then_cleared : pouts (prun (refused_before ++ XMap (Insert 0 11 tt) :: refused_between ++ [XMap (Clear 0)]) hstart [] 3) =
  repeat (Ret (XObs (OVal nat None))) 12 ++ [Err AllocError; Ret (XObs (OBool true)); Ret (XItems [Some 5] 0 0 [None]); Ret (XBool true); Ret (XObs (OVal nat (Some tt))); UB].
Proof. vm_compute. reflexivity. Qed.
Example refused_legal : Forall (@xlegal nat nat) (refused_before ++ [XMap (Insert 0 11 tt)]) /\ Forall (@xlegal nat nat) refused_between.
Proof. split; repeat constructor. Qed.
Example refused_careful : let outs := pouts (prun (refused_before ++ XMap (Insert 0 11 tt) :: refused_between) hstart [] 3) in
  xcareful [] (refused_before ++ [XMap (Insert 0 11 tt)]) (firstn 13 outs) /\ xcareful [0] refused_between (skipn 13 outs).
Proof. split; apply xcheck_ok; vm_compute; reflexivity. Qed.

(** thirty elements, split_off at 4: the comparison panics at once, or in the second node *)
Example set_split_at_once : pouts (ptrun [XCollect 0 (seq 0 30); XMap (SplitOff 0 4 1); XDisjoint 1 1; XMap (Clear 0)] hstart [] 237) =
  [Ret XUnit; Panic; Ret (XBool true); Ret (XObs (@OUnit nat unit))].
Proof. vm_compute. reflexivity. Qed.
Example set_split_halfway : pouts (ptrun [XCollect 0 (seq 0 30); XMap (SplitOff 0 4 1); XDisjoint 1 1; XMap (Clear 0)] hstart [] 240) =
  [Ret XUnit; Panic; Ret (XBool true); UB].
Proof. vm_compute. reflexivity. Qed.
Example set_split_legal : Forall (@xlegal nat nat) [XCollect 0 (seq 0 30); XMap (SplitOff 0 4 1)].
Proof. repeat constructor; discriminate. Qed.
Definition split_sets_outs (w : nat) : list (outcome reserve_error (xobs nat)) := pouts (ptrun [XCollect 0 (seq 0 30); XMap (SplitOff 0 4 1)] hstart [] w).
Example set_split_careful : xcareful [] [XCollect 0 (seq 0 30); XMap (SplitOff 0 4 1)] (split_sets_outs 237) /\ xcareful [] [XCollect 0 (seq 0 30); XMap (SplitOff 0 4 1)] (split_sets_outs 240).
Proof. split; apply xcheck_ok; vm_compute; reflexivity. Qed.

(** two sets of eight, appended: the comparison panics; set 0 is dropped, and the program goes on *)
Definition append_sets : list (xop nat nat) := [XCollect 0 (map (fun k => 2 * k) (seq 0 8)); XCollect 1 (map (fun k => 2 * k + 1) (seq 0 8)); XMap (Append 0 1)].
Example set_append_panics : pouts (ptrun (append_sets ++ [XMap (Len 1); XCollect 1 [3]; XMap (Clear 0); XMap (Len 0); XDisjoint 0 1]) hstart [] 65) =
  [Ret XUnit; Ret XUnit; Panic; Ret (XObs (ONat 0)); Ret XUnit; Ret (XObs (@OUnit nat unit)); Ret (XObs (ONat 0)); Ret (XBool true)].
Proof. vm_compute. reflexivity. Qed.
Example set_append_legal : Forall (@xlegal nat nat) append_sets.
Proof. repeat constructor; discriminate. Qed.
Example set_append_careful : xcareful [] append_sets (pouts (ptrun append_sets hstart [] 65)) /\
  xcareful [0] ([XMap (Len 1); XCollect 1 [3]] : list (xop nat nat)) [Ret (XObs (ONat 0)); Ret XUnit].
Proof. split; apply xcheck_ok; vm_compute; reflexivity. Qed.

Print Assumptions C24_sets_drop.
Print Assumptions C43_sets_split_off.
Print Assumptions C43_sets_append.
