(** * Properties_Touch: C62

    User code that is given a [&mut V] - the closure of and_modify, the loop over
    iter_mut or range_mut, whatever is done with get_mut, or_try_insert_with or
    an entry - may change the value, its own surroundings and then panic: the
    map's memory is in order afterwards, the value is what the code left there,
    no other entry changed, and exactly the code that should run has run, on the
    values it should see.  An entry may be looked at and changed any number of
    times before it is used up.  The same holds of iterators given to extend and
    collect.  [TouchSpec.tt_ok] says this after every step of
    a program on raw memory. *)
From Coq Require Import List Arith Lia Bool Permutation.
From Verif Require Import Base MapSpec IterSpec BTreeModel BTreeInv BTreeLemmas BTreeSearch BTreeInsert BTreeIterModel BTreeIterProofs BTreeRange BTreeBulkModel BTreeClone
  BTreeWrites BTreeCollect BTreeOps BTreeEntry Properties_BTree Properties_BTree2 HistoryModel HistorySpec HistoryProofs Properties_History Examples.
From Verif Require Import HeapModel HeapMapModel HeapArr HeapRep HeapWp HeapRes HeapMap HeapEntry HeapTorn HeapIter HeapInto HeapSplit HeapHistory HeapSpec HeapMemory Properties_Heap.
From Verif Require Import HostileModel HostilePure HostileOps.
From Verif Require Import TouchModel TouchSpec TouchBlind TouchProofs TouchWalk.
Import ListNotations.
Set Implicit Arguments.

Section Touch.
  Variables (K V Q : Type) (cmp : K -> K -> comparison) (qcmp : Q -> Q -> comparison) (borrow : K -> Q).
  Notation kv := (K * V)%type.
  Notation heap := (heap K V).
  Variables (W : Type) (nalloc : bool -> W -> option reserve_error * W) (place : heap -> W -> loc).
  Variables (kclone : K -> W -> outcome reserve_error K * W) (vclone : V -> W -> outcome reserve_error V * W).
  Variables (eqb : kv -> kv -> bool) (pcmp : kv -> kv -> option comparison).
  Notation step := (step nalloc cmp qcmp borrow kclone vclone eqb pcmp).
  Notation hstep := (hstep nalloc place cmp qcmp borrow kclone vclone eqb pcmp).
  Notation tstep := (tstep nalloc place cmp qcmp borrow kclone vclone eqb pcmp).
  Notation trun := (trun nalloc place cmp qcmp borrow kclone vclone eqb pcmp).
  Notation tspec_ := (tspec cmp qcmp borrow eqb pcmp (no_memory nalloc) (cloned kclone vclone) (clone_fails nalloc kclone vclone)).
  Notation tgave_up_ := (tgave_up cmp (no_memory nalloc)).
  Notation tt_ok := (tt_ok cmp qcmp borrow eqb pcmp (no_memory nalloc) (cloned kclone vclone) (clone_fails nalloc kclone vclone)).
  Notation top := (top K V Q W).

  (** append(), split_off() and clone need two different variables *)
  Definition tlegal (c : top) : Prop := match c with TPlain _ c => legal c | _ => True end.

  Section Run.
    Hypothesis (L1 : ord_laws cmp) (L2 : borrow_laws cmp qcmp borrow).
    Hypothesis L3 : forall k w k' w', kclone k w = (Ret k', w') -> cmp k k' = Eq.
    Hypothesis place_fresh : forall hp w, hget hp (place hp w) = None.

    Lemma erun_keys k acts : forall (l : list kv) (w : W) xs o l2 w2, s_erun cmp k acts l w = (xs, o, l2, w2) -> map fst l2 = map fst l.
    Proof.
      induction acts as [|b acts IH]; intros l w1 xs o2 l2 w2; cbn [s_erun]; [intros X; now injection X as _ _ <- _|].
      assert (forall o' l' w', s_estep cmp k b l w1 = (o', l', w') -> map fst l' = map fst l) as ST.
      { intros o' l' w'. destruct b as [| |f|v]; cbn [s_estep]; unfold s_lend; try (intros X; injection X as _ <- _; try apply SpecFacts.s_update_keys; reflexivity).
        destruct (s_get (cmp k) l) as [x|]; [|intros X; now injection X as _ <- _]. destruct (f (snd x) w1) as [[? ?] ?]. intros X. injection X as _ <- _. apply SpecFacts.s_update_keys. }
      destruct (s_estep cmp k b l w1) as [[o' l'] w'] eqn:E'. specialize (ST _ _ _ eq_refl). destruct o'; try (intros X; injection X as _ _ <- _; exact ST).
      destruct (s_erun cmp k acts l' w') as [[[xs' o''] l''] w''] eqn:E''. intros X. injection X as _ _ <- _. rewrite (IH _ _ _ _ _ _ E''). exact ST.
    Qed.

    (** what an operation is to do, from the lists [S] *)
    Definition touched c S hp (rs : list (res K V)) (w : W) (x : list (eobs K V) * outcome reserve_error (tobs K V) * hregs * heap * W) : Prop :=
      let '(xs, o, s2', hp', w') := x in
      (exists s1' ss' rs' S', reps s2' s1' ss' /\ held ss' rs' /\ goes hp rs hp' rs' /\ rep cmp s1' S' /\ tspec_ c S w xs o S' w') \/
      (tgave_up_ c S o /\ exists s1' ss' rs' lost, reps s2' s1' ss' /\ held ss' rs' /\ goes hp rs hp' (rs' ++ lost)) \/
      tlost (no_memory nalloc) c o \/
      ((o = Abort \/ o = UB) /\ exists S', tspec_ c S w xs o S' w').

    (** a map that is filled from an iterator *)
    Lemma feed_ok its : forall m2 (m1 : bmap K V) s hp (w : W), mrep m2 m1 s -> own hp (sres s) -> valid cmp m1 ->
      exists o m1' s' hp' m2' lost w', h_feed nalloc place cmp its m2 hp w = (cast o, m2', hp', w') /\ mrep m2' m1' s' /\ goes hp (sres s) hp' (sres s' ++ lost) /\
        ((lost = [] /\ valid cmp m1' /\ s_feed cmp (no_memory nalloc) its (entries m1) w o (entries m1') w') \/
         (o = Panic /\ (exists e, no_memory nalloc e) /\ 12 <= length (entries m1) + length its /\ damaged m1' s')).
    Proof.
      induction its as [|g its IH]; intros m2 m1 s hp w R O Va; cbn [h_feed].
      - exists (Ret tt), m1, s, hp, m2, [], w. rewrite app_nil_r. split; [reflexivity|]. split; [exact R|]. split; [now apply goes_refl|]. left. split; [reflexivity|]. split; [exact Va|constructor].
      - destruct (g w) as [[[x|]|[]| | |] w1] eqn:Eg.
        + pose proof (@try_insert_m K V W nalloc place place_fresh cmp (fst x) (snd x) _ _ _ hp w1 L1 R O Va) as TI.
          pose proof (@try_insert_ok K V W nalloc cmp L1 (fst x) (snd x) m1 w1 (proj1 Va) (proj2 Va)) as OK.
          destruct (try_insert nalloc cmp (fst x) (snd x) m1 w1) as [[o1 m1'] w2]. destruct TI as (s' & hp' & m2' & lost & EI & R' & G & HL). rewrite EI.
          destruct o1 as [old|e| | |]; try contradiction.
          * subst lost. rewrite app_nil_r in G. destruct OK as (Eo & Sm & E' & Hw).
            assert (valid cmp m1') as Va'. { split; [exact Sm|]. rewrite E'. destruct Va. now apply SpecFacts.s_insert_sorted. }
            destruct (IH m2' m1' s' hp' w2 R' (go_own G) Va') as (o & m3 & s3 & hp3 & m23 & lost & w3 & E3 & R3 & G3 & X).
            exists o, m3, s3, hp3, m23, lost, w3. split; [exact E3|]. split; [exact R3|]. split; [exact (goes_trans G G3)|]. destruct X as [(-> & Va3 & X)|(-> & Hm & Hlen & Hd)].
            -- left. split; [reflexivity|]. split; [exact Va3|]. eapply F_item; [exact Eg| |rewrite <- E'; exact X]. intros Ne. apply Hw. rewrite Eo. destruct (s_get (cmp (fst x)) (entries m1)); [discriminate|congruence].
            -- right. split; [reflexivity|]. split; [exact Hm|]. split; [|exact Hd]. rewrite E' in Hlen. cbn [length]. rewrite (SpecFacts.s_insert_length L1) in Hlen by apply Va. destruct (s_get (cmp (fst x)) (entries m1)); lia.
          * destruct OK as (Hr & Hg & _).
            destruct (@try_insert_h K V W nalloc place place_fresh False (fun a b => @tells W _ (cmp a b)) (fun a b w w' (E : tells (cmp a b) w = (None, w')) => ltac:(discriminate E))
              (fst x) (snd x) _ _ _ hp w1 R O (proj1 Va)) as (oh & m2h & m1h & sh & losth & hph & wh & Eh & Rh & Gh & Hh).
            rewrite try_insert_pure in Eh by (rewrite EI; discriminate). rewrite EI in Eh. injection Eh as <- <- <- <-.
            exists Panic, m1h, sh, hp', m2', losth, w2. split; [reflexivity|]. split; [exact Rh|]. split; [exact Gh|].
            destruct Hh as [_ [(-> & Sh & Eh & E0)|[H11 Hd]]]; [left|right; split; [reflexivity|]; split; [eauto|]; split; [cbn [length]; lia|exact Hd]].
            split; [reflexivity|]. split; [split; [exact Sh|rewrite Eh; apply Va]|]. rewrite Eh, E0. eapply F_refused; eauto.
        + exists (Ret tt), m1, s, hp, m2, [], w1. rewrite app_nil_r. split; [reflexivity|]. split; [exact R|]. split; [now apply goes_refl|]. left. split; [reflexivity|]. split; [exact Va|now apply F_stop].
        + exists Panic, m1, s, hp, m2, [], w1. rewrite app_nil_r. split; [reflexivity|]. split; [exact R|]. split; [now apply goes_refl|]. left. split; [reflexivity|]. split; [exact Va|]. exact (@F_fail _ _ _ _ _ g its _ w _ w1 Eg (fun x => x)).
        + exists Abort, m1, s, hp, m2, [], w1. rewrite app_nil_r. split; [reflexivity|]. split; [exact R|]. split; [now apply goes_refl|]. left. split; [reflexivity|]. split; [exact Va|]. exact (@F_fail _ _ _ _ _ g its _ w _ w1 Eg (fun x => x)).
        + exists UB, m1, s, hp, m2, [], w1. rewrite app_nil_r. split; [reflexivity|]. split; [exact R|]. split; [now apply goes_refl|]. left. split; [reflexivity|]. split; [exact Va|]. exact (@F_fail _ _ _ _ _ g its _ w _ w1 Eg (fun x => x)).
    Qed.

    Section Step.
      Variables (s2 : hregs) (s1 : regs K V) (ss : nat -> src K V) (rs : list (res K V)) (hp : heap) (S : nat -> list kv).
      Hypothesis (R : reps s2 s1 ss) (H : held ss rs) (O : own hp rs) (RS : rep cmp s1 S).

      Lemma reg_done r m2' m1' s' hp' lost s2' : (forall i, s2' i = hup_ s2 r m2' i) -> mrep m2' m1' s' -> goes hp (sres (ss r)) hp' (sres s' ++ lost) ->
        exists ss' rs', reps s2' (upd s1 r m1') ss' /\ held ss' rs' /\ goes hp rs hp' (rs' ++ lost).
      Proof using R H O.
        clear RS. intros E R' G. destruct (held_focus r H) as (rest & P & F). exists (upd ss r s'), (sres s' ++ rest). split; [|split; [apply F|]].
        - intros i. rewrite E. unfold hup_, upd. destruct (i =? r); [exact R'|apply R].
        - pose proof (goes_fst (b := rest) G (own_perm P O)) as G2. eapply goes_perm; [symmetry; exact P| |exact G2].
          rewrite <- !app_assoc. apply Permutation_app_head, Permutation_app_comm.
      Qed.
      (** nothing but the list of [r] changes *)
      Lemma reg_list c r w xs o m2' m1' s' hp' w' s2' : (forall i, s2' i = hup_ s2 r m2' i) -> mrep m2' m1' s' -> goes hp (sres (ss r)) hp' (sres s') -> valid cmp m1' ->
        tspec_ c S w xs o (upd S r (entries m1')) w' -> touched c S hp rs w (xs, o, s2', hp', w').
      Proof using R H O RS.
        intros E R' G Va HS. left. destruct (@reg_done r m2' m1' s' hp' [] s2' E R') as (ss' & rs' & R2 & H2 & G2); [now rewrite app_nil_r|]. rewrite app_nil_r in G2.
        exists (upd s1 r m1'), ss', rs', (upd S r (entries m1')). split; [exact R2|]. split; [exact H2|]. split; [exact G2|]. split; [apply rep_upd; auto|exact HS].
      Qed.
      Lemma keep_list c w xs o w' : tspec_ c S w xs o S w' -> touched c S hp rs w (xs, o, s2, hp, w').
      Proof using R H O RS.
        intros HS. left. exists s1, ss, rs, S. split; [exact R|]. split; [exact H|]. split; [now apply goes_refl|]. auto.
      Qed.
      Lemma hup_same r i : s2 i = hup_ s2 r (s2 r) i.
      Proof. unfold hup_. destruct (Nat.eqb_spec i r) as [->|]; reflexivity. Qed.
      Lemma owned_world r k w en m w1 : s1 r = s1 r -> try_entry nalloc cmp k (s1 r) w = (Ret en, m, w1) -> S r <> [] -> w1 = w.
      Proof using RS.
        clear R H O. intros _ E Ne. destruct (RS r) as [[(_ & Hs & _) _] Ee]. unfold try_entry, ensure_root_is_owned in E. destruct (bshared (s1 r)) eqn:Sh.
        - destruct (Hs eq_refl) as [En _]. exfalso. apply Ne. rewrite <- Ee. unfold entries. rewrite En. reflexivity.
        - destruct (search (cmp k) (s1 r)) as [[hd|hd]|]; congruence.
      Qed.

      Lemma entry_touch r k acts a w : touched (TEntry Q r k acts a) S hp rs w (tstep (TEntry Q r k acts a) s2 hp w).
      Proof using R H O RS L1 place_fresh.
        cbn [TouchModel.tstep]. destruct (RS r) as [Va Ee]. pose proof (@own_reg K V ss rs hp H O r) as Or.
        pose proof (@try_entry_m K V W nalloc place place_fresh cmp k _ _ _ hp w (R r) Or (proj1 Va)) as TE.
        pose proof (@try_entry_stands K V cmp L1 W nalloc k (s1 r) w Va) as HT.
        destruct (try_entry nalloc cmp k (s1 r) w) as [[o m1] w1] eqn:Et. destruct TE as (s' & hp1 & m2 & o2 & E & R1 & G1 & TE). rewrite E. clear E.
        destruct o as [en|e| | |]; try contradiction.
        2:{ subst o2. cbn [pass]. destruct HT as (Hr & -> & E0). eapply reg_list; [intros i; reflexivity|exact R1|exact G1|exact Va|]. left. rewrite E0 in Ee. split; [now rewrite <- Ee|]. split; [reflexivity|].
            split; [eauto|]. intros i. unfold upd. destruct (Nat.eqb_spec i r) as [->|]; [|reflexivity]. congruence. }
        destruct TE as (T & en2 & -> & -> & Er). destruct HT as (Va1 & Hst & E1 & _ & _).
        assert (entry_at cmp m2 hp1 T en2 k (S r)) as EA by (exists m1, en; split; [exact R1|]; split; [exact (go_own G1)|]; split; [exact Va1|]; split; [exact Hst|]; split; [exact Er|]; congruence).
        destruct (s_erun cmp k acts (S r) w1) as [[[xs o2] l2] w2] eqn:E2. destruct (e_run_ok L1 acts w1 EA E2) as (T2 & hp2 & -> & EA2 & G2).
        assert (S r <> [] -> w1 = w) as Hw by (intros Ne; eapply owned_world; eauto).
        destruct o2 as [u|[]| | |]; cbn [cast pass].
        2,3,4: destruct EA2 as (m1b & enb & Rb & Ob & Vab & _ & _ & Eb);
          (eapply reg_list; [intros i; reflexivity|exact Rb|exact (goes_trans G1 G2)|exact Vab|]); right;
          eexists w1, _, l2, w2; (split; [exact Hw|]); (split; [exact E2|]); cbn beta iota; (split; [reflexivity|]); (split; [reflexivity|]); intros i; now rewrite Eb.
        destruct (@e_last_ok K V W cmp L1 nalloc place place_fresh m2 hp2 T2 en2 k l2 a w2 EA2) as (o3 & m3 & m1c & s3 & hp3 & w3 & lost & -> & R3 & G3 & HL).
        pose proof (goes_trans G1 (goes_trans G2 G3)) as G4. destruct HL as [(-> & Va3 & l3 & E3 & HS)|(e & -> & Hm & Hg & Hl & Ha)].
        - rewrite app_nil_r in G4. eapply reg_list; [intros i; reflexivity|exact R3|exact G4|exact Va3|]. right. exists w1, (Ret u), l2, w2. split; [exact Hw|]. split; [exact E2|]. exists o3, l3. split; [exact HS|].
          split; [reflexivity|]. intros i. now rewrite E3.
        - right. left. split.
          + assert (map fst l2 = map fst (S r)) as Ek.
            { exact (erun_keys _ _ _ _ E2). }
            assert (s_get (cmp k) (S r) = None) as Hg'.
            { clear - Ek Hg. revert l2 Ek Hg. induction (S r) as [|[k0 v0] l IH]; intros [|[k1 v1] l2]; cbn; intros X Y; try discriminate X; auto. injection X as <- X. unfold hit in *. cbn [fst] in *. destruct (cmp k k1); eauto; discriminate. }
            assert (length l2 = length (S r)) as El by (rewrite <- (map_length fst l2), Ek; apply map_length). rewrite El in Hl. destruct a; try contradiction; exists e; auto.
          + destruct (@reg_done r m3 m1c s3 hp3 lost _ (fun i => eq_refl) R3 G4) as (ss' & rs' & R5 & H5 & G5). exists (upd s1 r m1c), ss', rs', lost. auto.
      Qed.

      Lemma get_mut_touch r x f w : touched (TGetMut K r x f) S hp rs w (tstep (TGetMut K r x f) s2 hp w).
      Proof using R H O RS L1 L2.
        cbn [TouchModel.tstep]. destruct (RS r) as [Va Ee]. pose proof (@own_reg K V ss rs hp H O r) as Or.
        pose proof (@get_mut_m K V (look qcmp borrow x) _ _ _ hp (R r) Or (any_reg RS r)) as Wp.
        pose proof (get_mut_ok (proj1 Va) (cut_reg L2 RS r x)) as HG. rewrite Ee in HG. unfold wp in Wp. destruct (h_get_mut (look qcmp borrow x) (s2 r) hp) as [[[p|] h1]|]; [| |contradiction].
        - destruct Wp as (-> & a & Ea & At). destruct (s_get (look qcmp borrow x) (S r)) as [y|] eqn:Eg; [|congruence]. destruct HG as (a' & Ea' & Hp). rewrite Ea in Ea'. injection Ea' as <-.
          assert (place_of (s1 r) a (fst y)) as Po by (destruct Hp as [P1 P2]; split; [now rewrite P1|exact P2]).
          destruct (lend_m L1 p f w (R r) Or At Po Va) as (la & v & lb & El & HL).
          assert (y = (fst y, v)) as Ey.
          { destruct (update_at_ok (fun z => z) (proj1 Va) Hp) as (_ & l1 & r1 & _ & _ & X & _). rewrite El in X. destruct y as [ky vy]. cbn [fst] in *. f_equal.
            destruct Va as [_ Hs]. destruct (@split_unique K V cmp L1 ky v vy la l1 lb r1) as (_ & -> & _); [| |exact X|reflexivity].
            - rewrite El in Hs. exact (proj1 (sorted_mid_q L1 _ _ _ Hs)).
            - rewrite El, X in Hs. exact (proj1 (sorted_mid_q L1 _ _ _ Hs)). }
          assert (snd y = v) as Ev by now rewrite Ey.
          destruct (f v w) as [[o v'] w'] eqn:Ef. destruct HL as (m1' & s' & hp' & -> & R' & G & _ & Va' & E' & _).
          eapply reg_list; [intros i; apply hup_same|exact R'|exact G|exact Va'|]. cbn [tspec]. split; [reflexivity|]. unfold s_lend. change (fun k => qcmp x (borrow k)) with (look qcmp borrow x).
          rewrite Eg, Ev, Ef. eexists _, _. split; [reflexivity|]. split; [|reflexivity]. intros i. unfold upd. destruct (i =? r); [|reflexivity]. rewrite E', <- Ee, El.
          assert (allq (look qcmp borrow x) Gt la /\ look qcmp borrow x (fst y) = Eq /\ allq (look qcmp borrow x) Lt lb) as (A1 & A2 & A3).
          { assert (look qcmp borrow x (fst y) = Eq) as X. { unfold s_get in Eg. apply find_some in Eg. destruct Eg as [_ Eg]. unfold hit in Eg. destruct (look qcmp borrow x (fst y)); congruence. }
            destruct Va as [_ Hs]. rewrite El in Hs. destruct (sorted_mid_q L1 _ _ _ Hs) as [Hl Hr]. cbn [fst] in *. split; [|split; [exact X|]]; (eapply Forall_impl; [|eassumption]); cbn beta; intros z Hz;
              rewrite <- Hz; destruct L2 as [LQ HB]; unfold look in *; rewrite (cmp_eq_l LQ _ _ _ X); apply HB. }
          rewrite (@s_update_some K V (look qcmp borrow x) (fun _ => v') la (fst y, v) lb A1 A2 A3). reflexivity.
        - destruct Wp as (-> & Ea). destruct (s_get (look qcmp borrow x) (S r)) as [y|] eqn:Eg; [destruct HG as (a' & Ea' & _); congruence|].
          apply keep_list. cbn [tspec]. split; [reflexivity|]. unfold s_lend. change (fun k => qcmp x (borrow k)) with (look qcmp borrow x). rewrite Eg. eexists _, _. split; [reflexivity|]. split; [|reflexivity].
          intros i. unfold upd. destruct (Nat.eqb_spec i r) as [->|]; reflexivity.
      Qed.

      Lemma walk_touch r cs f w : touched (TWalk Q r cs f) S hp rs w (tstep (TWalk Q r cs f) s2 hp w).
      Proof using R H O RS L1.
        cbn [TouchModel.tstep]. destruct (RS r) as [Va Ee]. pose proof (@own_reg K V ss rs hp H O r) as Or. pose proof (mrep_height (R r)) as Hh. pose proof (tree_of_m (R r)) as Ht.
        destruct (iter_m (R r) Or (any_reg RS r) (len_reg RS r)) as (it & Ei & Wp). destruct (map_iter_ok (s1 r) (any_reg RS r) (len_reg RS r)) as (it0 & E0 & Ok). rewrite Ei in E0. injection E0 as <-.
        unfold wp in Wp. destruct (h_iter (s2 r) hp) as [[it2 h1]|]; [|contradiction]. pose proof (proj1 Wp) as ->.
        destruct (s_walk cs f (S r) w) as [[o M'] w'] eqn:EW.
        destruct (@walk_ok K V W cmp L1 hiter (h_iter_next (rh (mroot (s2 r)))) (h_iter_next_back (rh (mroot (s2 r)))) (blind_iter_next _) (blind_iter_next_back _) hp (s1 r) (ss r)
          (fun p q i2 => exists i1, iter_ok (bheight (s1 r)) (bnode (s1 r)) p q i1 /\ irep (ss r) (bheight (s1 r)) hp i1 i2 hp)) with
          (m2 := s2 r) (f := f) (cs := cs) (p := 0) (q := length (S r)) (it := it2) (m1 := s1 r) (s := ss r) (hp := hp) (w := w) (A := @nil kv) (M := S r) (B := @nil kv) (A0 := @nil kv) (B0 := @nil kv)
          (o := o) (M' := M') (w' := w') as (m1' & s' & hp' & Ew & R' & G & Va' & E'); auto using sim_refl.
        - intros i2 p q (i1 & Ok1 & Ir). split; [apply (between_bound (proj1 Ok1))|]. pose proof (iter_next_ok Ok1) as X. destruct (p =? q).
          + destruct X as (i1' & En & Ok'). pose proof (iter_next_m Or Hh Ir En) as Wn. unfold wp in Wn. destruct (h_iter_next _ i2 hp) as [[[[z|] j] h']|]; [destruct Wn as [[] _]| |contradiction].
            destruct Wn as [_ Ir']. pose proof (proj1 Ir') as ->. exists j. split; [reflexivity|]. exists i1'. auto.
          + destruct X as (x & i1' & En & Ex & Pt & Ok'). pose proof (iter_next_m Or Hh Ir En) as Wn. unfold wp in Wn. destruct (h_iter_next _ i2 hp) as [[[[z|] j] h']|]; [|destruct Wn as [[] _]|contradiction].
            destruct Wn as [[Ez At] Ir']. pose proof (proj1 Ir') as ->. exists (fst x), j. split; [|split; [exact Ex|exists i1'; auto]]. destruct z as [z pl]. cbn [fst snd] in *. subst z. exists pl, (snd x).
            split; [reflexivity|]. split; [exact At|]. destruct Pt as [P1 P2]. split; [now rewrite P1|exact P2].
        - intros i2 p q (i1 & Ok1 & Ir). split; [apply (between_bound (proj1 Ok1))|]. pose proof (iter_next_back_ok Ok1) as X. destruct (p =? q).
          + destruct X as (i1' & En & Ok'). pose proof (iter_next_back_m Or Hh Ir En) as Wn. unfold wp in Wn. destruct (h_iter_next_back _ i2 hp) as [[[[z|] j] h']|]; [destruct Wn as [[] _]| |contradiction].
            destruct Wn as [_ Ir']. pose proof (proj1 Ir') as ->. exists j. split; [reflexivity|]. exists i1'. auto.
          + destruct X as (x & i1' & En & Ex & Pt & Ok'). pose proof (iter_next_back_m Or Hh Ir En) as Wn. unfold wp in Wn. destruct (h_iter_next_back _ i2 hp) as [[[[z|] j] h']|]; [|destruct Wn as [[] _]|contradiction].
            destruct Wn as [[Ez At] Ir']. pose proof (proj1 Ir') as ->. exists (fst x), j. split; [|split; [exact Ex|exists i1'; auto]]. destruct z as [z pl]. cbn [fst snd] in *. subst z. exists pl, (snd x).
            split; [reflexivity|]. split; [exact At|]. destruct Pt as [P1 P2]. split; [now rewrite P1|exact P2].
        - exists it. rewrite <- Ee. auto.
        - cbn [app]. now rewrite app_nil_r.
        - cbn [app]. now rewrite app_nil_r.
        - lia.
        - rewrite Ew. cbn [app] in E'. rewrite app_nil_r in E'. eapply reg_list; [intros i; apply hup_same|exact R'|exact G|exact Va'|]. cbn [tspec]. split; [reflexivity|]. exists o, M'. split; [exact EW|].
          split; [|reflexivity]. intros i. now rewrite E'.
      Qed.

      Lemma range_touch r lo hi cs f w : touched (TWalkRange r lo hi cs f) S hp rs w (tstep (TWalkRange r lo hi cs f) s2 hp w).
      Proof using R H O RS L1 L2.
        cbn [TouchModel.tstep]. destruct (RS r) as [Va Ee]. pose proof (@own_reg K V ss rs hp H O r) as Or. pose proof (mrep_height (R r)) as Hh. pose proof (tree_of_m (R r)) as Ht.
        destruct (map_range_ok L2 lo hi (s1 r) (any_reg RS r) (proj2 Va)) as [R1 R2]. destruct (bad_dec qcmp lo hi) as [Hb|Hb].
        - pose proof (@range_m K V Q qcmp borrow _ _ _ hp lo hi (R r) Or (or_intror (R1 Hb))) as Wp. rewrite (R1 Hb) in Wp. unfold wp in Wp.
          destruct (h_range qcmp borrow lo hi (s2 r) hp) as [[o h1]|]; [|contradiction]. destruct Wp as (-> & ->). cbn [omap cast]. apply keep_list. cbn [tspec]. split; [reflexivity|]. left. split; [exact Hb|].
          split; [reflexivity|]. split; [apply same_refl|reflexivity].
        - destruct (R2 Hb) as (it & a & b & Ei & Hbt & Es).
          pose proof (@range_m K V Q qcmp borrow _ _ _ hp lo hi (R r) Or (or_introl (ex_intro _ it Ei))) as Wp. rewrite Ei in Wp. unfold wp in Wp.
          destruct (h_range qcmp borrow lo hi (s2 r) hp) as [[o0 h1]|]; [|contradiction]. destruct Wp as (-> & it2 & -> & Af & Ab).
          pose proof (between_bound Hbt) as Hbd. change (inorder (bnode (s1 r))) with (entries (s1 r)) in Hbd. rewrite Ee in Hbd, Es.
          destruct (s_walk cs f (s_range qcmp borrow lo hi (S r)) w) as [[o M'] w'] eqn:EW.
          assert (S r = firstn a (S r) ++ s_range qcmp borrow lo hi (S r) ++ skipn b (S r)) as Esp.
          { rewrite <- Es. unfold seg. rewrite <- (@firstn_skipn _ a (S r)) at 1. f_equal. rewrite <- (@firstn_skipn _ (b - a) (skipn a (S r))) at 1. f_equal. rewrite skipn_skipn_. f_equal. lia. }
          destruct (@walk_ok K V W cmp L1 hrange (h_range_next (rh (mroot (s2 r)))) (h_range_next_back (rh (mroot (s2 r)))) (blind_range_next _) (blind_range_next_back _) hp (s1 r) (ss r)
            (fun p q i2 => exists i1, BTreeIterProofs.between (bheight (s1 r)) (bnode (s1 r)) p q i1 /\ rrep (ss r) (bheight (s1 r)) hp i1 i2 hp)) with
            (m2 := s2 r) (f := f) (cs := cs) (p := a) (q := b) (it := it2) (m1 := s1 r) (s := ss r) (hp := hp) (w := w) (A := firstn a (S r)) (M := s_range qcmp borrow lo hi (S r)) (B := skipn b (S r))
            (A0 := firstn a (S r)) (B0 := skipn b (S r)) (o := o) (M' := M') (w' := w') as (m1' & s' & hp' & Ew & R' & G & Va' & E'); auto using sim_refl.
          + intros i2 p q (i1 & Ok1 & Ir). split; [apply (between_bound Ok1)|]. pose proof (range_next_ok Ok1) as X. destruct (p =? q).
            * destruct X as (i1' & En & Ok'). pose proof (range_next_m Or Hh Ir En) as Wn. unfold wp in Wn. destruct (h_range_next _ i2 hp) as [[[[z|] j] h']|]; [destruct Wn as [[] _]| |contradiction].
              destruct Wn as [_ Ir']. pose proof (proj1 Ir') as ->. exists j. split; [reflexivity|]. exists i1'. auto.
            * destruct X as (x & i1' & En & Ex & Pt & Ok'). pose proof (range_next_m Or Hh Ir En) as Wn. unfold wp in Wn. destruct (h_range_next _ i2 hp) as [[[[z|] j] h']|]; [|destruct Wn as [[] _]|contradiction].
              destruct Wn as [[Ez At] Ir']. pose proof (proj1 Ir') as ->. exists (fst x), j. split; [|split; [exact Ex|exists i1'; auto]]. destruct z as [z pl]. cbn [fst snd] in *. subst z. exists pl, (snd x).
              split; [reflexivity|]. split; [exact At|]. destruct Pt as [P1 P2]. split; [now rewrite P1|exact P2].
          + intros i2 p q (i1 & Ok1 & Ir). split; [apply (between_bound Ok1)|]. pose proof (range_next_back_ok Ok1) as X. destruct (p =? q).
            * destruct X as (i1' & En & Ok'). pose proof (range_next_back_m Or Hh Ir En) as Wn. unfold wp in Wn. destruct (h_range_next_back _ i2 hp) as [[[[z|] j] h']|]; [destruct Wn as [[] _]| |contradiction].
              destruct Wn as [_ Ir']. pose proof (proj1 Ir') as ->. exists j. split; [reflexivity|]. exists i1'. auto.
            * destruct X as (x & i1' & En & Ex & Pt & Ok'). pose proof (range_next_back_m Or Hh Ir En) as Wn. unfold wp in Wn. destruct (h_range_next_back _ i2 hp) as [[[[z|] j] h']|]; [|destruct Wn as [[] _]|contradiction].
              destruct Wn as [[Ez At] Ir']. pose proof (proj1 Ir') as ->. exists (fst x), j. split; [|split; [exact Ex|exists i1'; auto]]. destruct z as [z pl]. cbn [fst snd] in *. subst z. exists pl, (snd x).
              split; [reflexivity|]. split; [exact At|]. destruct Pt as [P1 P2]. split; [now rewrite P1|exact P2].
          + exists it. split; [exact Hbt|]. split; [reflexivity|]. rewrite <- Ht. split; [eauto|]. auto.
          + now rewrite Ee.
          + now rewrite Ee.
          + rewrite firstn_length. lia.
          + rewrite <- Es. unfold seg. rewrite firstn_length, skipn_length. lia.
          + rewrite Ew. eapply reg_list; [intros i; apply hup_same|exact R'|exact G|exact Va'|]. cbn [tspec]. split; [reflexivity|]. right. split; [exact Hb|].
            exists (firstn a (S r)), (skipn b (S r)), o, M'. split; [exact Esp|]. split; [exact EW|]. split; [|reflexivity]. intros i. now rewrite E'.
      Qed.

      Lemma extend_touch r its w : touched (TExtend Q r its) S hp rs w (tstep (TExtend Q r its) s2 hp w).
      Proof using R H O RS L1 place_fresh.
        cbn [TouchModel.tstep]. destruct (RS r) as [Va Ee]. pose proof (@own_reg K V ss rs hp H O r) as Or.
        destruct (feed_ok its w (R r) Or Va) as (o & m1' & s' & hp' & m2' & lost & w' & -> & R' & G & X). destruct X as [(-> & Va' & X)|(-> & Hm & Hl & _)].
        - rewrite app_nil_r in G. eapply reg_list; [intros i; reflexivity|exact R'|exact G|exact Va'|]. cbn [tspec]. split; [reflexivity|]. rewrite Ee in X. exists o, (entries m1'). split; [exact X|]. split; [apply same_refl|reflexivity].
        - right. left. cbn [tgave_up cast omap]. rewrite Ee in Hl. split; [auto|].
          destruct (@reg_done r m2' m1' s' hp' lost _ (fun i => eq_refl) R' G) as (ss' & rs' & R5 & H5 & G5). exists (upd s1 r m1'), ss', rs', lost. auto.
      Qed.

      Lemma collect_touch r its w : touched (TCollect Q r its) S hp rs w (tstep (TCollect Q r its) s2 hp w).
      Proof using R H O RS L1 place_fresh.
        cbn [TouchModel.tstep]. destruct (RS r) as [Va Ee]. pose proof (@own_reg K V ss rs hp H O r) as Or.
        destruct (@feed_ok its h_new (@new K V) None hp w (mrep_new K V)) as (o & m1' & s' & hp1 & m2' & lost & w' & -> & R' & G & X);
          [cbn [sres]; eapply (@own_sub K V hp [] (sres (ss r))); exact Or|apply new_valid|].
        cbn [sres] in G. destruct X as [(-> & Va' & X)|(-> & Hm & Hl & Hd)].
        - rewrite app_nil_r in G. destruct o as [u|[]| | |]; cbn [cast].
          + pose proof (goes_add G Or) as G1. assert (own hp1 (sres (ss r))) as Or1 by (pose proof (go_own G1) as X1; apply own_app in X1; tauto).
            destruct (drop_m (R r) Or1 (any_reg RS r) (len_reg RS r)) as (d & fr & _ & Wp). unfold wp in Wp. destruct (h_drop (s2 r) hp1) as [[x hp2]|]; [|contradiction]. destruct Wp as (_ & G2).
            pose proof (goes_trans G1 (goes_snd (b := sres s') G2 (go_own G1))) as G3. rewrite app_nil_r in G3.
            eapply reg_list; [intros i; reflexivity|exact R'|exact G3|exact Va'|]. cbn [tspec]. split; [reflexivity|]. exists (Ret u), (entries m1'). split; [exact X|]. split; [reflexivity|apply same_refl].
          + pose proof (go_own G) as O1. destruct Va' as [Sm' So'].
            destruct (@drop_m K V m2' m1' s' hp1 R' O1 (kids_shape _ _ _ (proj2 (proj1 Sm'))) (proj2 (proj2 Sm'))) as (d & fr & _ & Wp). unfold wp in Wp. destruct (h_drop m2' hp1) as [[x hp2]|]; [|contradiction]. destruct Wp as (_ & G2).
            left. exists s1, ss, rs, S. split; [exact R|]. split; [exact H|]. split; [exact (goes_add (goes_trans G G2) O)|]. split; [exact RS|]. cbn [tspec]. split; [reflexivity|]. exists Panic, (entries m1'). split; [exact X|]. split; [reflexivity|apply same_refl].
          + right. right. right. split; [auto|]. exists S. split; [reflexivity|]. exists Abort, (entries m1'). split; [exact X|]. split; [reflexivity|apply same_refl].
          + right. right. right. split; [auto|]. exists S. split; [reflexivity|]. exists UB, (entries m1'). split; [exact X|]. split; [reflexivity|apply same_refl].
        - cbn [cast]. pose proof (go_own G) as Ol. apply own_app in Ol as (Ol & _ & _). rewrite (h_drop_damaged R' Ol Hd). right; right; left. cbn [tlost]. auto.
      Qed.

      Lemma step_touch c w : tlegal c -> touched c S hp rs w (tstep c s2 hp w) \/ exists c', c = TPlain W c'.
      Proof using R H O RS L1 L2 place_fresh.
        intros _. destruct c; [right; eauto|left..]; auto using entry_touch, get_mut_touch, walk_touch, range_touch, extend_touch, collect_touch.
      Qed.
    End Step.

    Lemma trun_ok ops : forall s2 s1 ss rs hp S w, reps s2 s1 ss -> held ss rs -> own hp rs -> exact_heap hp rs -> rep cmp s1 S ->
      Forall tlegal ops -> tt_ok S w ops (trun ops s2 hp w).
    Proof.
      induction ops as [|c ops IH]; intros s2 s1 ss rs hp S w R H O E RS HL; [constructor|]. inversion HL as [|? ? Hc HL']; subst. cbn [TouchModel.trun].
      destruct (@step_touch s2 s1 ss rs hp S R H O RS c w Hc) as [T|(c' & ->)].
      - destruct (tstep c s2 hp w) as [[[[xs o] s2'] hp'] w']. destruct T as [(s1' & ss' & rs' & S' & R' & H' & G & RS' & HS)|[(HS & s1' & ss' & rs' & lost & R' & H' & G)|[HS|(Ho & S' & HS)]]].
        + pose proof (goes_exact G E) as E'. pose proof (go_own G) as O'. destruct o.
          4,5: eapply U_dead; [exact HS|auto].
          all: eapply U_step; [exact HS|exact (memory_ok R' H' O' E' RS')|discriminate|discriminate|eapply IH; eauto].
        + apply U_gave_up; [exact HS|exact (torn_ok R' H' (go_own G) (goes_exact G E))].
        + now apply U_lost.
        + assert (tt_ok S w (c :: ops) [(xs, o, s2', hp', w')]) as X by (eapply U_dead; eauto). destruct Ho as [->| ->]; exact X.
      - cbn [tlegal] in Hc. rename c' into c.
        pose proof (@step_fine K V Q cmp qcmp borrow L1 L2 W nalloc place place_fresh kclone vclone eqb pcmp s1 s2 ss rs hp S R H O RS c w Hc) as HF.
        pose proof (@step_good K V Q cmp qcmp borrow L1 L2 W nalloc kclone vclone L3 eqb pcmp c s1 S w Hc RS) as HG.
        cbn [TouchModel.tstep]. unfold fine in HF. unfold good in HG.
        destruct (step c s1 w) as [[o s1'] w'], (hstep c s2 hp w) as [[[o2 s2'] hp'] w2]. destruct HF as (-> & -> & HF).
        assert (forall ss' rs' lost, reps s2' s1' ss' -> held ss' rs' -> goes hp rs hp' (rs' ++ lost) -> (lost = [] \/ quits c S o) -> o <> Abort -> o <> UB ->
          tt_ok S w (TPlain W c :: ops) (([], omap (@ToPlain K V) o, s2', hp', w') :: trun ops s2' hp' w')) as KEY.
        { intros ss' rs' lost R' H' G Q' Na Nu. pose proof (goes_exact G E) as E'. pose proof (go_own G) as O'.
          assert (tgave_up_ (TPlain W c) S (omap (@ToPlain K V) o) \/ lost = [] /\ exists S', spec cmp qcmp borrow eqb pcmp (no_memory nalloc) (cloned kclone vclone) (clone_fails nalloc kclone vclone) c S o S' /\ rep cmp s1' S') as X.
          { destruct HG as [(S' & HS & RS')|HG]; [destruct Q' as [Q'|Q']; [right; eauto|left]|left].
            - exists o. split; [reflexivity|]. eapply quits_gave_up; eauto.
            - exists o. auto. }
          destruct X as [X|(-> & S' & HS & RS')]; [apply U_gave_up; [exact X|exact (torn_ok R' H' O' E')]|].
          rewrite app_nil_r in O', E'. eapply U_step; [cbn; split; [reflexivity|]; exists o; split; [reflexivity|exact HS]|exact (memory_ok R' H' O' E' RS')|destruct o; cbn; congruence|destruct o; cbn; congruence|]. eapply IH; eauto. }
        destruct o; cbn [omap]; try (destruct HF as (ss' & rs' & lost & F1 & F2 & F3 & F4); eapply KEY; eauto; discriminate).
        + destruct HG as [(S' & HS & _)|HG]; [eapply U_dead; [cbn; split; [reflexivity|]; exists Abort; eauto|auto]|]. eapply gave_up_alive in HG; destruct HG as [(e & X)|X]; discriminate X.
        + destruct HG as [(S' & HS & _)|HG]; [eapply U_dead; [cbn; split; [reflexivity|]; exists UB; eauto|auto]|]. eapply gave_up_alive in HG; destruct HG as [(e & X)|X]; discriminate X.
    Qed.

    (** ** C62: every program *)
    Theorem C62_history : forall ops w, Forall tlegal ops -> tt_ok (nothing K V) w ops (trun ops hstart [] w).
    Proof.
      intros ops w HL. apply trun_ok with (s1 := start K V) (ss := fun _ => None) (rs := []); auto.
      - intros r. apply mrep_new.
      - exists 0. split; [reflexivity|constructor].
      - constructor; [constructor|constructor].
      - intros l Hl Hg. apply Hg. unfold hget. destruct (l =? sroot) eqn:El; [apply Nat.eqb_eq in El; congruence|reflexivity].
      - apply start_rep.
    Qed.

    (** ** Memory is granted: the program is followed to its end *)
    Definition ends A (o : outcome reserve_error A) : Prop := match o with Ret _ | Panic => True | _ => False end.
    Inductive t_good : (nat -> list kv) -> W -> list top -> list (list (eobs K V) * outcome reserve_error (tobs K V) * hregs * heap * W) -> Prop :=
    | Good_end S w : t_good S w [] []
    | Good_step S w c l xs o s' hp' S' w' rest :
        tspec cmp qcmp borrow eqb pcmp (fun _ => False) (cloned kclone vclone) (fun _ => False) c S w xs o S' w' ->   (* nothing is ever refused *)
        memory cmp s' hp' S' -> ends o -> t_good S' w' l rest ->
        t_good S w (c :: l) ((xs, o, s', hp', w') :: rest).
    (** user code returns or panics *)
    Definition tame A (o : outcome Empty_set A) : Prop := match o with Ret _ | Panic => True | _ => False end.
    Definition tame_closure (f : closure V W) : Prop := forall v w, tame (fst (fst (f v w))).
    Definition tame_edo (a : edo V W) : Prop := match a with EModify f => tame_closure f | _ => True end.
    Definition tame_elast (a : elast V W) : Prop :=
      match a with EOrInsert g f => (forall w, tame (fst (g w))) /\ tame_closure f | _ => True end.
    Definition tame_op (c : top) : Prop :=
      match c with
      | TPlain _ _ => True
      | TEntry _ _ _ l a => Forall tame_edo l /\ tame_elast a
      | TGetMut _ _ _ f => tame_closure f
      | TWalk _ _ _ f | TWalkRange _ _ _ _ f => forall k, tame_closure (f k)
      | TExtend _ _ its | TCollect _ _ its => Forall (fun g => forall w, tame (fst (g w))) its
      end.
    Lemma tame_cast A B (g : A -> B) (o : outcome Empty_set A) : tame o -> ends (omap g (cast o)).
    Proof. destruct o as [?|[]| | |]; auto. Qed.
    Lemma omap_cast A B (g : A -> B) (o : outcome Empty_set A) : tame o -> tame (omap g o).
    Proof. destruct o as [?|[]| | |]; auto. Qed.
    Lemma ends_omap A B (g : A -> B) (o : outcome reserve_error A) : ends o -> ends (omap g o).
    Proof. destruct o; auto. Qed.
    Lemma lend_tame q f (l : list kv) w : tame_closure f -> tame (fst (fst (s_lend q f l w))).
    Proof. intros F. unfold s_lend. destruct (s_get q l) as [x|]; [|exact I]. specialize (F (snd x) w). destruct (f (snd x) w) as [[? ?] ?]. exact F. Qed.
    Lemma erun_tame k acts : Forall tame_edo acts -> forall (l : list kv) w, tame (snd (fst (fst (s_erun cmp k acts l w)))).
    Proof.
      induction 1 as [|a acts Ha _ IH]; intros l w; [exact I|]. cbn [s_erun].
      assert (tame (fst (fst (s_estep cmp k a l w)))) as T.
      { destruct a as [| |f|v]; cbn [s_estep]; try exact I. pose proof (lend_tame (cmp k) l w Ha) as X. destruct (s_lend (cmp k) f l w) as [[? ?] ?]. now apply omap_cast. }
      destruct (s_estep cmp k a l w) as [[[y|[]| | |] l1] w1]; cbn [fst] in T; try contradiction; [|exact I].
      specialize (IH l1 w1). destruct (s_erun cmp k acts l1 w1) as [[[? ?] ?] ?]. exact IH.
    Qed.
    Lemma elast_tame k a (l : list kv) w o l' w' : tame_elast a -> s_elast cmp k a l w o l' w' -> ends o.
    Proof.
      destruct a as [|g f| |v|]; cbn [s_elast tame_elast]; intros HT HE.
      - destruct HE as (-> & _). exact I.
      - destruct HT as [Tg Tf]. destruct (s_get (cmp k) l) as [x|].
        + destruct HE as (o2 & E2 & ->). pose proof (lend_tame (cmp k) l w Tf) as X. rewrite E2 in X. now apply tame_cast.
        + specialize (Tg w). destruct (g w) as [og w3]. cbn [fst] in Tg. destruct og as [v|[]| | |]; try contradiction.
          * destruct HE as (w4 & o2 & v' & E2 & -> & _). specialize (Tf v w4). rewrite E2 in Tf. now apply tame_cast.
          * destruct HE as (-> & _). exact I.
      - destruct HE as (-> & _). exact I.
      - destruct (s_get (cmp k) l); destruct HE as (-> & _); exact I.
      - destruct HE as (-> & _). destruct (s_get (cmp k) l); exact I.
    Qed.
    Lemma walk_tame (f : K -> closure V W) : (forall k, tame_closure (f k)) -> forall cs (l : list kv) w, tame (fst (fst (s_walk cs f l w))).
    Proof.
      intros F cs. induction cs as [|[|] cs IH]; intros l w; cbn [s_walk]; [exact I|..].
      - destruct l as [|x m]; [apply IH|]. specialize (F (fst x) (snd x) w). destruct (f (fst x) (snd x) w) as [[[?|[]| | |] v'] w1]; cbn [fst] in F; try contradiction; [|exact I].
        specialize (IH m w1). destruct (s_walk cs f m w1) as [[? ?] ?]. exact IH.
      - destruct (rev l) as [|x m]; [apply IH|]. specialize (F (fst x) (snd x) w). destruct (f (fst x) (snd x) w) as [[[?|[]| | |] v'] w1]; cbn [fst] in F; try contradiction; [|exact I].
        specialize (IH (rev m) w1). destruct (s_walk cs f (rev m) w1) as [[? ?] ?]. exact IH.
    Qed.

    Lemma feed_sure (its : list (next_call K V W)) (l : list kv) (w : W) o l' w' : (forall e, ~ no_memory nalloc e) -> Forall (fun g => forall w, tame (fst (g w))) its ->
      s_feed cmp (no_memory nalloc) its l w o l' w' -> s_feed cmp (fun _ => False) its l w o l' w' /\ tame o.
    Proof.
      intros NM HT HF. induction HF as [l w|g its l w w1 Eg|g its l w x w1 w2 o l' w' Eg Hw HF IH|g its l w o w1 Eg Ho|g its w x w1 w2 e Eg He]; [split; [constructor|exact I]|inversion HT as [|? ? T HT']; subst..].
      - split; [now apply F_stop|exact I].
      - destruct (IH HT') as [X Y]. split; [eapply F_item; eauto|exact Y].
      - split; [now apply F_fail|]. specialize (T w). rewrite Eg in T. now apply omap_cast.
      - contradiction (NM _ He).
    Qed.

    Theorem C62_with_memory : (forall internal w, fst (nalloc internal w) = None) ->
      (forall k w, is_ret (fst (kclone k w))) -> (forall v w, is_ret (fst (vclone v w))) ->
      forall ops w, Forall tlegal ops -> Forall tame_op ops -> t_good (nothing K V) w ops (trun ops hstart [] w).
    Proof.
      intros A1 A2 A3 ops w HL. pose proof (C62_history w HL) as HA. clear HL.
      destruct (spec_with_memory cmp qcmp borrow nalloc kclone vclone eqb pcmp A1 A2 A3) as [NM HX].
      assert (forall c S w xs o S' w', tame_op c -> tspec_ c S w xs o S' w' ->
        tspec cmp qcmp borrow eqb pcmp (fun _ => False) (cloned kclone vclone) (fun _ => False) c S w xs o S' w' /\ ends o) as HSure.
      { clear HA w. intros c S w xs o S' w' Hc HS. destruct c as [c|r k acts a|r x f|r cs f|r lo hi cs f|r its|r its]; cbn [tspec tame_op] in *.
        - destruct HS as (E & o' & -> & HS). destruct (HX _ _ _ _ HS) as [X1 X2]. split; [eauto|]. apply ends_omap. destruct o'; auto.
        - destruct Hc as [Hacts Ha]. destruct HS as [(_ & _ & (e & _ & X) & _)|HS]; [contradiction (NM _ X)|]. split; [right; exact HS|].
          destruct HS as (w1 & o2 & l2 & w2 & _ & E2 & HS). pose proof (erun_tame k Hacts (S r) w1) as T. rewrite E2 in T. cbn [fst snd] in T. destruct o2 as [?|[]| | |]; try contradiction.
          + destruct HS as (o3 & l3 & HE & -> & _). apply ends_omap. eapply elast_tame; eauto.
          + destruct HS as (-> & _). exact I.
        - split; [exact HS|]. destruct HS as (_ & o2 & l2 & E2 & _ & ->). apply tame_cast. pose proof (lend_tame (fun k => qcmp x (borrow k)) (S r) w Hc) as T. now rewrite E2 in T.
        - split; [exact HS|]. destruct HS as (_ & o2 & l2 & E2 & _ & ->). apply tame_cast. pose proof (walk_tame f Hc cs (S r) w) as T. now rewrite E2 in T.
        - split; [exact HS|]. destruct HS as (_ & [(_ & -> & _)|(_ & a & b & o2 & l2 & _ & E2 & _ & ->)]); [exact I|]. apply tame_cast. pose proof (walk_tame f Hc cs (s_range qcmp borrow lo hi (S r)) w) as T. now rewrite E2 in T.
        - destruct HS as (E & o2 & l2 & HF & Sm & ->). destruct (feed_sure NM Hc HF) as [HF' T]. split; [split; [exact E|]; eauto|now apply tame_cast].
        - destruct HS as (E & o2 & l2 & HF & -> & Sm). destruct (feed_sure NM Hc HF) as [HF' T]. split; [split; [exact E|]; eauto|now apply tame_cast]. }
      induction HA as [S w|S w c l xs o s hp S' w' rest HS HM Ha Hu HA IH|S w c l xs o s hp S' w' HS Hd|S w c l xs o s hp w' rest HG HT|S w c l xs o s hp w' rest HG]; intros HT'; [constructor|inversion HT' as [|? ? Hc Hl]; subst..].
      - destruct (HSure _ _ _ _ _ _ _ Hc HS). eapply Good_step; eauto.
      - exfalso. destruct (HSure _ _ _ _ _ _ _ Hc HS) as [_ X]. destruct Hd; subst o; exact X.
      - exfalso. destruct c as [c|r k acts [|g f| |v|]|r x f|r cs f|r lo hi cs f|r its|r its]; cbn [tgave_up] in HG; try contradiction; try (destruct HG as (e & _ & He & _); exact (NM _ He)); [|destruct HG as (_ & (e & He) & _); exact (NM _ He)].
        destruct HG as (o' & _ & HG). destruct c; cbn [gave_up] in HG; try contradiction;
        [destruct HG as (e & _ & He & _)|destruct HG as (e & _ & He & _)|destruct HG as (_ & e & He)|destruct HG as (_ & e & He)|destruct HG as (e & _ & He & _)];
        exact (NM _ He).
      - exfalso. destruct c; cbn [tlost] in HG; try contradiction. destruct HG as (_ & (e & He) & _). exact (NM _ He).
    Qed.

    (** ** Touching values never changes keys, nor another map *)
    Lemma walk_keys (f : K -> closure V W) cs : forall (l : list kv) w, map fst (snd (fst (s_walk cs f l w))) = map fst l.
    Proof.
      induction cs as [|[|] cs IH]; intros l w; cbn [s_walk]; [reflexivity|..].
      - destruct l as [|x m]; [apply IH|]. destruct (f (fst x) (snd x) w) as [[[?|[]| | |] v'] w1]; try reflexivity.
        specialize (IH m w1). destruct (s_walk cs f m w1) as [[? ?] ?]. cbn [fst snd map] in *. now rewrite IH.
      - destruct (rev l) as [|x m] eqn:El; [apply IH|]. assert (l = rev m ++ [x]) as -> by (rewrite <- (rev_involutive l), El; reflexivity).
        destruct (f (fst x) (snd x) w) as [[[?|[]| | |] v'] w1]; try (cbn [fst snd]; now rewrite !map_app).
        specialize (IH (rev m) w1). destruct (s_walk cs f (rev m) w1) as [[? ?] ?]. cbn [fst snd] in *. now rewrite !map_app, IH.
    Qed.
    Definition only_touches (c : top) : option nat :=
      match c with
      | TGetMut _ r _ _ | TWalk _ r _ _ | TWalkRange r _ _ _ _ | TEntry _ r _ _ (EDrop _ _ | EIntoKey _ _) => Some r
      | _ => None
      end.
    Theorem C62_keys c S w xs o S' w' r : only_touches c = Some r -> tspec_ c S w xs o S' w' ->
      map fst (S' r) = map fst (S r) /\ forall i, i <> r -> S' i = S i.
    Proof.
      assert (forall l2, map fst l2 = map fst (S r) -> same (upd S r l2) S' -> map fst (S' r) = map fst (S r) /\ forall i, i <> r -> S' i = S i) as X.
      { intros l2 E Sm. split; [rewrite Sm; unfold upd; now rewrite Nat.eqb_refl|]. intros i Hi. rewrite Sm. unfold upd. destruct (i =? r) eqn:Ei; [apply Nat.eqb_eq in Ei; contradiction|reflexivity]. }
      intros HO HS. destruct c as [c|r' k acts [|g f| |v|]|r' x f|r' cs f|r' lo hi cs f|r' its|r' its]; cbn [only_touches] in HO; try discriminate; injection HO as ->; cbn [tspec] in HS.
      - destruct HS as [(_ & _ & _ & Sm)|(w1 & o2 & l2 & w2 & _ & E2 & HS)]; [split; [now rewrite Sm|intros i _; now rewrite Sm]|].
        pose proof (erun_keys _ _ _ _ E2) as Ek.
        destruct o2; [destruct HS as (o3 & l3 & (_ & -> & _) & _ & Sm)|destruct HS as (_ & _ & Sm)..]; now apply (X _ Ek Sm).
      - destruct HS as [(_ & _ & _ & Sm)|(w1 & o2 & l2 & w2 & _ & E2 & HS)]; [split; [now rewrite Sm|intros i _; now rewrite Sm]|].
        pose proof (erun_keys _ _ _ _ E2) as Ek.
        destruct o2; [destruct HS as (o3 & l3 & (_ & -> & _) & _ & Sm)|destruct HS as (_ & _ & Sm)..]; now apply (X _ Ek Sm).
      - destruct HS as (_ & o2 & l2 & E2 & Sm & _). apply (X l2); auto. unfold s_lend in E2. destruct (s_get _ (S r)) as [y|]; [|now injection E2 as _ <- _].
        destruct (f (snd y) w) as [[? ?] ?]. injection E2 as _ <- _. apply SpecFacts.s_update_keys.
      - destruct HS as (_ & o2 & l2 & E2 & Sm & _). apply (X l2); auto. pose proof (walk_keys f cs (S r) w) as Y. rewrite E2 in Y. exact Y.
      - destruct HS as (_ & [(_ & _ & Sm & _)|(_ & a & b & o2 & l2 & Es & E2 & Sm & _)]); [split; [now rewrite Sm|intros i _; now rewrite Sm]|].
        apply (X _) in Sm; auto. pose proof (walk_keys f cs (s_range qcmp borrow lo hi (S r)) w) as Y. rewrite E2 in Y. cbn [fst snd] in Y.
        rewrite Es at 1. rewrite !map_app. now rewrite Y.
    Qed.
  End Run.
End Touch.

(** ** A concrete program.  30 entries over several nodes; user code that notes the value it sees, adds 100,
    and panics on multiples of 7 *)
Definition noting : closure nat (list nat) := fun v w => (if v mod 7 =? 0 then Panic else Ret tt, v + 100, v :: w).
Definition making (n : nat) (w : list nat) : outcome Empty_set nat * list nat := (if n =? 0 then Panic else Ret n, 1000 :: w).
Definition giving (n : nat) : next_call nat nat (list nat) := fun w => (if n =? 50 then Panic else if n =? 51 then Ret None else Ret (Some (n, n + 1)), n :: w).
Definition touching : list (top nat nat nat (list nat)) :=
  map (fun k => TPlain _ (Insert 0 ((k * 7) mod 30) k)) (seq 0 30) ++
  [ TEntry _ 0 5 [EKey _ _; EGet _ _; EModify noting; ESet _ 14; EGet _ _] (EDrop _ _);
    TEntry _ 0 5 [EGet _ _; EModify noting; EKey _ _] (ETake _ _);
    TEntry _ 0 5 [EGet _ _] (ETake _ _);
    TEntry _ 0 5 [EKey _ _; EModify noting] (EOrInsert (making 0) noting);
    TEntry _ 0 5 [EModify noting] (EOrInsert (making 3) noting);
    TEntry _ 0 40 [EGet _ _] (EPut _ 8);
    TEntry _ 0 40 [EGet _ _] (EPut _ 9);
    TGetMut _ 0 40 noting;
    TGetMut _ 0 99 noting;
    TWalk _ 0 [Back; Front; Back; Front; Front; Back] (fun _ => noting);
    TWalkRange 0 (Included 4) (Excluded 8) [Front; Front; Back; Back; Back] (fun _ => noting);
    TWalkRange 0 (Excluded 3) (Excluded 3) [Front] (fun _ => noting);
    TEntry _ 1 1 [EKey _ _] (EDrop _ _);
    TExtend _ 1 (map giving [3; 8; 2; 50; 4]);
    TCollect _ 1 (map giving [3; 8; 51; 9]);
    TCollect _ 1 (map giving (seq 10 20 ++ [50]));
    TPlain _ (Iterate 1 []);
    TEntry _ 1 8 [EGet _ _] (EDrop _ _);
    TEntry _ 1 4 [EGet _ _] (EDrop _ _);
    TEntry _ 1 9 [EGet _ _] (EDrop _ _);
    TEntry _ 1 9 [EGet _ _] (EIntoKey _ _);
    TEntry _ 1 8 [EGet _ _] (EIntoKey _ _) ].
Example touching_legal : Forall (@tlegal nat nat nat (list nat)) touching.
Proof. repeat constructor. Qed.
Example touching_tame : Forall (@tame_op nat nat nat (list nat)) touching.
Proof.
  assert (tame_closure noting) as N by (intros v w; unfold noting; destruct (v mod 7 =? 0); exact I).
  apply Forall_app. split; [apply Forall_map, Forall_forall; intros; exact I|].
  repeat first [exact I | exact N | apply Forall_nil | apply Forall_cons | split | intro | progress cbn [tame_op tame_edo tame_elast making fst] | progress cbn].
Qed.
Definition granted (_ : bool) (w : list nat) : option reserve_error * list nat := (None, w).
Notation ntrun := (trun granted (@place_reuse nat nat (list nat)) Nat.compare Nat.compare (fun k => k) copy_ copy_
  (fun x y : nat * nat => (fst x =? fst y) && (snd x =? snd y)) (fun x y => Some (Nat.compare (fst x) (fst y)))).
Example touching_result : map (fun x => let '(xs, o, _, _, w) := x in (xs, o, length w, firstn 2 w)) (skipn 30 (ntrun touching hstart [] [])) =
  [ ([EoKey _ 5; EoVal _ (Some 5); EoUnit _ _; EoVal _ (Some 105); EoVal _ (Some 14)], Ret (ToEntry (EoUnit _ _)), 1, [5]);
    ([EoVal _ (Some 14)], Panic, 2, [14; 5]);      (* and_modify's closure has panicked, *)
    ([EoVal _ (Some 114)], Ret (ToEntry (EoEntry (Some (5, 114)))), 2, [14; 5]);      (* what it left is there *)
    ([EoKey _ 5; EoUnit _ _], Panic, 3, [1000; 14]);      (* or_try_insert_with's closure has panicked *)
    ([EoUnit _ _], Ret (ToEntry (EoUnit _ _)), 5, [3; 1000]);
    ([EoVal _ None], Ret (ToEntry (EoVal _ None)), 5, [3; 1000]);
    ([EoVal _ (Some 8)], Ret (ToEntry (EoVal _ (Some 8))), 5, [3; 1000]);
    ([], Ret (ToFound _ _ true), 6, [9; 3]);
    ([], Ret (ToFound _ _ false), 6, [9; 3]);
    ([], Panic, 8, [0; 109]);
    ([], Ret (ToDone _ _), 12, [18; 1]);
    ([], Panic, 12, [18; 1]);
    ([EoKey _ 1], Ret (ToEntry (EoUnit _ _)), 12, [18; 1]);
    ([], Panic, 16, [50; 2]);      (* an iterator that panics *)
    ([], Ret (ToDone _ _), 19, [51; 8]);
    ([], Panic, 40, [50; 29]);      (* twenty entries into the new map, *)
    ([], Ret (ToPlain (OSized [] 2)), 40, [50; 29]);      (* but the old one is still there *)
    ([EoVal _ (Some 9)], Ret (ToEntry (EoUnit _ _)), 40, [50; 29]);
    ([EoVal _ None], Ret (ToEntry (EoUnit _ _)), 40, [50; 29]);
    ([EoVal _ None], Ret (ToEntry (EoUnit _ _)), 40, [50; 29]);
    ([EoVal _ None], Ret (ToEntry (EoKey _ 9)), 40, [50; 29]);
    ([EoVal _ (Some 9)], Ret (ToEntry (EoUnit _ _)), 40, [50; 29]) ].
Proof. vm_compute. reflexivity. Qed.
Lemma copies_equal : forall k (w : list nat) k' w', copy_ k w = (Ret k', w') -> Nat.compare k k' = Eq.
Proof. intros k w k' w' E. injection E. intros. subst. apply Nat.compare_refl. Qed.
Example touching_ok : t_good Nat.compare Nat.compare (fun k => k) (@copy_ (list nat)) (@copy_ (list nat)) (fun x y : nat * nat => (fst x =? fst y) && (snd x =? snd y))
  (fun x y => Some (Nat.compare (fst x) (fst y))) (nothing nat nat) [] touching (ntrun touching hstart [] []).
Proof.
  apply C62_with_memory; auto using nat_laws, nat_borrow, place_reuse_fresh, touching_legal, touching_tame; try (intros; exact I). exact copies_equal.
Qed.

(** collect() that is refused memory: the map it was building is damaged and dropped while the panic unwinds, which is undefined (C24) *)
Theorem C24_collect_refuted : exists (items : list (nat * nat)) w,
  map (fun x => snd (fst (fst (fst x)))) (trun budget (@place_reuse nat nat nat) Nat.compare Nat.compare (fun k => k) copy_ copy_
    (fun x y : nat * nat => (fst x =? fst y) && (snd x =? snd y)) (fun x y => Some (Nat.compare (fst x) (fst y)))
    [TCollect nat 0 (map (fun x w => (Ret (Some x), w)) items)] hstart [] w) = [UB].
Proof. exists (map (fun k => (k, k)) (seq 0 12)), 2. vm_compute. reflexivity. Qed.

Print Assumptions C62_history.
Print Assumptions C24_collect_refuted.
Print Assumptions C62_with_memory.
Print Assumptions C62_keys.
