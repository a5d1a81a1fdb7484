(** * TouchProofs: user code on references into a map, and entries used step by step *)
From Coq Require Import List Arith Lia Bool Permutation.
From Verif Require Import Base MapSpec IterSpec BTreeModel BTreeInv BTreeLemmas BTreeSearch BTreeInsert BTreeIterModel BTreeIterProofs BTreeRange BTreeWrites BTreeOps BTreeEntry SpecFacts HistoryModel HistorySpec HistoryProofs.
From Verif Require Import HeapModel HeapMapModel HeapArr HeapRep HeapZip HeapWp HeapRes HeapPart HeapMap HeapEntry HeapIter HeapHistory.
From Verif Require Import TouchModel TouchSpec TouchBlind.
Import ListNotations.
Set Implicit Arguments.

Section Touch.
  Variables (K V W : Type) (cmp : K -> K -> comparison).
  Hypothesis L1 : ord_laws cmp.
  Notation kv := (K * V)%type.
  Notation heap := (heap K V).
  Notation bmap := (bmap K V).
  Notation closure := (closure V W).

  Lemma lend_of_write p (f : closure) (hp : heap) (w : W) v o v' w' hp' : f v w = (o, v', w') ->
    ref_write p (fun _ => v') hp = Some (v, hp') -> h_lend p f hp w = (cast o, hp', w') /\ heap_sim hp hp'.
  Proof.
    intros Ef. unfold ref_write, hbind, h_lend. destruct (a_read (avals K V) (fst p) (snd p) hp) as [[v0 h1]|] eqn:E1; [|discriminate].
    destruct (a_write (avals K V) (fst p) (snd p) v' h1) as [[u h2]|] eqn:E2; [|discriminate]. intros E. injection E as -> ->. rewrite Ef, E2. split; [reflexivity|].
    eapply write_sim; eauto.
  Qed.

  (** ** The place of one entry *)
  Lemma lend_m m2 (m1 : bmap) s hp a p k (f : closure) (w : W) : mrep m2 m1 s -> own hp (sres s) -> at_place s a p -> place_of m1 a k -> valid cmp m1 ->
    exists la v lb, entries m1 = la ++ (k, v) :: lb /\ 
      let '(o, v', w') := f v w in
      exists m1' s' hp', h_lend p f hp w = (cast o, hp', w') /\ mrep m2 m1' s' /\ goes hp (sres s) hp' (sres s') /\ (forall a p, at_place s a p -> at_place s' a p) /\
        valid cmp m1' /\ entries m1' = la ++ (k, v') :: lb /\ heap_sim hp hp' /\ (forall a k, place_of m1 a k -> place_of m1' a k).
  Proof.
    intros R O At Pl [Hm Hs]. destruct (place_placed Pl) as (v & Hp).
    destruct (@update_at_ok K V m1 a (k, v) (fun x => x) Hm Hp) as (_ & la0 & lb0 & _ & _ & E0 & _). exists la0, v, lb0. split; [exact E0|].
    destruct (f v w) as [[o v'] w'] eqn:Ef. destruct (write_ok L1 (fun _ => v') Hm Hs Hp) as (m1' & Eu & Hm' & E2 & Hp' & Hh).
    assert (entries m1' = la0 ++ (k, v') :: lb0) as E3.
    { rewrite E2, E0. cbn [fst]. rewrite E0 in Hs. destruct (sorted_mid_q L1 _ _ _ Hs) as [Hl Hr]. cbn [fst] in *. rewrite s_update_some; auto. apply (cmp_refl L1). }
    pose proof (write_m (writes_val (fun _ => v')) R O At Eu) as Wp. unfold wp in Wp. destruct (ref_write p (fun _ => v') hp) as [[v0 hp']|] eqn:Er; [|contradiction].
    destruct Wp as (s' & x & R' & G & Hat & Ex & ->). destruct Hp as [Hp1 Hp2]. rewrite Hp1 in Ex. injection Ex as <-. cbn [snd] in Er.
    destruct (@lend_of_write _ _ _ _ _ _ _ _ _ Ef Er) as (El & Sm). exists m1', s', hp'. split; [exact El|]. split; [exact R'|]. split; [exact G|]. split; [exact Hat|].
    split; [split; [exact Hm'|rewrite E2; now apply s_update_sorted]|]. split; [exact E3|]. split; [exact Sm|].
    intros b kb [H1 H2]. split; [|now rewrite Hh]. unfold update_at in Eu. destruct (update_node _ _ _ _) as [n'|] eqn:Eun; [|discriminate]. injection Eu as <-. cbn [bnode].
    rewrite (update_node_keys _ _ _ _ Eun). exact H1.
  Qed.

  (** ** Entries *)
  Definition entry_at (m2 : hmap) (hp : heap) (T : ltree K V) (en2 : hentry K) (k : K) (l : list kv) : Prop :=
    exists m1 en1, mrep m2 m1 (Some T) /\ own hp [Root T] /\ valid cmp m1 /\ stands cmp m1 k en1 /\ erep T en1 en2 /\ entries m1 = l.

  Lemma modify_ok m2 hp T h k l v' : entry_at m2 hp T (HOccupied _ h) k l ->
    exists x T' hp', s_get (cmp k) l = Some x /\ hbind (h_kv_mut h) (fun p => ref_write p (fun _ => v')) hp = Some (snd x, hp') /\
      entry_at m2 hp' T' (HOccupied _ h) k (s_update (cmp k) (fun _ => v') l) /\ goes hp [Root T] hp' [Root T'].
  Proof.
    intros (m1 & en & R & O & Va & St & Er & <-). destruct en as [hd|? ?]; [|contradiction Er].
    destruct (@and_modify_stands K V cmp L1 m1 k (Occupied hd) (fun _ => v') Va St) as (en' & m1' & Em & Va' & St' & E' & _ & Sh).
    destruct (@and_modify_m K V (fun _ => v') m2 m1 T (Occupied hd) (HOccupied _ h) hp R O Er) as (en'' & m1'' & T' & Em' & R' & Er' & Wp). rewrite Em in Em'. injection Em' as <- <-.
    destruct Er as (A & Hi). destruct (occ_write (writes_val (fun _ => v')) R O A Hi) as (m1c & T'' & e & hd' & _ & Ek & _ & _ & _ & _ & _ & Wp2).
    destruct St as (_ & x & Ex & _ & Eg). rewrite Ex in Ek. injection Ek as <-.
    unfold wp, h_and_modify, hbind, hret in Wp, Wp2. unfold hbind. destruct (h_kv_mut h hp) as [[p h1]|]; [|contradiction]. destruct (ref_write p (fun _ => v') h1) as [[r h2]|] eqn:Ew; [|contradiction].
    destruct Wp2 as [-> _]. exists x, T', h2. split; [exact Eg|]. split; [reflexivity|]. split; [|exact Wp]. exists m1', en'. split; [exact R'|]. split; [exact (go_own Wp)|]. auto.
  Qed.
  Lemma read_entry m2 hp T h k l : entry_at m2 hp T (HOccupied _ h) k l -> exists x, s_get (cmp k) l = Some x /\ h_into_kv h hp = Some (x, hp).
  Proof.
    intros (m1 & en & R & O & Va & St & Er & <-). destruct en as [hd|? ?]; [|contradiction Er]. destruct Er as (A & Hi). destruct St as (_ & x & Ex & _ & Eg).
    exists x. split; [exact Eg|]. destruct A as (t & c & hh0 & i & ET & -> & ->). cbn [hn hi] in *. unfold into_kv in Ex. cbn [hn hi] in Ex. rewrite kvs_erase in Ex.
    pose proof (own_part1 O) as P.
    assert (wp (h_into_kv (NR hh0 (lroot t), i)) hp (fun y hp' => y = x /\ hp' = hp)) as Wp by (eapply part_read_kv; [exact P|exact ET|intros []|exact Ex|auto]).
    unfold wp in Wp. destruct (h_into_kv _ hp) as [[y hp']|]; [|contradiction]. destruct Wp as [-> ->]. reflexivity.
  Qed.
  Lemma vacant_get m2 hp T h k k' l : entry_at m2 hp T (HVacant k' h) k l -> k' = k /\ s_get (cmp k) l = None.
  Proof.
    intros (m1 & en & R & O & Va & St & Er & <-). destruct en as [?|k1 hd]; [contradiction Er|]. destruct Er as (-> & _). destruct St as (-> & _ & _ & _ & _ & Eg & _). auto.
  Qed.
  Lemma h_modify_ok m2 hp T en k l (f : closure) (w : W) : entry_at m2 hp T en k l -> forall o l' w', s_lend (cmp k) f l w = (o, l', w') ->
    exists T' hp', h_modify en f hp w = (cast o, hp', w') /\ entry_at m2 hp' T' en k l' /\ goes hp [Root T] hp' [Root T'].
  Proof.
    intros E o l' w'. unfold s_lend. destruct en as [h|k' h].
    - destruct (read_entry E) as (x & Eg & _). rewrite Eg. destruct (f (snd x) w) as [[o0 v'] w0] eqn:Ef. intros X. injection X as <- <- <-.
      destruct (modify_ok v' E) as (x' & T' & hp' & Eg' & Ew & E' & G). rewrite Eg in Eg'. injection Eg' as <-. exists T', hp'. split; [|auto].
      unfold hbind in Ew. cbn [h_modify]. destruct (h_kv_mut h hp) as [[p h1]|]; [|discriminate Ew]. exact (proj1 (@lend_of_write _ _ _ _ _ _ _ _ _ Ef Ew)).
    - destruct (vacant_get E) as (-> & Eg). rewrite Eg. intros X. injection X as <- <- <-. exists T, hp. split; [reflexivity|]. split; [exact E|].
      destruct E as (m1 & en & R & O & _). now apply goes_refl.
  Qed.
  Lemma e_step_ok m2 hp T en k l a (w : W) : entry_at m2 hp T en k l -> forall o l' w', s_estep cmp k a l w = (o, l', w') ->
    exists T' hp', e_step en a hp w = (cast o, hp', w') /\ entry_at m2 hp' T' en k l' /\ goes hp [Root T] hp' [Root T'].
  Proof.
    intros E. assert (goes hp [Root T] hp [Root T]) as G0 by (destruct E as (m1 & en1 & R & O & _); now apply goes_refl).
    destruct a as [| |f|v]; cbn [s_estep e_step]; intros o l' w'.
    - intros X. injection X as <- <- <-. exists T, hp. split; [|auto]. destruct en as [h|k' h].
      + destruct (read_entry E) as (x & -> & Er). unfold lift, hbind. now rewrite Er.
      + destruct (vacant_get E) as (-> & ->). reflexivity.
    - intros X. injection X as <- <- <-. exists T, hp. split; [|auto]. destruct en as [h|k' h].
      + destruct (read_entry E) as (x & -> & Er). unfold lift, hbind. now rewrite Er.
      + destruct (vacant_get E) as (-> & ->). reflexivity.
    - destruct (s_lend (cmp k) f l w) as [[o0 l0] w0] eqn:El. intros X. injection X as <- <- <-.
      destruct (h_modify_ok f w E El) as (T' & hp' & -> & E' & G). exists T', hp'. split; [destruct o0 as [?|[]| | |]; reflexivity|auto].
    - intros X. injection X as <- <- <-. destruct en as [h|k' h].
      + destruct (modify_ok v E) as (x & T' & hp' & -> & Ew & E' & G). exists T', hp'. split; [|auto]. unfold lift, h_occupied_insert. unfold hbind in Ew |- *. 
        destruct (h_kv_mut h hp) as [[p h1]|]; [|discriminate Ew]. rewrite Ew. reflexivity.
      + destruct (vacant_get E) as (-> & Eg). exists T, hp. rewrite Eg. split; [reflexivity|]. split; [|exact G0]. now rewrite s_update_id.
  Qed.
  Lemma e_run_ok en k acts : forall m2 hp T l (w : W), entry_at m2 hp T en k l -> forall xs o l' w', s_erun cmp k acts l w = (xs, o, l', w') ->
    exists T' hp', e_run en acts hp w = (xs, cast o, hp', w') /\ entry_at m2 hp' T' en k l' /\ goes hp [Root T] hp' [Root T'].
  Proof.
    induction acts as [|a acts IH]; intros m2 hp T l w E xs o l' w'; cbn [s_erun e_run].
    - intros X. injection X as <- <- <- <-. exists T, hp. split; [reflexivity|]. split; [exact E|]. destruct E as (m1 & en1 & R & O & _); now apply goes_refl.
    - destruct (s_estep cmp k a l w) as [[o1 l1] w1] eqn:E1. destruct (e_step_ok a w E E1) as (T1 & hp1 & -> & Ent & G).
      destruct o1 as [x|[]| | |]; cbn [cast omap].
      + destruct (s_erun cmp k acts l1 w1) as [[[xs2 o2] l2] w2] eqn:E2. intros X. injection X as <- <- <- <-.
        destruct (IH _ _ _ _ _ Ent _ _ _ _ E2) as (T2 & hp2 & -> & Ent2 & G2). exists T2, hp2. split; [reflexivity|]. split; [exact Ent2|]. exact (goes_trans G G2).
      + intros X. injection X as <- <- <- <-. exists T1, hp1. auto.
      + intros X. injection X as <- <- <- <-. exists T1, hp1. auto.
      + intros X. injection X as <- <- <- <-. exists T1, hp1. auto.
  Qed.
  Lemma update_inserted k v v' (l : list kv) : sorted cmp l -> s_get (cmp k) l = None -> s_update (cmp k) (fun _ => v') (s_insert cmp k v l) = s_insert cmp k v' l.
  Proof.
    intros Hs. induction l as [|[k0 v0] l IH]; cbn; intros Hg.
    - unfold hit. cbn. now rewrite (cmp_refl L1).
    - unfold hit in Hg. cbn [fst] in Hg. destruct (cmp k k0) eqn:E; [discriminate Hg| |].
      + cbn. unfold hit at 1. cbn [fst]. rewrite (cmp_refl L1). cbn. unfold hit at 1. cbn [fst]. rewrite E. cbn. f_equal. f_equal. exact (@s_update_id K V (cmp k) (fun _ => v') l Hg).
      + cbn. unfold hit at 1. cbn [fst]. rewrite E. cbn. f_equal. apply IH; [|exact Hg]. now inversion Hs.
  Qed.

  Variables (nalloc : bool -> W -> option reserve_error * W) (place : heap -> W -> loc).
  Hypothesis place_fresh : forall hp w, hget hp (place hp w) = None.
  (** the last use of an entry: as on lists, or an insertion that was refused memory *)
  Lemma e_last_ok m2 hp T en k l a (w : W) : entry_at m2 hp T en k l ->
    exists o m2' m1' s' hp' w' lost, e_last nalloc place m2 en a hp w = (o, m2', hp', w') /\ mrep m2' m1' s' /\ goes hp [Root T] hp' (sres s' ++ lost) /\
      ((lost = [] /\ valid cmp m1' /\ exists l', entries m1' = l' /\ s_elast cmp k a l w o l' w') \/
       (exists e, o = Err e /\ no_memory nalloc e /\ s_get (cmp k) l = None /\ 11 <= length l /\ match a with EOrInsert _ _ | EPut _ _ => True | _ => False end)).
  Proof.
    intros E. assert (own hp [Root T]) as O by (destruct E as (m1 & en1 & R & O & _); exact O).
    assert (forall o w', (forall m1, valid cmp m1 -> entries m1 = l -> s_elast cmp k a l w o l w') -> 
      exists o' m2' m1' s' hp' w'' lost, (o, m2, hp, w') = (o', m2', hp', w'') /\ mrep m2' m1' s' /\ goes hp [Root T] hp' (sres s' ++ lost) /\
      ((lost = [] /\ valid cmp m1' /\ exists l', entries m1' = l' /\ s_elast cmp k a l w o' l' w'') \/
       (exists e, o' = Err e /\ no_memory nalloc e /\ s_get (cmp k) l = None /\ 11 <= length l /\ match a with EOrInsert _ _ | EPut _ _ => True | _ => False end))) as SAME.
    { intros o w' HS. destruct E as (m1 & en1 & R & _ & Va & _ & _ & El). exists o, m2, m1, (Some T), hp, w', []. split; [reflexivity|]. split; [exact R|].
      split; [now apply goes_refl|]. left. split; [reflexivity|]. split; [exact Va|]. exists l. split; [exact El|]. exact (HS m1 Va El). }
    destruct a as [|g f| |v|]; cbn [e_last].
    - apply SAME. cbn. auto.
    - destruct en as [h|k' h]; cbn [h_or_try_insert_with].
      + destruct (s_lend (cmp k) f l w) as [[o2 l2] w2] eqn:El. destruct (h_modify_ok f w E El) as (T' & hp' & Em & E' & G). cbn [h_modify] in Em. unfold lift.
        destruct (h_kv_mut h hp) as [[p h1]|] eqn:Ek.
        * rewrite Em. destruct E' as (m1' & en' & R' & O' & Va' & _ & _ & <-). eexists _, m2, m1', (Some T'), hp', w2, []. split; [reflexivity|]. split; [exact R'|]. split; [exact G|]. left.
          split; [reflexivity|]. split; [exact Va'|]. eexists. split; [reflexivity|]. cbn [s_elast]. destruct (read_entry E) as (x & -> & _). exists o2. split; [exact El|reflexivity].
        * destruct (read_entry E) as (x & _ & Er). destruct (modify_ok (snd x) E) as (? & ? & ? & _ & Ew & _). unfold hbind in Ew. rewrite Ek in Ew. discriminate Ew.
      + destruct (vacant_get E) as (-> & Eg). destruct (g w) as [og w3] eqn:Egw. destruct og as [v|[]| | |]; cbn [cast pass].
        2,3,4: apply SAME; intros m1 _ _; cbn [s_elast]; rewrite Eg, Egw; auto.
        destruct E as (m1 & en1 & R & _ & Va & St & Er & El). destruct en1 as [?|k1 hd]; [contradiction Er|]. destruct Er as (E1 & Er & Hh & Hi). subst k1.
        pose proof (@vacant_m K V W nalloc place place_fresh m2 m1 T hd h k v hp w3 R O (stands_vacant St) Er Hh Hi) as VM.
        pose proof (@vacant_stands K V cmp L1 W nalloc m1 k hd v w3 Va St) as VS. destruct (vacant_insert nalloc m1 k hd v w3) as [[o m1'] w4] eqn:Ev.
        destruct VM as (T' & hp' & m2' & o2 & lost & -> & R' & G & VM). destruct o as [a|e| | |]; try contradiction.
        * destruct VM as (-> & p & -> & At). destruct VS as (Va' & Ee & Pl). 
          assert (place_of m1' a k) as Po by (destruct Pl as [P1 P2]; split; [now rewrite P1|exact P2]).
          destruct (lend_m p f w4 R' (go_own G) At Po Va') as (la & v0 & lb & E0 & HL).
          assert (v0 = v) as ->.
          { destruct Va' as [_ Hs]. rewrite E0 in Hs. destruct (sorted_mid_q L1 _ _ _ Hs) as [Hl _]. assert (s_get (cmp k) (entries m1') = Some (k, v0)) as X by (rewrite E0; apply s_get_some; [exact Hl|apply (cmp_refl L1)]).
            rewrite Ee in X. assert (s_get (cmp k) (s_insert cmp k v (entries m1)) = Some (k, v)) as Y.
            { destruct St as (_ & _ & _ & _ & _ & _ & l1 & r1 & _ & _ & El1 & A1 & A2). rewrite El1, s_insert_none; auto. apply s_get_some; [exact A1|apply (cmp_refl L1)]. }
            rewrite X in Y. now injection Y. }
          destruct (f v w4) as [[o2 v'] w5] eqn:Ef. destruct HL as (m1b & s' & hp2 & Elend & Rb & Gb & _ & Vab & Eb & _ & _). rewrite Elend.
          exists (omap (fun _ => @EoUnit K V) (cast o2)), m2', m1b, s', hp2, w5, []. split; [reflexivity|]. split; [exact Rb|]. split; [rewrite app_nil_r; exact (goes_trans G Gb)|]. left.
          split; [reflexivity|]. split; [exact Vab|]. eexists. split; [reflexivity|]. cbn [s_elast]. rewrite Eg, Egw. exists w4, o2, v'. split; [exact Ef|]. split; [reflexivity|].
          rewrite Eb. subst l. destruct Va as [_ Hs]. rewrite <- (@update_inserted k v v' (entries m1) Hs Eg), <- Ee, E0. destruct Va' as [_ Hs']. rewrite E0 in Hs'. destruct (sorted_mid_q L1 _ _ _ Hs') as [Hl Hr].
          cbn [fst] in *. rewrite s_update_some; auto. apply (cmp_refl L1).
        * subst o2. cbn [pass]. exists (Err e), m2', m1', (Some T'), hp', w4, lost. split; [reflexivity|]. split; [exact R'|]. split; [exact G|]. right. exists e. split; [reflexivity|].
          split; [exact (proj1 VS)|]. split; [exact Eg|]. split; [|exact I]. subst l. exact (vacant_room St Ev).
    - destruct en as [h|k' h].
      + destruct E as (m1 & en1 & R & _ & Va & St & Er & El). destruct en1 as [hd|? ?]; [|contradiction Er]. destruct Er as (A & Hi).
        destruct (@remove_at_stands K V cmp L1 m1 k hd Va St) as (x & m1' & Eg & Erm & Va' & E' & _). destruct St as (Hk & _).
        pose proof (remove_at_m R O Hk (A : at_edge (Some T) hd h) Hi) as Wp. unfold wp in Wp. destruct (h_remove_entry_at m2 h hp) as [[[y m2'] hp']|]; [|contradiction].
        destruct Wp as (m1'' & s' & Erm' & R' & G). rewrite Erm in Erm'. injection Erm' as <- <-.
        exists (Ret (EoEntry (Some x))), m2', m1', s', hp', w, []. split; [reflexivity|]. split; [exact R'|]. split; [rewrite app_nil_r; exact G|]. left. split; [reflexivity|]. split; [exact Va'|].
        eexists. split; [reflexivity|]. cbn [s_elast]. subst l. rewrite Eg. auto.
      + destruct (vacant_get E) as (-> & Eg). apply SAME. intros m1 _ _. cbn [s_elast]. rewrite Eg. split; [reflexivity|]. split; [|reflexivity].
        unfold s_remove. clear - Eg. unfold s_get in Eg. induction l as [|y l IH]; cbn in *; [reflexivity|]. destruct (hit (cmp k) y); [discriminate|]. cbn. f_equal. auto.
    - destruct en as [h|k' h].
      + destruct (modify_ok v E) as (x & T' & hp' & Eg & Ew & E' & G). unfold lift, h_occupied_insert. unfold hbind in Ew |- *.
        destruct (h_kv_mut h hp) as [[p h1]|]; [|discriminate Ew]. rewrite Ew. destruct E' as (m1' & en' & R' & O' & Va' & _ & _ & Ee).
        exists (Ret (EoVal K (Some (snd x)))), m2, m1', (Some T'), hp', w, []. split; [reflexivity|]. split; [exact R'|]. split; [exact G|]. left. split; [reflexivity|]. split; [exact Va'|].
        eexists. split; [reflexivity|]. cbn [s_elast]. rewrite Eg. auto.
      + destruct (vacant_get E) as (-> & Eg). destruct E as (m1 & en1 & R & _ & Va & St & Er & El). destruct en1 as [?|k1 hd]; [contradiction Er|]. destruct Er as (E1 & Er & Hh & Hi). subst k1.
        pose proof (@vacant_m K V W nalloc place place_fresh m2 m1 T hd h k v hp w R O (stands_vacant St) Er Hh Hi) as VM.
        pose proof (@vacant_stands K V cmp L1 W nalloc m1 k hd v w Va St) as VS. destruct (vacant_insert nalloc m1 k hd v w) as [[o m1'] w4] eqn:Ev.
        destruct VM as (T' & hp' & m2' & o2 & lost & -> & R' & G & VM). destruct o as [a|e| | |]; try contradiction.
        * destruct VM as (-> & p & -> & At). destruct VS as (Va' & Ee & Pl). exists (Ret (EoVal K None)), m2', m1', (Some T'), hp', w4, []. split; [reflexivity|]. split; [exact R'|]. split; [exact G|].
          left. split; [reflexivity|]. split; [exact Va'|]. eexists. split; [reflexivity|]. cbn [s_elast]. subst l. rewrite Eg. auto.
        * subst o2. exists (Err e), m2', m1', (Some T'), hp', w4, lost. split; [reflexivity|]. split; [exact R'|]. split; [exact G|]. right. exists e. split; [reflexivity|].
          split; [exact (proj1 VS)|]. split; [exact Eg|]. split; [|exact I]. subst l. exact (vacant_room St Ev).
    - destruct en as [h|k' h]; apply SAME; intros m1 _ _; cbn [s_elast].
      + destruct (read_entry E) as (x & -> & _). auto.
      + destruct (vacant_get E) as (-> & ->). auto.
  Qed.
End Touch.
