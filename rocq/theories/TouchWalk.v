(** * TouchWalk: user code on every value that a mutable iterator hands out *)
From Coq Require Import List Arith Lia Bool Permutation.
From Verif Require Import Base MapSpec IterSpec BTreeModel BTreeInv BTreeLemmas BTreeSearch BTreeInsert BTreeIterModel BTreeIterProofs BTreeRange BTreeWrites BTreeOps BTreeEntry SpecFacts HistoryModel HistorySpec HistoryProofs.
From Verif Require Import HeapModel HeapMapModel HeapArr HeapRep HeapZip HeapWp HeapRes HeapPart HeapMap HeapEntry HeapIter HeapHistory.
From Verif Require Import TouchModel TouchSpec TouchBlind TouchProofs.
Import ListNotations.
Set Implicit Arguments.

Section Walk.
  Variables (K V W : Type) (cmp : K -> K -> comparison).
  Hypothesis L1 : ord_laws cmp.
  Notation kv := (K * V)%type.
  Notation heap := (heap K V).
  Notation bmap := (bmap K V).
  Notation closure := (closure V W).

  Lemma split_unique (k : K) (v1 v2 : V) : forall l1 l2 r1 r2, allq (cmp k) Gt l1 -> allq (cmp k) Gt l2 -> l1 ++ (k, v1) :: r1 = l2 ++ (k, v2) :: r2 ->
    l1 = l2 /\ v1 = v2 /\ r1 = r2.
  Proof.
    induction l1 as [|x l1 IH]; intros [|y l2] r1 r2 H1 H2 E; cbn in E.
    - injection E as -> ->. auto.
    - injection E as <- ->. inversion H2 as [|? ? X _]; subst. cbn in X. rewrite (cmp_refl L1) in X. discriminate X.
    - injection E as -> <-. inversion H1 as [|? ? X _]; subst. cbn in X. rewrite (cmp_refl L1) in X. discriminate X.
    - injection E as -> E. inversion H1; subst. inversion H2; subst. destruct (IH l2 r1 r2) as (-> & -> & ->); auto.
  Qed.

  (** an iterator of any kind, on the memory before the loop *)
  Variables (I : Type) (next next_back : I -> HM K V (option (hitem K V) * I)).
  Hypothesis (blind_next : forall it, blind (@nearby K V I) (next it)) (blind_back : forall it, blind (@nearby K V I) (next_back it)).
  Variables (hp0 : heap) (m0 : bmap) (s0 : src K V) (Inv : nat -> nat -> I -> Prop).
  Notation yields x it' q := (exists pl a, q = Some ((Some (x, pl), it'), hp0) /\ at_place s0 a pl /\ place_of m0 a (fst (x : kv))).
  Hypothesis Hn : forall it p q, Inv p q it ->
    p <= q /\ if p =? q then exists it', next it hp0 = Some ((None, it'), hp0) /\ Inv p q it'
    else exists x it', yields x it' (next it hp0) /\ nth_error (entries m0) p = Some x /\ Inv (S p) q it'.
  Hypothesis Hb : forall it p q, Inv p q it ->
    p <= q /\ if p =? q then exists it', next_back it hp0 = Some ((None, it'), hp0) /\ Inv p q it'
    else exists x it', yields x it' (next_back it hp0) /\ nth_error (entries m0) (q - 1) = Some x /\ Inv p (q - 1) it'.

  Lemma nth_mid (L A M B : list kv) p x : L = A ++ M ++ B -> length A <= p -> nth_error L p = Some x -> p < length A + length M -> nth_error M (p - length A) = Some x.
  Proof. intros -> H1 H2 H3. rewrite nth_error_app2 in H2 by lia. rewrite nth_error_app1 in H2 by lia. exact H2. Qed.

  Lemma walk_ok m2 (f : K -> closure) cs : forall p q it (m1 : bmap) s hp w A M B A0 B0 o M' w', Inv p q it ->
    mrep m2 m1 s -> own hp (sres s) -> valid cmp m1 -> heap_sim hp0 hp ->
    (forall a pl, at_place s0 a pl -> at_place s a pl) -> (forall a k, place_of m0 a k -> place_of m1 a k) ->
    entries m1 = A ++ M ++ B -> entries m0 = A0 ++ M ++ B0 -> length A0 = p -> length M = q - p ->
    s_walk cs f M w = (o, M', w') ->
    exists m1' s' hp', h_walk next next_back cs f it hp w = (cast o, hp', w') /\ mrep m2 m1' s' /\ goes hp (sres s) hp' (sres s') /\ valid cmp m1' /\ entries m1' = A ++ M' ++ B.
  Proof.
    induction cs as [|e cs IH]; intros p q it m1 s hp w A M B A0 B0 o M' w' Hi R O Va Sm Hat Hpl E1 E0 LA LM EW; cbn [s_walk h_walk] in *.
    { injection EW as <- <- <-. exists m1, s, hp. split; [reflexivity|]. split; [exact R|]. split; [now apply goes_refl|]. auto. }
    (* one call: what it yields on the memory now *)
    assert (M = [] \/ exists x0 M0, M = x0 :: M0) as HM_ by (clear; destruct M; eauto).
    assert (exists it' : I, M = [] /\ (match e with Front => next | Back => next_back end) it hp = Some ((None, it'), hp) /\ Inv p q it' \/
        exists M1 k v M2 y pl a, M = M1 ++ (k, v) :: M2 /\ (match e with Front => M1 = [] | Back => M2 = [] end) /\
            (match e with Front => next | Back => next_back end) it hp = Some ((Some (y, pl), it'), hp) /\ fst y = k /\ at_place s a pl /\ place_of m1 a k /\
            match e with Front => Inv (S p) q it' | Back => Inv p (q - 1) it' end) as (it' & ST).
    { assert (p <= q /\ forall n, (n = next \/ n = next_back) -> blind (@nearby K V I) (n it)) as [Hpq Bl].
      { split; [exact (proj1 (Hn Hi))|]. intros n [-> | ->]; auto. }
      destruct HM_ as [EM|(x0 & M0 & EM)].
      - rewrite EM in LM. cbn in LM. assert (p = q) as <- by lia. destruct e.
        + destruct (Hn Hi) as [_ X]. rewrite Nat.eqb_refl in X. destruct X as (it' & En & Hi'). exists it'. left. split; [exact EM|]. split; [|exact Hi'].
          destruct (Bl next (or_introl eq_refl) _ _ _ _ Sm En) as (_ & [[z|] j] & Eb & Nb); destruct Nb as [Nb1 Nb2]; cbn in *; [contradiction|]. now subst j.
        + destruct (Hb Hi) as [_ X]. rewrite Nat.eqb_refl in X. destruct X as (it' & En & Hi'). exists it'. left. split; [exact EM|]. split; [|exact Hi'].
          destruct (Bl next_back (or_intror eq_refl) _ _ _ _ Sm En) as (_ & [[z|] j] & Eb & Nb); destruct Nb as [Nb1 Nb2]; cbn in *; [contradiction|]. now subst j.
      - assert (p <> q) as Ne by (rewrite EM in LM; cbn in LM; lia). destruct e.
        + destruct (Hn Hi) as [_ X]. apply Nat.eqb_neq in Ne. rewrite Ne in X. destruct X as (x & it' & (pl & a & En & Ha & Hk) & Ex & Hi'). exists it'. right.
          destruct (Bl next (or_introl eq_refl) _ _ _ _ Sm En) as (_ & [[[y pl']|] j] & Eb & Nb); destruct Nb as [Nb1 Nb2]; cbn in Nb1, Nb2; [|contradiction]. destruct Nb2 as [Nb2 ->]. subst j.
          assert (x = x0) as ->. { pose proof (@nth_mid _ _ _ _ _ _ E0 (Nat.eq_le_incl _ _ LA) Ex) as X. rewrite LA, Nat.sub_diag, EM in X. cbn in X. assert (Some x0 = Some x) as Y by (apply X; lia). now injection Y. }
          exists [], (fst x0), (snd x0), M0, y, pl, a. destruct x0 as [k v]. cbn [fst snd] in *. split; [exact EM|]. split; [reflexivity|]. split; [exact Eb|]. auto.
        + destruct (Hb Hi) as [_ X]. apply Nat.eqb_neq in Ne. rewrite Ne in X. destruct X as (x & it' & (pl & a & En & Ha & Hk) & Ex & Hi'). exists it'. right.
          destruct (Bl next_back (or_intror eq_refl) _ _ _ _ Sm En) as (_ & [[[y pl']|] j] & Eb & Nb); destruct Nb as [Nb1 Nb2]; cbn in Nb1, Nb2; [|contradiction]. destruct Nb2 as [Nb2 ->]. subst j.
          assert (0 < length M) as LM0 by (rewrite EM; cbn; lia).
          assert (nth_error M (q - 1 - p) = Some x) as X by (rewrite <- LA; eapply nth_mid; [exact E0|lia|exact Ex|lia]).
          destruct (@exists_last _ M) as (M1 & z & Ez); [rewrite EM; discriminate|]. assert (length M1 = q - 1 - p) as Lz by (rewrite Ez, app_length in LM; cbn in LM; lia).
          assert (z = x) as -> by (rewrite Ez, <- Lz, nth_error_app2, Nat.sub_diag in X by lia; cbn in X; now injection X).
          exists M1, (fst x), (snd x), [], y, pl, a. destruct x as [k v]. cbn [fst snd] in *. split; [exact Ez|]. split; [reflexivity|]. split; [exact Eb|]. auto. }
    clear HM_. destruct ST as [(EM & -> & Hi')|ST].
    - assert (s_walk cs f [] w = (o, M', w')) as EW' by (subst M; destruct e; exact EW). subst M. eapply IH; eauto.
    - destruct ST as (M1 & k & v & M2 & y & pl & a & Esp & He & -> & Ey & Ha & Hk & Hi'). cbn [fst snd]. rewrite Ey.
      destruct (lend_m L1 pl (f k) w R O Ha Hk Va) as (la & v1 & lb & El & HL).
      assert (la = A ++ M1 /\ v1 = v /\ lb = M2 ++ B) as (-> & -> & ->).
      { destruct Va as [_ Hs]. apply split_unique with (k := k).
        - rewrite El in Hs. exact (proj1 (sorted_mid_q L1 _ _ _ Hs)).
        - rewrite E1, Esp in Hs. rewrite <- !app_assoc in Hs. cbn in Hs. rewrite app_assoc in Hs. exact (proj1 (sorted_mid_q L1 _ _ _ Hs)).
        - rewrite <- El, E1, Esp, <- !app_assoc. reflexivity. }
      assert (match f k v w with
        | (Ret _, v', w1) => let '(o, m', w2) := s_walk cs f (M1 ++ M2) w1 in (o, (match e with Front => (k, v') :: m' | Back => m' ++ [(k, v')] end), w2)
        | (o, v', w1) => (o, M1 ++ (k, v') :: M2, w1) end = (o, M', w')) as EW'.
      { rewrite <- EW, Esp. destruct e; [subst M1|subst M2].
        - cbn [app fst snd]. destruct (f k v w) as [[[?|[]| | |] v'] w1]; reflexivity.
        - rewrite rev_unit. cbn [fst snd]. rewrite rev_involutive, app_nil_r. destruct (f k v w) as [[[?|[]| | |] v'] w1]; reflexivity. }
      destruct (f k v w) as [[of v'] w1] eqn:Ef. destruct HL as (m1' & s' & hp' & -> & R' & G & Hat' & Va' & Ee & Sm' & Hpl').
      destruct of as [u|[]| | |]; cbn [cast].
      2,3,4: injection EW' as <- <- <-; exists m1', s', hp'; (split; [reflexivity|]); (split; [exact R'|]); (split; [exact G|]); (split; [exact Va'|]);
        rewrite Ee, <- !app_assoc; reflexivity.
      destruct (s_walk cs f (M1 ++ M2) w1) as [[o2 M2'] w2] eqn:E2.
      assert (exists A' B' A0' B0' p' q', entries m1' = A' ++ (M1 ++ M2) ++ B' /\ entries m0 = A0' ++ (M1 ++ M2) ++ B0' /\ length A0' = p' /\ length (M1 ++ M2) = q' - p' /\ Inv p' q' it' /\
        A' ++ M2' ++ B' = A ++ M' ++ B /\ o2 = o /\ w2 = w') as (A' & B' & A0' & B0' & p' & q' & X1 & X2 & X3 & X4 & X5 & X6 & -> & ->).
      { destruct e; [subst M1|subst M2]; subst k p; injection EW' as <- <- <-.
        - exists (A ++ [(fst y, v')]), B, (A0 ++ [(fst y, v)]), B0, (S (length A0)), q. cbn [app] in *. rewrite Ee, E0, Esp, app_length, <- !app_assoc. cbn. split; [reflexivity|]. split; [reflexivity|].
          split; [lia|]. rewrite Esp in LM. cbn in LM. split; [lia|]. split; [exact Hi'|]. auto.
        - exists A, ((fst y, v') :: B), A0, ((fst y, v) :: B0), (length A0), (q - 1). rewrite Ee, E0, Esp, app_nil_r, <- !app_assoc. cbn. split; [reflexivity|]. split; [reflexivity|].
          split; [lia|]. rewrite Esp, app_length in LM. cbn in LM. split; [lia|]. split; [exact Hi'|]. auto. }
      destruct (IH p' q' it' m1' s' hp' w1 A' (M1 ++ M2) B' A0' B0' _ _ _ X5 R' (go_own G) Va' (sim_trans Sm Sm') (fun a pl H => Hat' _ _ (Hat _ _ H)) (fun a k H => Hpl' _ _ (Hpl _ _ H)) X1 X2 X3 X4 E2)
        as (m3 & s3 & hp3 & Ew & R3 & G3 & Va3 & Ee3).
      exists m3, s3, hp3. split; [exact Ew|]. split; [exact R3|]. split; [exact (goes_trans G G3)|]. split; [exact Va3|]. rewrite Ee3. exact X6.
  Qed.
End Walk.
