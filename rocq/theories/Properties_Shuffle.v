(** * Properties_Shuffle: C61

    Threads that work on different maps, or share maps only for reading, do not
    influence each other, and where the allocator puts the nodes is not visible. *)
From Coq Require Import List Arith Lia Bool Sorted.
From Verif Require Import Base MapSpec IterSpec BTreeModel BTreeInv BTreeInsert BTreeIterModel BTreeRange BTreeCollect BTreeWrites BTreeSetModel BTreeClone HistoryModel HistorySpec HistoryProofs Properties_History Examples Properties_BTree Properties_BTree2.
From Verif Require Import HeapModel HeapMapModel HeapSpec Properties_Heap ContainSpec FrameSpec ShuffleSpec.
Import ListNotations.
Set Implicit Arguments.

Section Lists.
  Variables (K V Q : Type) (cmp : K -> K -> comparison) (qcmp : Q -> Q -> comparison) (borrow : K -> Q).
  Notation kv := (K * V)%type.
  Notation state := (nat -> list kv).
  Notation result := (outcome reserve_error (obs K V)).
  Variables (eqb : kv -> kv -> bool) (pcmp : kv -> kv -> option comparison) (kc : K -> K) (vc : V -> V).
  Variables copy1 copy2 : kv -> kv -> Prop.
  Hypothesis (C1 : forall x y, copy1 x y -> y = (kc (fst x), vc (snd x))) (C2 : forall x y, copy2 x y -> y = (kc (fst x), vc (snd x))).
  Notation spec1 := (spec cmp qcmp borrow eqb pcmp (fun _ => False) copy1 (fun _ => False)).
  Notation spec2 := (spec cmp qcmp borrow eqb pcmp (fun _ => False) copy2 (fun _ => False)).

  (** an operation leaves the lists it is not given as they are *)
  Lemma spec_frame (c : op K V Q) (S S' : state) o r : spec1 c S o S' -> ~ In r (given c) -> S' r = S r.
  Proof using.
    intros H N. destruct c; cbn [spec given In] in *; unfold same, upd in *;
      repeat match goal with
             | H : context [let '(_, _) := ?x in _] |- _ => destruct x
             | H : context [match s_get ?x ?y with _ => _ end] |- _ => destruct (s_get x y) eqn:?
             | H : _ \/ _ |- _ => destruct H
             | H : _ /\ _ |- _ => destruct H
             | H : exists _, _ |- _ => destruct H
             | H : False |- _ => destruct H
             end; try tauto;
      match goal with H : forall i, S' i = _ |- _ => rewrite H end;
      repeat match goal with |- context [?a =? ?b] => destruct (Nat.eqb_spec a b); subst end; tauto.
  Qed.

  Lemma copied_same (P : kv -> kv -> Prop) l l' : (forall x y, P x y -> y = (kc (fst x), vc (snd x))) -> Forall2 P l l' -> l' = map (fun x => (kc (fst x), vc (snd x))) l.
  Proof using.
    intros HP F. induction F as [|x y l l' Hxy F IH]; [reflexivity|]. cbn [map]. now rewrite (HP _ _ Hxy), IH.
  Qed.

  (** the outcome and the lists afterwards are determined by the lists mentioned *)
  Lemma spec_same (c : op K V Q) (S1 S2 S1' S2' : state) o1 o2 : (forall r, In r (mentions c) -> S1 r = S2 r) ->
    spec1 c S1 o1 S1' -> spec2 c S2 o2 S2' -> o1 = o2 /\ forall r, S1 r = S2 r -> S1' r = S2' r.
  Proof using C1 C2.
    intros A H1 H2.
    destruct c; cbn [spec mentions In] in *; unfold same, upd, absent in *;
      repeat match goal with
             | A : forall r, ?a = r \/ False -> _ |- _ => pose proof (A a (or_introl eq_refl)); clear A
             | A : forall r, ?a = r \/ ?b = r \/ False -> _ |- _ => pose proof (A a (or_introl eq_refl)); pose proof (A b (or_intror (or_introl eq_refl))); clear A
             end;
      repeat match goal with E : S1 ?a = S2 ?a |- _ => rewrite E in H1; revert E end; intros;
      repeat match goal with
             | H : context [let '(_, _) := dq_run ?x ?y in _] |- _ => destruct (dq_run x y) eqn:?
             | H : context [match s_get ?x ?y with _ => _ end] |- _ => destruct (s_get x y) eqn:?
             | H : _ \/ _ |- _ => destruct H
             | H : _ /\ _ |- _ => destruct H
             | H : exists _, _ |- _ => destruct H
             | H : False |- _ => destruct H
             end; try tauto; subst;
      repeat match goal with
             | F : Forall2 copy1 _ ?l |- _ => rewrite (copied_same C1 F) in *; clear F
             | F : Forall2 copy2 _ ?l |- _ => rewrite (copied_same C2 F) in *; clear F
             end;
      try (split; [reflexivity|]; intros q Hq; repeat match goal with H : forall i, _ = _ |- _ => rewrite H; clear H end;
           repeat match goal with |- context [?a =? ?b] => destruct (Nat.eqb_spec a b); subst end; congruence).
    (* Equal *)
    - split; [|intros q Hq; congruence]. do 2 f_equal.
      destruct x, x0; try reflexivity; exfalso; intuition discriminate.
  Qed.
End Lists.

Section Runs.
  Variables (K V Q : Type) (cmp : K -> K -> comparison) (qcmp : Q -> Q -> comparison) (borrow : K -> Q).
  Notation kv := (K * V)%type.
  Notation state := (nat -> list kv).
  Notation heap := (heap K V).
  Notation op := (op K V Q).
  Notation result := (outcome reserve_error (obs K V)).
  Variables (eqb : kv -> kv -> bool) (pcmp : kv -> kv -> option comparison) (kc : K -> K) (vc : V -> V).

  (** the outcomes of a run *)
  Definition seen (l : list (result * hregs * heap)) : list result := map (fun x => fst (fst x)) l.

  Section Two.
    Variables (W1 : Type) (kclone1 : K -> W1 -> outcome reserve_error K * W1) (vclone1 : V -> W1 -> outcome reserve_error V * W1).
    Variables (W2 : Type) (kclone2 : K -> W2 -> outcome reserve_error K * W2) (vclone2 : V -> W2 -> outcome reserve_error V * W2).
    Hypothesis (K1 : forall k w, fst (kclone1 k w) = Ret (kc k)) (V1 : forall v w, fst (vclone1 v w) = Ret (vc v)).
    Hypothesis (K2 : forall k w, fst (kclone2 k w) = Ret (kc k)) (V2 : forall v w, fst (vclone2 v w) = Ret (vc v)).
    Notation good1 := (runs_good cmp qcmp borrow kclone1 vclone1 eqb pcmp).
    Notation good2 := (runs_good cmp qcmp borrow kclone2 vclone2 eqb pcmp).

    Lemma cloned_pure W (kclone : K -> W -> outcome reserve_error K * W) (vclone : V -> W -> outcome reserve_error V * W) :
      (forall k w, fst (kclone k w) = Ret (kc k)) -> (forall v w, fst (vclone v w) = Ret (vc v)) ->
      forall x y, cloned kclone vclone x y -> y = (kc (fst x), vc (snd x)).
    Proof using.
      intros HK HV [k v] [k' v'] H. unfold cloned in H. cbn [fst snd] in *.
      repeat match goal with H : exists _, _ |- _ => destruct H | H : _ /\ _ |- _ => destruct H end.
      repeat match goal with
             | E : kclone ?a ?w = _ |- _ => let X := fresh in pose proof (HK a w) as X; rewrite E in X; cbn in X; clear E; injection X; intros; subst
             | E : vclone ?a ?w = _ |- _ => let X := fresh in pose proof (HV a w) as X; rewrite E in X; cbn in X; clear E; injection X; intros; subst
             end. reflexivity.
    Qed.

    Lemma sees_same i : forall (sc : schedule K V Q) (S1 S2 : state) res1 res2,
      (forall j c, In (j, c) sc -> j <> i -> forall d r, In d (program i sc) -> In r (mentions d) -> ~ In r (given c)) ->
      (forall d r, In d (program i sc) -> In r (mentions d) -> S1 r = S2 r) ->
      good1 S1 (map snd sc) res1 -> good2 S2 (program i sc) res2 -> sees i sc (seen res1) = seen res2.
    Proof using K1 V1 K2 V2.
      induction sc as [|[j c] sc IH]; intros S1 S2 res1 res2 Ind A G1 G2.
      - inversion G2. reflexivity.
      - cbn [map snd] in G1. inversion G1 as [|Sa ca la o1 s1 hp1 S1' rest1 H1 M1 O1 G1' Ea Eb Ec]. subst Sa ca la res1.
        cbn [program] in *. cbn [seen map fst sees]. fold (seen rest1). destruct (Nat.eqb_spec j i) as [-> |N].
        + inversion G2 as [|Sb cb lb o2 s2 hp2 S2' rest2 H2 M2 O2 G2' Ed Ee Ef]. subst Sb cb lb res2.
          destruct (@spec_same K V Q cmp qcmp borrow eqb pcmp kc vc _ _ (@cloned_pure _ _ _ K1 V1) (@cloned_pure _ _ _ K2 V2) c S1 S2 S1' S2' o1 o2
            (fun r => A c r (or_introl eq_refl)) H1 H2) as [-> HS].
          cbn [seen map fst]. fold (seen rest2). f_equal. apply (IH S1' S2'); [| |assumption|assumption].
          * intros j' c' Hj' Nj' d r Hd Hr. eapply Ind; eauto. now right. now right.
          * intros d r Hd Hr. apply HS. eapply A; eauto. now right.
        + apply (IH S1' S2); [| |assumption|assumption].
          * intros j' c' Hj' Nj' d r Hd Hr. eapply Ind; eauto. now right.
          * intros d r Hd Hr. rewrite <- (A d r Hd Hr). eapply spec_frame; [exact H1|]. eapply Ind; eauto. now left.
    Qed.
    Lemma setup_same : forall (pre l1 l2 : list op) (S1 S2 : state) res1 res2, (forall r, S1 r = S2 r) ->
      good1 S1 (pre ++ l1) res1 -> good2 S2 (pre ++ l2) res2 ->
      exists S1' S2', (forall r, S1' r = S2' r) /\ firstn (length pre) (seen res1) = firstn (length pre) (seen res2) /\
        good1 S1' l1 (skipn (length pre) res1) /\ good2 S2' l2 (skipn (length pre) res2).
    Proof using K1 V1 K2 V2.
      induction pre as [|c pre IH]; intros l1 l2 S1 S2 res1 res2 A G1 G2.
      - cbn in *. exists S1, S2. auto.
      - cbn [app] in *. inversion G1 as [|Sa ca la o1 s1 hp1 S1' rest1 H1 M1 O1 G1' Ea Eb Ec]. subst Sa ca la res1.
        inversion G2 as [|Sb cb lb o2 s2 hp2 S2' rest2 H2 M2 O2 G2' Ed Ee Ef]. subst Sb cb lb res2.
        destruct (@spec_same K V Q cmp qcmp borrow eqb pcmp kc vc _ _ (@cloned_pure _ _ _ K1 V1) (@cloned_pure _ _ _ K2 V2) c S1 S2 S1' S2' o1 o2
            (fun r _ => A r) H1 H2) as [-> HS].
        destruct (IH _ _ _ _ _ _ (fun r => HS r (A r)) G1' G2') as (T1 & T2 & B1 & B2 & B3 & B4).
        exists T1, T2. cbn [length seen map fst firstn skipn]. fold (seen rest1) (seen rest2). rewrite B2. auto.
    Qed.
  End Two.

  (** an environment: what the allocator does, where it puts nodes, what clone does; it grants
      memory and the clone functions return the copies [kc] and [vc] *)
  Record generous W (nalloc : bool -> W -> option reserve_error * W) (place : heap -> W -> loc)
      (kclone : K -> W -> outcome reserve_error K * W) (vclone : V -> W -> outcome reserve_error V * W) : Prop := {
    gen_place : forall hp w, hget hp (place hp w) = None;
    gen_alloc : forall internal w, fst (nalloc internal w) = None;
    gen_key : forall k w, fst (kclone k w) = Ret (kc k);
    gen_val : forall v w, fst (vclone v w) = Ret (vc v)
  }.

  Section C61.
    Hypothesis (L1 : ord_laws cmp) (L2 : borrow_laws cmp qcmp borrow) (L3 : forall k, cmp k (kc k) = Eq).
    Variables (W1 : Type) (nalloc1 : bool -> W1 -> option reserve_error * W1) (place1 : heap -> W1 -> loc)
      (kclone1 : K -> W1 -> outcome reserve_error K * W1) (vclone1 : V -> W1 -> outcome reserve_error V * W1).
    Variables (W2 : Type) (nalloc2 : bool -> W2 -> option reserve_error * W2) (place2 : heap -> W2 -> loc)
      (kclone2 : K -> W2 -> outcome reserve_error K * W2) (vclone2 : V -> W2 -> outcome reserve_error V * W2).
    Hypothesis (E1 : generous nalloc1 place1 kclone1 vclone1) (E2 : generous nalloc2 place2 kclone2 vclone2).
    Notation run1 := (hrun nalloc1 place1 cmp qcmp borrow kclone1 vclone1 eqb pcmp).
    Notation run2 := (hrun nalloc2 place2 cmp qcmp borrow kclone2 vclone2 eqb pcmp).

    Lemma run_good W nalloc place kclone vclone : @generous W nalloc place kclone vclone -> forall ops w, Forall (@legal K V Q) ops ->
      runs_good cmp qcmp borrow kclone vclone eqb pcmp (nothing K V) ops (hrun nalloc place cmp qcmp borrow kclone vclone eqb pcmp ops hstart [] w).
    Proof using L1 L2 L3.
      intros E ops w HL. destruct E as [E1' E2' E3' E4']. apply C40_with_memory; auto.
      - intros k w0 k' w' X. pose proof (E3' k w0) as Y. rewrite X in Y. injection Y as ->. apply L3.
      - intros k w0. rewrite E3'. exact I.
      - intros k w0. rewrite E4'. exact I.
    Qed.

    (** ** C61: after any common [setup], each thread sees in the interleaved run what it would see alone
        (and with another allocator, another heap, other addresses) *)
    Theorem C61_threads : forall (setup : list op) (sc : schedule K V Q) w1 w2 i,
      Forall (@legal K V Q) setup -> Forall (@legal K V Q) (map snd sc) -> independent sc ->
      let all := seen (run1 (setup ++ map snd sc) hstart [] w1) in
      let alone := seen (run2 (setup ++ program i sc) hstart [] w2) in
      firstn (length setup) all = firstn (length setup) alone /\
      sees i sc (skipn (length setup) all) = skipn (length setup) alone.
    Proof using L1 L2 L3 E1 E2.
      intros setup sc w1 w2 i HL HS Ind all alone.
      assert (Forall (@legal K V Q) (program i sc)) as HP.
      { clear - HS. induction sc as [|[j c] sc IH]; cbn [program]; [constructor|]. cbn [map snd] in HS. inversion HS; subst.
        destruct (j =? i); [constructor|]; auto. }
      pose proof (run_good E1 w1 (proj2 (Forall_app _ _ _) (conj HL HS))) as G1.
      pose proof (run_good E2 w2 (proj2 (Forall_app _ _ _) (conj HL HP))) as G2.
      destruct (setup_same (gen_key E1) (gen_val E1) (gen_key E2) (gen_val E2) _ _ _ (fun r => eq_refl) G1 G2) as (S1 & S2 & A & B & G1' & G2').
      split; [exact B|]. unfold all, alone, seen. rewrite !skipn_map. refine (@sees_same _ _ _ _ _ _ (gen_key E1) (gen_val E1) (gen_key E2) (gen_val E2) i sc S1 S2 _ _ _ _ G1' G2'); [|intros; apply A].
      intros j c Hj Nj d r Hd Hr Hg. refine (Ind j c i d Hj _ Nj r Hg Hr).
      clear - Hd. induction sc as [|[j' c'] sc IH]; [destruct Hd|]. cbn [program] in Hd. destruct (Nat.eqb_spec j' i) as [-> |]; [|right; auto].
      destruct Hd as [-> |Hd]; [now left|right; auto].
    Qed.
  End C61.

  Section Schedules.
    Hypothesis (L1 : ord_laws cmp) (L2 : borrow_laws cmp qcmp borrow) (L3 : forall k, cmp k (kc k) = Eq).
    Variables (W1 : Type) (nalloc1 : bool -> W1 -> option reserve_error * W1) (place1 : heap -> W1 -> loc)
      (kclone1 : K -> W1 -> outcome reserve_error K * W1) (vclone1 : V -> W1 -> outcome reserve_error V * W1).
    Variables (W2 : Type) (nalloc2 : bool -> W2 -> option reserve_error * W2) (place2 : heap -> W2 -> loc)
      (kclone2 : K -> W2 -> outcome reserve_error K * W2) (vclone2 : V -> W2 -> outcome reserve_error V * W2).
    Hypothesis (E1 : generous nalloc1 place1 kclone1 vclone1) (E2 : generous nalloc2 place2 kclone2 vclone2).
    Notation run1 := (hrun nalloc1 place1 cmp qcmp borrow kclone1 vclone1 eqb pcmp).
    Notation run2 := (hrun nalloc2 place2 cmp qcmp borrow kclone2 vclone2 eqb pcmp).

    (** any two interleavings of the same programs look the same to every thread *)
    Theorem C61_schedules : forall (setup : list op) (sc sc' : schedule K V Q) w1 w2 i,
      Forall (@legal K V Q) setup -> Forall (@legal K V Q) (map snd sc) -> Forall (@legal K V Q) (map snd sc') ->
      independent sc -> independent sc' -> program i sc = program i sc' ->
      sees i sc (skipn (length setup) (seen (run1 (setup ++ map snd sc) hstart [] w1))) =
      sees i sc' (skipn (length setup) (seen (run2 (setup ++ map snd sc') hstart [] w2))).
    Proof using L1 L2 L3 E1 E2.
      intros setup sc sc' w1 w2 i HL HS HS' Ind Ind' EP.
      rewrite (proj2 (C61_threads L1 L2 L3 E1 E2 w1 w2 i HL HS Ind)), (proj2 (C61_threads L1 L2 L3 E2 E2 w2 w2 i HL HS' Ind')), EP. reflexivity.
    Qed.

    (** where the allocator puts the nodes cannot be seen *)
    Theorem C61_addresses : forall (ops : list op) w1 w2, Forall (@legal K V Q) ops -> seen (run1 ops hstart [] w1) = seen (run2 ops hstart [] w2).
    Proof using L1 L2 L3 E1 E2.
      intros ops w1 w2 HL. pose proof (@C61_threads L1 L2 L3 _ _ _ _ _ _ _ _ _ _ E1 E2 ops [] w1 w2 0 HL (Forall_nil _)) as H.
      cbn [map program] in H. rewrite !app_nil_r in H. destruct H as [H _]; [intros i c j d []|].
      assert (forall W nalloc place kclone vclone w, @generous W nalloc place kclone vclone ->
        length ops = length (seen (hrun nalloc place cmp qcmp borrow kclone vclone eqb pcmp ops hstart [] w))) as HN.
      { intros W nalloc place kclone vclone w E. pose proof (run_good L1 L2 L3 E w HL) as G. unfold seen. rewrite map_length.
        clear - G. induction G; cbn [length]; congruence. }
      rewrite (HN _ _ _ _ _ w1 E1) in H at 1. rewrite (HN _ _ _ _ _ w2 E2) in H. now rewrite !firstn_all in H.
    Qed.
  End Schedules.
End Runs.

(** ** Concrete threads *)
(** a common map 0 of 30 entries; thread 1 clones it to its map 1, splits that and inserts; thread 2 reads the common map and
    builds its own map 3, takes over map 4 *)
Definition t_setup : list (op nat nat nat) := map (fun k => Insert 0 ((k * 7) mod 30) k) (seq 0 30) ++ [Insert 4 100 1].
Definition t_sched : schedule nat nat nat :=
  [(1, TryClone 0 1); (2, Get 0 12); (2, Insert 3 50 5); (1, SplitOff 1 12 2); (1, Len 1); (2, Append 3 4); (1, Insert 2 13 0);
   (2, Iterate 3 [Back; Front]); (1, Equal 0 1); (2, RangeOver 0 (Excluded 20) (Excluded 20) []); (1, Iterate 2 [Front; Front]); (2, Remove 3 50); (2, Insert 4 7 7); (2, Len 0)].
Example t_independent : independent t_sched.
Proof.
  intros i c j d H1 H2 N r Hg Hm. unfold t_sched in *. cbn [In] in H1, H2.
  repeat (destruct H1 as [H1|H1]; [injection H1 as <- <-;
    repeat (destruct H2 as [H2|H2]; [injection H2 as <- <-; cbn [given mentions In] in *; try congruence; intuition (subst; discriminate)|]); destruct H2|]).
  destruct H1.
Qed.
Definition nat_eqb_ (x y : nat * nat) := (fst x =? fst y) && (snd x =? snd y).
Definition nat_pcmp_ (x y : nat * nat) := Some (Nat.compare (fst x) (fst y)).
Lemma generous_reuse : generous (fun k : nat => k) (fun v : nat => v) grant (@place_reuse nat nat unit) copy_ copy_.
Proof. constructor; try reflexivity. apply place_reuse_fresh. Qed.
Lemma generous_new : generous (fun k : nat => k) (fun v : nat => v) grant (@place_new nat nat unit) copy_ copy_.
Proof. constructor; try reflexivity. apply place_new_fresh. Qed.
Notation nrun1 := (hrun grant (@place_reuse nat nat unit) Nat.compare Nat.compare (fun k => k) copy_ copy_ nat_eqb_ nat_pcmp_).
Notation nrun2 := (hrun grant (@place_new nat nat unit) Nat.compare Nat.compare (fun k => k) copy_ copy_ nat_eqb_ nat_pcmp_).
Example t_threads : forall i,
  sees i t_sched (skipn (length t_setup) (seen (nrun1 (t_setup ++ map snd t_sched) hstart [] tt))) =
  skipn (length t_setup) (seen (nrun2 (t_setup ++ program i t_sched) hstart [] tt)).
Proof.
  intros i. apply (fun A B C => proj2 (@C61_threads nat nat nat Nat.compare Nat.compare (fun k => k) nat_eqb_ nat_pcmp_ (fun k => k) (fun v => v)
    nat_laws nat_borrow Nat.compare_refl _ _ _ _ _ _ _ _ _ _ generous_reuse generous_new t_setup t_sched tt tt i A B C)).
  - repeat constructor.
  - repeat constructor; cbn; lia.
  - apply t_independent.
Qed.
Example t_two_sees : sees 2 t_sched (skipn (length t_setup) (seen (nrun1 (t_setup ++ map snd t_sched) hstart [] tt))) =
  [Ret (OVal nat (Some 6)); Ret (OVal nat None); Ret OUnit; Ret (OSized [Some (100, 1); Some (50, 5)] 0); Panic; Ret (OVal nat (Some 5)); Ret (OVal nat None); Ret (ONat 30)].
Proof. vm_compute. reflexivity. Qed.
(** the addresses do differ *)
Example t_places : map (fun x => map rl (map mroot (map (snd (fst x)) [0; 1; 2; 3; 4]))) (skipn 42 (nrun1 (t_setup ++ map snd t_sched) hstart [] tt)) <>
  map (fun x => map rl (map mroot (map (snd (fst x)) [0; 1; 2; 3; 4]))) (skipn 42 (nrun2 (t_setup ++ map snd t_sched) hstart [] tt)).
Proof. vm_compute. discriminate. Qed.
(** without independence it is false: a thread that is given the map another one reads *)
Example t_racy : exists sc : schedule nat nat nat, ~ independent sc /\
  sees 1 sc (seen (nrun1 (map snd sc) hstart [] tt)) <> seen (nrun1 (program 1 sc) hstart [] tt).
Proof.
  exists [(2, Insert 0 1 1); (1, Len 0)]. split.
  - intros H. apply (H 2 (Insert 0 1 1) 1 (Len 0) (or_introl eq_refl) (or_intror (or_introl eq_refl)) ltac:(discriminate) 0); cbn; auto.
  - vm_compute. discriminate.
Qed.

Print Assumptions C61_threads.
Print Assumptions C61_schedules.
Print Assumptions C61_addresses.
