(** * Properties_Hash: C58, programs over several TryHashMaps *)
From Coq Require Import List Arith Lia Bool Permutation.
Import ListNotations.
From Verif Require Import Base VecModel VecConserve MiscModel MiscSpec HashHistoryModel HashHistorySpec HashHistoryProofs HashBooks.

Section Props.
  (** any world, allocator, equality of keys (even a lawless one), table
      layout, iteration order, and any clones and destructors *)
  Context {W : Type}.
  Variable alloc : nat -> W -> answer * W.
  Variable isize_max : nat.
  Context {K V : Type}.
  Variable keq : K -> K -> bool.
  Variable policy : nat -> bool.
  Variable esz : nat.
  Variable kclone : K -> W -> outcome reserve_error K * W.
  Variable vclone : V -> W -> outcome reserve_error V * W.
  Variable kdrop : K -> W -> W.
  Variable vdrop : V -> W -> W.
  Variable order : nat -> list (K * V) -> list (K * V).
  Notation trun := (trun alloc isize_max keq policy esz kclone vclone kdrop vdrop order).
  Notation thistory := (thistory alloc keq esz kclone vclone kdrop vdrop).

  Definition no_entries : nat -> list (K * V) := fun _ => [].
  Notation nothing := no_entries.

  Lemma new_same : same (no_maps K V) nothing.
  Proof. intros r. constructor. Qed.

  (** C58: every program is a history of the specification, to its end: no call
      aborts or is undefined, an error is a capacity overflow that the
      allocator caused or an error of a clone. *)
  Theorem C58_history (cs : list (top K V)) (w : W) :
    order_ok order -> clones_ok kclone vclone ->
    exists os g' S' w', trun cs (no_maps K V, w) = (os, (g', w')) /\ thistory cs nothing w os S' w' /\
      (forall r, Permutation (items (g' r)) (S' r)) /\ length os = length cs /\ Forall (fun o => o <> Abort /\ o <> UB) os.
  Proof.
    intros Ho Hc. destruct (@trun_is W alloc isize_max K V keq policy esz kclone vclone kdrop vdrop order Ho Hc cs (no_maps K V) nothing w new_same)
      as (os & g' & S' & w' & E & T & H & F).
    exists os, g', S', w'. split; [exact E|]. split; [exact T|]. split; [exact H|]. split; [|exact F].
    clear - T. induction T; cbn; auto.
  Qed.

  (** ... with a lawful equality no map ever holds two equal keys, so that a
      lookup has one possible answer *)
  Theorem C58_distinct (cs : list (top K V)) (w : W) os S' w' : key_eq_laws keq ->
    thistory cs nothing w os S' w' -> forall r, distinct_keys keq (S' r).
  Proof. intros Hk H. apply (dk_history Hk H). intros r. constructor. Qed.

  Theorem C58_lookup (l : list (K * V)) k x rest : key_eq_laws keq -> distinct_keys keq l -> finds keq k l x rest ->
    forall v, value_of x = Some v <-> exists k', keq k k' = true /\ In (k', v) l.
  Proof.
    intros Hk D F v. inversion F as [y r P E|M]; subst.
    - destruct y as [k0 v0]. cbn in *. split.
      + intros [= ->]. exists k0. split; [exact E|]. apply (Permutation_in _ (Permutation_sym P)). now left.
      + intros (k' & E' & Hin). apply (Permutation_in _ P) in Hin. destruct Hin as [[= <- <-]|Hin]; [reflexivity|].
        pose proof (dk_perm Hk P D) as D'. apply dk_cons in D' as [A _]. rewrite Forall_forall in A. specialize (A _ Hin). cbn in A.
        rewrite (keq_sym Hk) in E. rewrite (keq_trans Hk k0 k k' E E') in A. discriminate.
    - cbn. split; [discriminate|]. intros (k' & E' & Hin). unfold missing in M. rewrite Forall_forall in M. specialize (M _ Hin). cbn in M. congruence.
  Qed.

  Lemma ledger_sum (L : ledger W K V) (N : nat) cs w os S' w' (kw : K -> nat) (vw : V -> nat) :
    keeps alloc kclone vclone kdrop vdrop L -> blank L w -> Forall (below N) cs -> thistory cs nothing w os S' w' ->
    weigh kw (flat_map (@taken_k K V) cs ++ k_made L w') + weigh vw (flat_map (@taken_v K V) cs ++ v_made L w') =
    weigh kw (flat_map (@given_k K V) os ++ k_gone L w' ++ map fst (live N S')) +
    weigh vw (flat_map (@given_v K V) os ++ v_gone L w' ++ map snd (live N S')).
  Proof.
    intros HL (B1 & B2 & B3 & B4) Bl T.
    pose proof (thistory_w HL kw vw T Bl) as Q. rewrite tw_sum, ginw_sum in Q.
    assert (Z : lw kw vw (live N nothing) = 0) by (rewrite live_empty; auto).
    rewrite Z in Q. rewrite <- (wkv kw vw (live N S')) in Q. unfold gw, mw in Q. rewrite B1, B2, B3, B4 in Q.
    assert (Ek : forall l, weigh kw l = wk kw l) by (intros l; unfold wk, list_sum; induction l; cbn [weigh map fold_right]; auto).
    assert (Ev : forall l, weigh vw l = wv vw l) by (intros l; unfold wv, list_sum; induction l; cbn [weigh map fold_right]; auto).
    repeat rewrite Ek. repeat rewrite Ev.
    rewrite !(wk_app kw), !(wv_app vw). change (wk kw []) with 0 in Q. change (wv vw []) with 0 in Q. lia.
  Qed.

  (** ... whatever the equality does, with any ledger: what was put in plus what
      clones made is what was handed out, plus what was destroyed, plus what
      the maps hold.  [kw] and [vw] are any weights: with weight 1 for one key
      and 0 for all else this counts how often that key occurs *)
  Theorem C58_conservation (L : ledger W K V) (N : nat) (cs : list (top K V)) (w : W) (kw : K -> nat) (vw : V -> nat) :
    order_ok order -> clones_ok kclone vclone -> keeps alloc kclone vclone kdrop vdrop L -> blank L w -> Forall (below N) cs ->
    exists os g' S' w', trun cs (no_maps K V, w) = (os, (g', w')) /\ thistory cs nothing w os S' w' /\
      (forall r, Permutation (items (g' r)) (S' r)) /\
      weigh kw (flat_map (@taken_k K V) cs ++ k_made L w') + weigh vw (flat_map (@taken_v K V) cs ++ v_made L w') =
      weigh kw (flat_map (@given_k K V) os ++ k_gone L w' ++ map fst (live N S')) +
      weigh vw (flat_map (@given_v K V) os ++ v_gone L w' ++ map snd (live N S')).
  Proof.
    intros Ho Hc HL Hb Bl. destruct (C58_history cs w Ho Hc) as (os & g' & S' & w' & E & T & H & _).
    exists os, g', S', w'. split; [exact E|]. split; [exact T|]. split; [exact H|]. exact (ledger_sum L N cs w os S' w' kw vw HL Hb Bl T).
  Qed.

  (** ... and when at the end all maps are dropped, every key and every value
      has been handed out or destroyed, once *)
  Theorem C58_exactly_once (kdec : forall x y : K, {x = y} + {x <> y}) (vdec : forall x y : V, {x = y} + {x <> y})
      (L : ledger W K V) (N : nat) (cs : list (top K V)) (w : W) :
    order_ok order -> clones_ok kclone vclone -> keeps alloc kclone vclone kdrop vdrop L -> blank L w -> Forall (below N) cs ->
    exists os g' w', trun (cs ++ map (@TNew K V) (seq 0 N)) (no_maps K V, w) = (os, (g', w')) /\
      Permutation (flat_map (@taken_k K V) cs ++ k_made L w') (flat_map (@given_k K V) os ++ k_gone L w') /\
      Permutation (flat_map (@taken_v K V) cs ++ v_made L w') (flat_map (@given_v K V) os ++ v_gone L w').
  Proof.
    intros Ho Hc HL Hb Bl. set (cs' := cs ++ map (@TNew K V) (seq 0 N)).
    assert (Bl' : Forall (below N) cs'). { apply Forall_app. split; [exact Bl|]. apply Forall_map, Forall_forall. intros x Hx. apply in_seq in Hx. cbn. lia. }
    assert (Tk : flat_map (@taken_k K V) cs' = flat_map (@taken_k K V) cs).
    { unfold cs'. rewrite flat_map_app. replace (flat_map _ (map _ _)) with (@nil K); [apply app_nil_r|]. generalize (seq 0 N). intros l. induction l; cbn; auto. }
    assert (Tv : flat_map (@taken_v K V) cs' = flat_map (@taken_v K V) cs).
    { unfold cs'. rewrite flat_map_app. replace (flat_map _ (map _ _)) with (@nil V); [apply app_nil_r|]. generalize (seq 0 N). intros l. induction l; cbn; auto. }
    destruct (C58_history cs' w Ho Hc) as (os & g' & S' & w' & E & T & _).
    assert (Hlive : live N S' = []).
    { apply live_empty. destruct (thistory_app _ _ T) as (os1 & os2 & S1 & w1 & _ & _ & T2).
      intros r Hr. refine (drop_all_empty N T2 _ _); [|exact Hr]. intros; lia. }
    pose proof (fun kw vw => ledger_sum L N cs' w os S' w' kw vw HL Hb Bl' T) as Q. rewrite Hlive, Tk, Tv in Q. cbn [map] in Q.
    assert (Z : forall A (l : list A), weigh (fun _ => 0) l = 0) by (intros A l; induction l; cbn; auto).
    exists os, g', w'. split; [exact E|]. split.
    - apply (weigh_permutation kdec). intros wt. specialize (Q wt (fun _ => 0)). rewrite !Z, !app_nil_r in Q. lia.
    - apply (weigh_permutation vdec). intros wt. specialize (Q (fun _ => 0) wt). rewrite !Z, !app_nil_r in Q. lia.
  Qed.
End Props.

(** ** Examples: the hypotheses are met and the cases occur *)
Section Examples.
  (** The world: how many allocations are still granted, and four lists, the
      ledger.  Keys are numbers, equal if their last digits are; key 7 cannot
      be cloned (an error), cloning 8 panics, the clone of [k] is [k + 10];
      value 6 cannot be cloned and the clone of [v] is [v + 100].  Tables are
      listed backwards at every other step. *)
  Definition W1 : Type := nat * (list nat * list nat * list nat * list nat).
  Definition alloc1 (n : nat) (w : W1) : answer * W1 :=
    match w with (0, l) => (Refuse AllocError, w) | (S b, l) => (Grant 0, (b, l)) end.
  Definition keq1 (a b : nat) : bool := a mod 10 =? b mod 10.
  Definition kclone1 (k : nat) (w : W1) : outcome reserve_error nat * W1 :=
    let '(b, (a1, a2, a3, a4)) := w in
    match k with 7 => (Err AllocError, w) | 8 => (Panic, w) | _ => (Ret (k + 10), (b, (k + 10 :: a1, a2, a3, a4))) end.
  Definition vclone1 (v : nat) (w : W1) : outcome reserve_error nat * W1 :=
    let '(b, (a1, a2, a3, a4)) := w in
    match v with 6 => (Err AllocError, w) | _ => (Ret (v + 100), (b, (a1, a2, v + 100 :: a3, a4))) end.
  Definition kdrop1 (k : nat) (w : W1) : W1 := let '(b, (a1, a2, a3, a4)) := w in (b, (a1, k :: a2, a3, a4)).
  Definition vdrop1 (v : nat) (w : W1) : W1 := let '(b, (a1, a2, a3, a4)) := w in (b, (a1, a2, a3, v :: a4)).
  Definition order1 (n : nat) (l : list (nat * nat)) := if Nat.even n then l else rev l.
  Definition ledger1 : ledger W1 nat nat :=
    {| k_made := fun w => fst (fst (fst (snd w))); k_gone := fun w => snd (fst (fst (snd w)));
       v_made := fun w => snd (fst (snd w)); v_gone := fun w => snd (snd w) |}.

  Example order1_ok : order_ok order1.
  Proof. intros n l. unfold order1. destruct (Nat.even n); [reflexivity|]. symmetry. apply Permutation_rev. Qed.
  Example clones1_ok : clones_ok kclone1 vclone1.
  Proof.
    split; intros x (b & ((a1 & a2) & a3) & a4); unfold ends_well; cbn.
    - do 9 (destruct x as [|x]; [cbn; split; discriminate|]). cbn. split; discriminate.
    - do 7 (destruct x as [|x]; [cbn; split; discriminate|]). cbn. split; discriminate.
  Qed.
  Example ledger1_ok : keeps alloc1 kclone1 vclone1 kdrop1 vdrop1 ledger1.
  Proof.
    constructor; intros x (b & ((a1 & a2) & a3) & a4).
    - destruct b; cbn; repeat split.
    - cbn. auto.
    - cbn. auto.
    - unfold kclone1. do 9 (destruct x as [|x]; [cbn; auto|]). cbn. auto.
    - unfold vclone1. do 7 (destruct x as [|x]; [cbn; auto|]). cbn. auto.
  Qed.
  Example keq1_laws : key_eq_laws keq1.
  Proof.
    unfold keq1. split.
    - intros. apply Nat.eqb_refl.
    - intros. apply Nat.eqb_sym.
    - intros a b c H1 H2. apply Nat.eqb_eq in H1, H2. apply Nat.eqb_eq. congruence.
  Qed.

  (** equal keys, a removal, a clone, a clone that fails at a key, one that
      fails at a value, one that panics, an iterator left half way, a refusal *)
  Notation demo := [TInsert 0 1 11; TInsert 0 21 22; TInsert 0 3 33; TTryClone 1 0; TIter 1; TRemove nat 0 31; TGet nat 0 13; TLen 0;
    TInsert 0 5 6; TTryClone 1 0; TLen 1; TInsert 2 1 1; TInsert 2 8 1; TTryClone 1 2; TInsert 3 7 1; TTryClone 3 3; TInto 1 1; TLen 1;
    TWithCapacity 4 9; TInsert 4 1 1; TInto 2 5].
  Example below1 : Forall (@below nat nat 5) demo.
  Proof. repeat constructor. Qed.
  Example run1 : fst (trun alloc1 1000 keq1 (fun _ => false) 8 kclone1 vclone1 kdrop1 vdrop1 order1 demo (no_maps nat nat, (7, ([], [], [], [])))) =
    [ Ret (TOpt None); Ret (TOpt (Some 11)); Ret (TOpt None); Ret TUnit; Ret (TEntries [(13, 133); (11, 122)]);
       Ret (TOpt (Some 22)); Ret (TRef (Some 33)); Ret (TNum 1); Ret (TOpt None); Err AllocError; Ret (TNum 2); Ret (TOpt None); Ret (TOpt None); Panic;
       Ret (TOpt None); Err AllocError; Ret (TTaken [(13, 133)]); Ret (TNum 0); Err CapacityOverflow; Err CapacityOverflow; Ret (TTaken [(1, 1); (8, 1)])].
  Proof. vm_compute. reflexivity. Qed.
End Examples.

Print Assumptions C58_history.
Print Assumptions C58_distinct.
Print Assumptions C58_lookup.
Print Assumptions C58_conservation.
Print Assumptions C58_exactly_once.
