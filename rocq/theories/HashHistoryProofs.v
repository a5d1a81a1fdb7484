(** * HashHistoryProofs: programs over hash maps do what HashHistorySpec says *)
From Coq Require Import List Arith Lia Bool Permutation.
Import ListNotations.
From Verif Require Import Base VecModel MiscModel MiscProofs HashHistoryModel HashHistorySpec.
Set Implicit Arguments.

Section P.
  Variable W : Type.
  Variable alloc : nat -> W -> answer * W.
  Variable isize_max : nat.
  Variables K V : Type.
  Variable keq : K -> K -> bool.
  Variable policy : nat -> bool.
  Variable esz : nat.
  Variable kclone : K -> W -> outcome reserve_error K * W.
  Variable vclone : V -> W -> outcome reserve_error V * W.
  Variable kdrop : K -> W -> W.
  Variable vdrop : V -> W -> W.
  Variable order : nat -> list (K * V) -> list (K * V).
  Hypothesis Ho : order_ok order.
  Notation kv := (K * V)%type.
  Notation hmap := (hmap K V).
  Notation finds := (finds keq).
  Notation dies := (dies kdrop vdrop).
  Notation buries := (buries kdrop vdrop).
  Notation room := (@room W alloc K V esz).
  Notation no_room := (@no_room W alloc K V esz).
  Notation t_insert := (t_insert alloc isize_max keq policy esz kdrop vdrop).
  Notation t_try_clone := (t_try_clone alloc isize_max keq policy esz kclone vclone kdrop vdrop order).

  (** *** lookups *)
  Lemma lookup k (l : list kv) : exists x rest, finds k l x rest /\
    assoc keq k l = value_of x /\ stored keq k l = option_map fst x /\
    Permutation (assoc_remove keq k l) rest /\
    (forall v, x <> None -> Permutation (assoc_set keq k v l) (put k v x rest)).
  Proof using.
    induction l as [|[k1 v1] l IH]; cbn.
    - exists None, []. split; [apply not_found; constructor|]. split; [reflexivity|]. split; [reflexivity|]. split; [constructor|]. intros v H; now destruct H.
    - destruct (keq k k1) eqn:E.
      + exists (Some (k1, v1)), l. split; [now apply found|]. split; [reflexivity|]. split; [reflexivity|]. split; reflexivity.
      + destruct IH as (x & rest & F & A & B & C & D). inversion F as [y r P Q|M]; subst.
        * exists (Some y), ((k1, v1) :: rest). split; [|split; [exact A|split; [exact B|split; [now apply perm_skip|]]]].
          -- apply found; [|exact Q]. rewrite P. apply perm_swap.
          -- intros v _. destruct y as [k0 v0]. cbn. rewrite (D v) by discriminate. cbn. apply perm_swap.
        * exists None, ((k1, v1) :: rest). split; [|split; [exact A|split; [exact B|split; [now apply perm_skip|]]]].
          -- apply not_found. now constructor.
          -- intros v H; now destruct H.
  Qed.

  Lemma missing_perm k (l l' : list kv) : Permutation l l' -> missing keq k l -> missing keq k l'.
  Proof using. intros P M. unfold missing in *. rewrite Forall_forall in *. intros x Hx. apply M. now apply (Permutation_in x (Permutation_sym P)). Qed.

  (** a lookup in another order of the same entries *)
  Lemma finds_perm k (l l' : list kv) x rest : Permutation l l' -> finds k l x rest ->
    exists rest', finds k l' x rest' /\ Permutation rest rest'.
  Proof using.
    intros P F. inversion F as [y r Q E|M]; subst.
    - exists rest. split; [|reflexivity]. apply found; [|exact E]. now rewrite <- P.
    - exists l'. split; [|exact P]. apply not_found. now apply (missing_perm P).
  Qed.

  Lemma put_perm k v x (r r' : list kv) : Permutation r r' -> Permutation (put k v x r) (put k v x r').
  Proof using. intros P. destruct x as [[k0 v0]|]; cbn; now apply perm_skip. Qed.

  (** *** room *)
  Lemma reserve_is n (m : hmap) w :
    (exists m' w', thm_reserve alloc isize_max esz n (m, w) = (Ret tt, (m', w')) /\ items m' = items m /\
        n <= growth_left m' /\ room n (items m) w w' /\ (n <= growth_left m -> m' = m /\ w' = w)) \/
    (exists w', thm_reserve alloc isize_max esz n (m, w) = (Err CapacityOverflow, (m, w')) /\ no_room n (items m) w w' /\ growth_left m < n).
  Proof using.
    unfold thm_reserve, hmap_try_reserve. destruct (Nat.leb_spec n (growth_left m)) as [L|L].
    - left. exists m, w. repeat split; auto. now left.
    - destruct (alloc ((length (items m) + n) * esz) w) as [[x|e] w'] eqn:E.
      + left. eexists _, w'. split; [reflexivity|]. cbn. split; [reflexivity|]. split; [lia|]. split; [|lia]. right. now exists x.
      + right. exists w'. cbn. rewrite make_error. split; [reflexivity|]. split; [|exact L]. split; [lia|]. now exists e.
  Qed.

  Lemma insert_is k v (m : hmap) w :
    (exists n m' w1 x rest w', t_insert k v m w = (Ret (value_of x), (m', w')) /\ (n = 1 \/ n = 4) /\ room n (items m) w w1 /\
        finds k (items m) x rest /\ buries (match x with Some _ => [DeadK V k] | None => [] end) w1 w' /\
        Permutation (items m') (put k v x rest) /\
        (0 < growth_left m -> growth_left m - 1 <= growth_left m' /\ w1 = w)) \/
    (exists n w1 w', t_insert k v m w = (Err CapacityOverflow, (m, w')) /\ (n = 1 \/ n = 4) /\ no_room n (items m) w w1 /\
        buries [DeadV K v; DeadK V k] w1 w' /\ growth_left m = 0).
  Proof using.
    unfold t_insert. rewrite thm_insert_eq. set (n := if hmap_capacity m =? 0 then 4 else 1).
    assert (Hn : n = 1 \/ n = 4) by (unfold n; destruct (_ =? 0); auto).
    assert (G1 : 0 < growth_left m -> n <= growth_left m).
    { intros G. unfold n, hmap_capacity. destruct (Nat.eqb_spec (length (items m) + growth_left m) 0); lia. }
    assert (G2 : growth_left m < n -> growth_left m = 0) by lia.
    destruct (reserve_is n m w) as [(m1 & w1 & E & Ei & Eg & R & Q)|(w1 & E & R & L)];
      unfold bind; rewrite !E.
    - left. unfold std_hmap_insert, hmap_reserve, hmap_try_reserve, bind.
      destruct (Nat.leb_spec 1 (growth_left m1)) as [L|L]; [|lia].
      destruct (lookup k (items m1)) as (x & rest & F & A & B & C & D). rewrite A, Ei in *.
      destruct x as [[k0 v0]|]; cbn [value_of option_map snd].
      + eexists n, _, w1, (Some (k0, v0)), rest, (kdrop k w1). split; [reflexivity|]. split; [exact Hn|]. split; [exact R|]. split; [exact F|]. split; [reflexivity|].
        split; [apply D; discriminate|]. intros G. destruct (Q (G1 G)) as [-> ->]. cbn. split; [lia|reflexivity].
      + exists n. eexists. exists w1, None, (items m), w1. split; [reflexivity|]. split; [exact Hn|]. split; [exact R|].
        assert (M : missing keq k (items m)) by (inversion F; auto). split; [now apply not_found|]. split; [reflexivity|].
        split; [cbn; reflexivity|]. intros G. destruct (Q (G1 G)) as [-> ->]. cbn. split; [|reflexivity]. destruct (policy (hstep m)); lia.
    - right. exists n, w1. eexists. split; [reflexivity|]. split; [exact Hn|]. split; [exact R|]. split; [reflexivity|auto].
  Qed.

  (** *** drops *)
  Lemma drop_entries_is (l : list kv) : forall w, drop_entries kdrop vdrop l w = fold_left (bury kdrop vdrop) (remains l) w.
  Proof using. induction l as [|x l IH]; intros w; cbn; [reflexivity|]. apply IH. Qed.

  Lemma drop_map_is (m : hmap) l w : Permutation (items m) l -> dies l w (drop_map kdrop vdrop order m w).
  Proof using Ho.
    intros P. exists (t_iter order m). split; [unfold t_iter; rewrite (Ho _ _); exact P|]. unfold HashHistorySpec.buries, drop_map. apply drop_entries_is.
  Qed.

  (** *** clones *)
  Hypothesis Hc : clones_ok kclone vclone.

  Lemma clone_loop_is l : forall (c : hmap) cl w, Permutation (items c) cl -> length l <= growth_left c ->
    exists o c' cl' w', t_clone_loop alloc isize_max keq policy esz kclone vclone kdrop vdrop l c w = (o, (c', w')) /\
      copies keq kclone vclone kdrop vdrop l cl w o cl' w' /\ Permutation (items c') cl'.
  Proof using Hc.
    induction l as [|[k v] l IH]; intros c cl w P G; cbn [t_clone_loop].
    - exists (Ret tt), c, cl, w. repeat split; auto. constructor.
    - destruct Hc as [Hk Hv]. pose proof (Hk k w) as Hk1.
      destruct (kclone k w) as [[k'|e| | |] w1] eqn:Ek; cbn in Hk1;
        [|exists (Err e), c, cl, w1; repeat split; auto; now apply copies_key_err
         |exists Panic, c, cl, w1; repeat split; auto; now apply copies_key_panic
         |destruct Hk1; congruence|destruct Hk1; congruence].
      pose proof (Hv v w1) as Hv1.
      destruct (vclone v w1) as [[v'|e| | |] w2] eqn:Ev; cbn in Hv1;
        [|exists (Err e), c, cl, (kdrop k' w2); repeat split; auto; eapply copies_val_err; eassumption
         |exists Panic, c, cl, (kdrop k' w2); repeat split; auto; eapply copies_val_panic; eassumption
         |destruct Hv1; congruence|destruct Hv1; congruence].
      cbn in G. destruct (insert_is k' v' c w2) as [(n & m' & w3 & x & rest & w4 & Ei & _ & _ & F & B & Pi & Gi)|(n & w3 & w4 & _ & _ & _ & _ & Z)]; [|lia].
      rewrite Ei. destruct (Gi ltac:(lia)) as [Gl ->].
      destruct (finds_perm P F) as (rest' & F' & Pr).
      destruct (IH m' (put k' v' x rest') (drop_opt vdrop (value_of x) w4)) as (o & c' & cl' & w' & El & Hcp & Hp).
      { rewrite Pi. now apply put_perm. } { lia. }
      exists o, c', cl', w'. split; [exact El|]. split; [|exact Hp].
      eapply copies_next with (w3 := drop_opt vdrop (value_of x) w4); eauto.
      destruct x as [[k0 v0]|]; unfold HashHistorySpec.buries in *; cbn in *; now rewrite B.
  Qed.

  Lemma copies_ends l c w o c' w' : copies keq kclone vclone kdrop vdrop l c w o c' w' -> o = Ret tt \/ (exists e, o = Err e) \/ o = Panic.
  Proof using. induction 1; eauto. Qed.

  Lemma try_clone_is (m : hmap) l w : Permutation (items m) l ->
    (exists ord w1 c cl w', t_try_clone m w = (Ret c, w') /\ room (length l) [] w w1 /\ Permutation ord l /\
        copies keq kclone vclone kdrop vdrop ord [] w1 (Ret tt) cl w' /\ Permutation (items c) cl) \/
    (exists w', t_try_clone m w = (Err CapacityOverflow, w') /\ no_room (length l) [] w w') \/
    (exists ord w1 cl o w2 w', (o = Panic \/ exists e, o = Err e) /\
        t_try_clone m w = (match o with Err e => Err e | _ => Panic end, w') /\
        room (length l) [] w w1 /\ Permutation ord l /\ copies keq kclone vclone kdrop vdrop ord [] w1 o cl w2 /\ dies cl w2 w').
  Proof using Hc Ho.
    intros P. unfold t_try_clone, thm_with_capacity, thm_len. rewrite (Permutation_length P).
    destruct (reserve_is (length l) (hmap_new K V) w) as [(m1 & w1 & E & Ei & Eg & R & _)|(w1 & E & R & _)]; rewrite E.
    2: { right. left. exists w1. auto. }
    assert (Po : Permutation (t_iter order m) l) by (unfold t_iter; rewrite (Ho _ _); exact P).
    destruct (@clone_loop_is (t_iter order m) m1 [] w1) as (o & c' & cl' & w2 & El & Hcp & Hp).
    { now rewrite Ei. } { now rewrite (Permutation_length Po). }
    rewrite El. destruct (copies_ends Hcp) as [-> | [[e ->] | ->]].
    - left. exists (t_iter order m), w1, c', cl', w2. auto 6.
    - right. right. exists (t_iter order m), w1, cl', (Err e), w2. eexists. split; [right; now exists e|]. split; [reflexivity|]. split; [exact R|]. split; [exact Po|]. split; [exact Hcp|]. now apply drop_map_is.
    - right. right. exists (t_iter order m), w1, cl', Panic, w2. eexists. split; [now left|]. split; [reflexivity|]. split; [exact R|]. split; [exact Po|]. split; [exact Hcp|]. now apply drop_map_is.
  Qed.

  (** *** one call *)
  Notation tspec := (tspec alloc keq esz kclone vclone kdrop vdrop).
  Definition same (g : tregs K V) (S : nat -> list kv) : Prop := forall r, Permutation (items (g r)) (S r).

  Lemma same_upd g S r m l : same g S -> Permutation (items m) l -> same (upd g r m) (upd S r l).
  Proof using. intros H P r'. unfold upd. destruct (r' =? r); auto. Qed.
  Lemma same_id g S r : same g S -> same (upd g r (g r)) S.
  Proof using. intros H r'. unfold upd. destruct (Nat.eqb_spec r' r) as [->|N]; auto. Qed.

  Lemma assign_same r m l g S w : same g S -> Permutation (items m) l ->
    exists g' w', t_assign kdrop vdrop order r m g w = (g', w') /\ same g' (upd S r l) /\ dies (S r) w w'.
  Proof using Ho.
    intros H P. unfold t_assign. do 2 eexists. split; [reflexivity|]. split; [now apply same_upd|]. apply drop_map_is, H.
  Qed.

  Lemma tstep_is c g S w : same g S -> exists o g' S' w',
    tstep alloc isize_max keq policy esz kclone vclone kdrop vdrop order c (g, w) = (o, (g', w')) /\
    tspec S w c o S' w' /\ same g' S' /\ ends_well o.
  Proof using Hc Ho.
    intros H. assert (WE : forall e, ends_well (A := tres K V) (Err e)) by (intros; split; discriminate).
    assert (WR : forall a : tres K V, ends_well (Ret a)) by (intros; split; discriminate).
    assert (WP : ends_well (A := tres K V) Panic) by (split; discriminate).
    destruct c as [r|r n|r k v|r k|r k|r|r|r n|r t]; cbn [tstep].
    - destruct (@assign_same r (hmap_new K V) [] g S w H (perm_nil _)) as (g' & w' & E & Hs & D).
      rewrite E. exists (Ret TUnit), g', (upd S r []), w'. split; [reflexivity|]. split; [now constructor|]. auto.
    - unfold thm_with_capacity. destruct (reserve_is n (hmap_new K V) w) as [(m1 & w1 & E & Ei & Eg & R & _)|(w1 & E & R & _)]; rewrite E; cbn [t_built].
      + destruct (@assign_same r m1 [] g S w1 H) as (g' & w' & Ea & Hs & D). { now rewrite Ei. }
        rewrite Ea. exists (Ret TUnit), g', (upd S r []), w'. split; [reflexivity|]. split; [eapply t_with; eassumption|]. auto.
      + exists (Err CapacityOverflow), g, S, w1. split; [reflexivity|]. split; [now apply t_with_no|]. auto.
    - destruct (insert_is k v (g r) w) as [(n & m' & w1 & x & rest & w' & E & Hn & R & F & B & P & _)|(n & w1 & w' & E & Hn & R & B & _)]; rewrite E.
      + destruct (finds_perm (H r) F) as (rest' & F' & Pr).
        exists (Ret (TOpt (value_of x))), (upd g r m'), (upd S r (put k v x rest')), w'. split; [reflexivity|].
        split; [|split; [apply same_upd; [exact H|]; rewrite P; now apply put_perm|apply WR]].
        eapply t_put; eauto. unfold HashHistorySpec.room in *. now rewrite <- (Permutation_length (H r)).
      + exists (Err CapacityOverflow), (upd g r (g r)), S, w'. split; [reflexivity|]. split; [|split; [now apply same_id|apply WE]].
        eapply t_put_no; eauto. unfold HashHistorySpec.no_room in *. now rewrite <- (Permutation_length (H r)).
    - destruct (lookup k (items (g r))) as (x & rest & F & A & B & C & _).
      destruct (finds_perm (H r) F) as (rest' & F' & Pr).
      unfold t_remove, thm_remove, hmap_remove. rewrite A, B.
      destruct x as [[k0 v0]|]; cbn [value_of option_map fst snd].
      + exists (Ret (TOpt (Some v0))). do 1 eexists. exists (upd S r rest'), (kdrop k0 w). split; [reflexivity|].
        split; [|split; [apply same_upd; [exact H|]; cbn; now rewrite C|apply WR]].
        exact (@t_del W alloc K V keq esz kclone vclone kdrop vdrop S w r k _ rest' _ F' eq_refl).
      + exists (Ret (TOpt None)), (upd g r (g r)), (upd S r rest'), w. split; [reflexivity|].
        split; [|split; [|apply WR]].
        * exact (@t_del W alloc K V keq esz kclone vclone kdrop vdrop S w r k _ rest' _ F' eq_refl).
        * apply same_upd; [exact H|]. inversion F'; subst. apply H.
    - destruct (lookup k (items (g r))) as (x & rest & F & A & _ & _ & _).
      destruct (finds_perm (H r) F) as (rest' & F' & _).
      exists (Ret (TRef (value_of x))), g, S, w. split; [unfold thm_get; now rewrite A|]. split; [eapply t_look; eassumption|]. auto.
    - exists (Ret (TNum (length (S r)))), g, S, w. split; [unfold thm_len; now rewrite (Permutation_length (H r))|]. split; [constructor|]. auto.
    - exists (Ret (TEntries (t_iter order (g r)))), g, S, w. split; [reflexivity|]. split; [constructor|auto]. unfold t_iter. rewrite (Ho _ _). apply H.
    - unfold t_into. exists (Ret (TTaken (firstn n (t_iter order (g r))))). do 1 eexists. exists (upd S r []). eexists. split; [reflexivity|].
      assert (P : Permutation (t_iter order (g r)) (S r)) by (unfold t_iter; rewrite (Ho _ _); apply H).
      split; [|split; [apply same_upd; [exact H|constructor]|apply WR]].
      apply t_take with (rest := skipn n (t_iter order (g r))).
      + now rewrite firstn_skipn.
      + now rewrite firstn_length, (Permutation_length P).
      + apply drop_entries_is.
    - destruct (@try_clone_is (g t) (S t) w (H t)) as [(ord & w1 & c & cl & w' & E & R & P & C & Pc)|[(w' & E & R)|(ord & w1 & cl & o & w2 & w' & Eo & E & R & P & C & D)]]; rewrite E; cbn [t_built].
      + destruct (@assign_same r c cl g S w' H Pc) as (g' & w'' & Ea & Hs & D).
        rewrite Ea. exists (Ret TUnit), g', (upd S r cl), w''. split; [reflexivity|]. split; [eapply t_copy; eassumption|]. auto.
      + exists (Err CapacityOverflow), g, S, w'. split; [reflexivity|]. split; [now apply t_copy_no_room|]. auto.
      + destruct Eo as [-> | [e ->]].
        * exists Panic, g, S, w'. split; [reflexivity|]. split; [eapply t_copy_panic; eassumption|]. auto.
        * exists (Err e), g, S, w'. split; [reflexivity|]. split; [eapply t_copy_err; eassumption|]. auto.
  Qed.

  Lemma trun_is cs : forall g S w, same g S -> exists os g' S' w',
    trun alloc isize_max keq policy esz kclone vclone kdrop vdrop order cs (g, w) = (os, (g', w')) /\
    thistory alloc keq esz kclone vclone kdrop vdrop cs S w os S' w' /\ same g' S' /\ Forall (@ends_well _) os.
  Proof using Hc Ho.
    induction cs as [|c cs IH]; intros g S w H; cbn [trun].
    - exists [], g, S, w. split; [reflexivity|]. split; [constructor|]. auto.
    - destruct (@tstep_is c g S w H) as (o & g1 & S1 & w1 & E & T & H1 & Wo). rewrite E.
      destruct (IH g1 S1 w1 H1) as (os & g' & S' & w' & Er & Th & H' & Wos).
      exists (o :: os), g', S', w'. rewrite Er. destruct Wo as [Wa Wu].
      split; [destruct o; congruence|]. split; [econstructor; eassumption|]. split; [exact H'|]. constructor; [now split|exact Wos].
  Qed.
End P.
