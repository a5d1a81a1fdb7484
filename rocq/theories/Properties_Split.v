(** * Properties_Split: what a panicking split_off leaves behind

    A comparison that panics inside split_off either leaves the map exactly
    as it was, or leaves one whose later drop is undefined behaviour, whatever
    the program does with its other maps in between. *)
From Coq Require Import List Arith Lia Bool Permutation.
From Verif Require Import Base MapSpec IterSpec BTreeModel BTreeInv BTreeLemmas BTreeIterModel BTreeClone HeapModel HistoryModel HistorySpec HistoryProofs HeapMapModel HeapRes HeapMap HeapTorn HeapSplit HeapSpec HeapHistory.
From Verif Require Import HostileModel HostileSpec HostilePure HostileOps HostileSplit HostileHistory ContainSpec ContainProofs.
From Verif Require Import Examples Properties_BTree Properties_History Properties_Heap Properties_Hostile Properties_Contain Properties_Torn.
Import ListNotations.
Set Implicit Arguments.

(** the variables to be left alone after [ops], of which [outs] are the outcomes *)
Fixpoint left_alone (K V Q : Type) (D : list nat) (ops : list (op K V Q)) (outs : list (outcome reserve_error (obs K V))) : list nat :=
  match ops, outs with
  | c :: ops', o :: outs' => left_alone (suspect c o ++ D) ops' outs'
  | _, _ => D
  end.

Section Hostile.
  Variables (K V Q W : Type) (nalloc : bool -> W -> option reserve_error * W) (place : heap K V -> W -> loc).
  Variables (kclone : K -> W -> outcome reserve_error K * W) (vclone : V -> W -> outcome reserve_error V * W).
  Notation kv := (K * V)%type.
  Notation heap := (heap K V).
  Variables (kcmp : K -> K -> asks W comparison) (qcmp : Q -> K -> asks W comparison) (qeq qgt : Q -> Q -> asks W bool) (view : bound_ Q -> asks W (bound_ Q)).
  Variables (eqb : kv -> kv -> asks W bool) (pcmp : kv -> kv -> asks W (option comparison)).
  Notation hxstep := (hxstep nalloc place kcmp qcmp qeq qgt view kclone vclone eqb pcmp).
  Notation hxrun := (hxrun nalloc place kcmp qcmp qeq qgt view kclone vclone eqb pcmp).
  Notation lt := (fun _ _ : K => Lt).
  Notation some_panic := (some_panic kcmp qcmp eqb pcmp).
  Notation result := (outcome reserve_error (obs K V) * hregs * heap)%type.
  Notation runs_contained := (runs_contained (K := K) (V := V) (Q := Q) (no_memory nalloc) (cloned kclone vclone) (clone_fails nalloc kclone vclone) some_panic).

  Section Run.
    Hypothesis place_fresh : forall hp w, hget hp (place hp w) = None.

    (** one step: nothing has moved, or the map is doomed *)
    Lemma split_step r x t D s2 s hp (S : nat -> list kv) s1 ss rs lost s2' hp' (w w' : W) :
      ward lt D s2 s hp S s1 ss rs lost -> ~ In r D -> hxstep (SplitOff r x t) s2 hp w = (Panic, s2', hp', w') ->
      (exists s' s1' ss' rs' lost', ward lt D s2' s' hp' S s1' ss' rs' lost') \/
      (exists T s' s1' ss' rs' lost', ward lt (r :: D) s2' s' hp' T s1' ss' rs' lost' /\ doomed (r :: D) s2' lost' r).
    Proof.
      intros Wd Hr E. pose proof Wd as [W1 W2 W3 W4 W5 W6 W7].
      assert (Sn : sound (s1 r)) by (destruct (W7 r) as [X _]; exact (proj1 X)).
      assert (Cq : forall k, calm some_panic (qcmp x k)) by (unfold calm, Properties_Hostile.some_panic; eauto 10).
      destruct (@split_off_h K V W nalloc place place_fresh some_panic (qcmp x) Cq _ _ _ hp w (W3 r) (own_reg W4 (own_sub W5) r) Sn) as (o & m2' & m1' & s' & lo & hp2 & w2 & Eo & R' & G & M).
      rewrite <- (W1 r Hr) in Eo. cbn [HostileModel.hxstep] in E. rewrite Eo in E. cbv zeta in E.
      destruct o as [r2|e| | |]; try contradiction; [exfalso|discriminate E|].
      { unfold pure, hbind, hret in E. destruct (h_drop _ hp2) as [[? ?]|]; discriminate E. }
      cbn [pass omap] in E. injection E as <- <- <-. destruct M as (_ & [(Sd & Ee)|Hd]).
      - left. destruct (held_focus r W4) as (rest & P & F).
        assert (Permutation (rs ++ lost) (sres (ss r) ++ rest ++ lost)) as P2 by (rewrite P, <- app_assoc; reflexivity).
        pose proof (goes_fst G (own_perm P2 W5)) as G1.
        assert (goes hp (rs ++ lost) hp2 ((sres s' ++ rest) ++ lo ++ lost)) as G2.
        { eapply goes_perm; [symmetry; exact P2| |exact G1]. rewrite <- !app_assoc. apply Permutation_app_head. apply Permutation_app_swap_app. }
        exists (hup_ s r m2'), (upd s1 r m1'), (upd ss r s'), (sres s' ++ rest), (lo ++ lost). constructor.
        + intros i Hi. unfold hup_. destruct (i =? r); [reflexivity|now apply W1].
        + intros i Hi. unfold hup_. destruct (Nat.eqb_spec i r); [subst; contradiction|now apply W2].
        + intros i. unfold hup_, upd. destruct (i =? r); [exact R'|apply W3].
        + apply F.
        + exact (go_own G2).
        + exact (goes_exact G2 W6).
        + intros i. unfold upd. destruct (Nat.eqb_spec i r) as [->|]; [|apply W7]. destruct (W7 r) as [[_ X] Y]. split; [split; [exact Sd|]|]; rewrite Ee; assumption.
      - right.
        destruct (@ward_harm K V lt D s2 s hp S s1 ss rs lost r hp2 (sres s' ++ lo) (hup_ s2 r m2') S Wd G) as (T & sn & s1x & ssx & rsx & lostx & ET & Wd' & ->).
        { intros i Hi. unfold hup_. destruct (Nat.eqb_spec i r); [contradiction|reflexivity]. } { reflexivity. }
        exists T, sn, s1x, ssx, rsx, ((sres s' ++ lo) ++ lost). split; [exact Wd'|]. split; [now left|]. exists m1', s', (lo ++ lost).
        split; [unfold hup_; now rewrite Nat.eqb_refl|]. split; [exact Hd|]. now rewrite <- app_assoc.
    Qed.

    (** the state after a careful program *)
    Definition last_state (res : list result) : hregs * heap := match rev res with [] => (hstart, []) | (_, s, hp) :: _ => (s, hp) end.
    Lemma last_state_cons (x : result) res : last_state (x :: res) = match res with [] => (snd (fst x), snd x) | _ => last_state res end.
    Proof.
      clear. destruct res as [|y res]; [destruct x as [[? ?] ?]; reflexivity|]. unfold last_state. cbn [rev]. destruct (rev res ++ [y]) as [|z l] eqn:E.
      - destruct (rev res); discriminate E.
      - reflexivity.
    Qed.

    Lemma split_run r x t ops1 : forall D s2 s hp (S : nat -> list kv) s1 ss rs lost (w : W) res1 sx hpx,
      ward lt D s2 s hp S s1 ss rs lost -> Forall (@legal K V Q) (ops1 ++ [SplitOff r x t]) -> length res1 = length ops1 ->
      careful D (ops1 ++ [SplitOff r x t]) (map (fun x : result => fst (fst x)) (res1 ++ [(Panic, sx, hpx)])) ->
      hxrun (ops1 ++ [SplitOff r x t]) s2 hp w = res1 ++ [(Panic, sx, hpx)] ->
      exists S' D', D' = left_alone D ops1 (map (fun x : result => fst (fst x)) res1) /\ ~ In r D' /\
        (let '(s0, hp0) := match res1 with [] => (s2, hp) | _ => last_state res1 end in sound_memory lt D' s0 hp0 S') /\
        ((exists s' s1' ss' rs' lost', ward lt D' sx s' hpx S' s1' ss' rs' lost') \/
         (exists T s' s1' ss' rs' lost', ward lt (r :: D') sx s' hpx T s1' ss' rs' lost' /\ doomed (r :: D') sx lost' r)).
    Proof.
      induction ops1 as [|c1 ops1 IH]; intros D s2 s hp S s1 ss rs lost w res1 sx hpx Wd HL El C E.
      - destruct res1; [|discriminate El]. cbn [app] in *. apply run_cut in E as (c0 & ops' & w' & Eo & Ex & Er). injection Eo as <- <-. cbn [fst snd] in *.
        cbn [map careful] in C. destruct C as [Av _]. assert (~ In r D) as Nr by (apply Av; now left).
        exists S, D. split; [reflexivity|]. split; [exact Nr|]. split; [exact (ward_memory Wd)|]. eapply split_step; eauto.
      - destruct res1 as [|[[o s'] hp'] res1]; [discriminate El|]. cbn [app] in E. apply run_cut in E as (c0 & ops' & w' & Eo & Ex & Er). cbn [app] in Eo. injection Eo as <- <-.
        destruct Er as (Na & Nu & Er); [intros Hx; apply app_eq_nil in Hx as [_ Hx]; discriminate Hx|]. cbn [fst snd] in *.
        cbn [app map careful] in C. destruct C as [Av C]. cbn [fst] in C. cbn [app] in HL. inversion HL as [|? ? Hc HL']; subst.
        edestruct careful_step as (T & sn & s1' & ss' & rs' & Y & Wd'); [exact place_fresh|exact Wd|exact Hc|exact Av|exact Ex|exact Na|exact Nu|].
        destruct (IH _ _ _ _ _ _ _ _ _ _ _ sx hpx Wd' HL' (f_equal Nat.pred El) C Er) as (S' & D' & ED & HI & Hm & Hx).
        exists S', D'. cbn [map left_alone fst]. split; [exact ED|]. split; [exact HI|]. split; [|exact Hx].
        rewrite last_state_cons. destruct res1; [exact Hm|exact Hm].
    Qed.

    Lemma start_ward : ward lt [] hstart hstart [] (nothing K V) (start K V) (fun _ => None) [] [].
    Proof.
      clear. constructor.
      - reflexivity.
      - intros r0 [].
      - intros r0. apply mrep_new.
      - exists 0. split; [reflexivity|constructor].
      - constructor; [constructor|constructor].
      - intros l Hl Hg. apply Hg. unfold hget. destruct (l =? sroot) eqn:E0; [apply Nat.eqb_eq in E0; congruence|reflexivity].
      - apply start_rep.
    Qed.

    (** For every program that has left damaged maps alone and whose last operation is a split_off that panicked: let [S] be the lists of
        its maps just before, [D] the maps it leaves alone.  Either the panic has changed nothing - the lists are those of before, and all
        that the program goes on to do is contained, the map that was to be split included - or the map is lost: whatever the program goes
        on to do with its other maps, dropping or clearing this one is undefined behaviour. *)
    Theorem C43_split_off_panics : forall ops1 r x t w res1 s hp D s0 hp0,
      Forall (@legal K V Q) (ops1 ++ [SplitOff r x t]) ->
      hxrun (ops1 ++ [SplitOff r x t]) hstart [] w = res1 ++ [(Panic, s, hp)] -> length res1 = length ops1 ->
      careful [] (ops1 ++ [SplitOff r x t]) (map (fun x : result => fst (fst x)) (res1 ++ [(Panic, s, hp)])) ->
      D = left_alone [] ops1 (map (fun x : result => fst (fst x)) res1) -> (s0, hp0) = last_state res1 ->
      exists S, sound_memory lt D s0 hp0 S /\
        ((sound_memory lt D s hp S /\ forall ops2 w2, Forall (@legal K V Q) ops2 -> runs_contained D S ops2 (hxrun ops2 s hp w2)) \/
         (forall ops2 d w2 res2 rest, Forall (@legal K V Q) ops2 -> d = New r \/ d = Clear r ->
            hxrun (ops2 ++ [d]) s hp w2 = res2 ++ rest -> length res2 = length ops2 -> rest <> [] ->
            careful (r :: D) ops2 (map (fun x : result => fst (fst x)) res2) -> exists s' hp', rest = [(UB, s', hp')])).
    Proof.
      intros ops1 r x t w res1 s hp D s0 hp0 HL E El C -> EL.
      edestruct split_run as (S & D' & -> & HI & Hm & Hx); [exact start_ward|exact HL|exact El|exact C|exact E|]. exists S. split.
      - destruct res1 as [|y res1]; [injection EL as -> ->; exact Hm|rewrite <- EL in Hm; exact Hm].
      - destruct Hx as [(s' & s1' & ss' & rs' & lost' & Wd')|(T & s' & s1' & ss' & rs' & lost' & Wd' & Hd)]; [left|right].
        + split; [exact (ward_memory Wd')|]. intros ops2 w2 HL2. eapply hxrun_contained; eauto.
        + intros ops2 d w2 res2 rest HL2 Ed E2 El2 Ne C2. eapply cut_doomed; eauto.
    Qed.
  End Run.
End Hostile.

(** ** Both happen: thirty entries, split_off at 4; the comparison panics at once, or in the second node *)
Definition split_before : list (op nat nat nat) := map (fun k => Insert 0 k k) (seq 0 30).
Definition split_after : list (op nat nat nat) := [Len 1; Insert 1 4 4; Len 1].
Notation srun ops w := (outcomes (trun ops hstart [] w)).
Example split_at_once : skipn 30 (srun (split_before ++ SplitOff 0 4 1 :: split_after ++ [Len 0; Clear 0; Len 0]) 237) =
  [Panic; Ret (ONat 0); Ret (OVal nat None); Ret (ONat 1); Ret (ONat 30); Ret (@OUnit nat nat); Ret (ONat 0)].
Proof. vm_compute. reflexivity. Qed.
Example split_halfway : skipn 30 (srun (split_before ++ SplitOff 0 4 1 :: split_after ++ [Clear 0]) 240) =
  [Panic; Ret (ONat 0); Ret (OVal nat None); Ret (ONat 1); UB].
Proof. vm_compute. reflexivity. Qed.
Example split_legal : Forall (@legal nat nat nat) (split_before ++ [SplitOff 0 4 1]).
Proof. repeat constructor; discriminate. Qed.
Example split_careful : Forall (fun w => careful [] (split_before ++ [SplitOff 0 4 1]) (srun (split_before ++ [SplitOff 0 4 1]) w)) [237; 240].
Proof. repeat apply Forall_cons; [..|apply Forall_nil]; vm_compute; repeat split; intros r H I; destruct I. Qed.
(** the thirty entries are still there, and are taken out one by one *)
Example split_keeps : skipn 31 (srun (split_before ++ SplitOff 0 4 1 :: [Insert 0 30 30; Len 0; IntoIter_ 0 [Front; Back]]) 237) =
  [Ret (OVal nat None); Ret (ONat 31); Ret (ODropped [Some (0, 0); Some (30, 30)] (map (fun k => (k, k)) (seq 1 29)))].
Proof. vm_compute. reflexivity. Qed.

Print Assumptions C43_split_off_panics.
