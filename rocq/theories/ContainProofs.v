(** * ContainProofs: the maps that are left alone, and what a damaged map keeps. *)
From Coq Require Import List Arith Lia Bool Permutation.
From Verif Require Import Base MapSpec IterSpec BTreeModel BTreeInv BTreeIterModel BTreeClone HeapModel HistoryModel HistorySpec HistoryProofs HeapMapModel HeapRep HeapRes HeapMap HeapSplit HeapSpec HeapHistory HeapMemory.
From Verif Require Import HostileModel HostileSpec HostileHistory DropModel DropSpec DropHistory ContainSpec.
From Verif Require Import Examples Properties_History Properties_Heap Properties_Hostile Properties_Drop.
Import ListNotations.
Set Implicit Arguments.

Section Contain.
  Variables (K V : Type).
  Notation kv := (K * V)%type.
  Notation heap := (heap K V).
  Notation src := (src K V).
  Notation res := (res K V).

  (** what is known of memory while the variables [D] are damaged: [s] is the variables with [D] emptied *)
  Record ward (cmp : K -> K -> comparison) (D : list nat) (s2 s : hregs) (hp : heap) (S : nat -> list kv) (s1 : regs K V) (ss : nat -> src) (rs lost : list res) : Prop := Ward {
    wd_same : forall r, ~ In r D -> s2 r = s r;
    wd_new : forall r, In r D -> s r = h_new;
    wd_reps : reps s s1 ss;
    wd_held : held ss rs;
    wd_own : own hp (rs ++ lost);
    wd_exact : exact_heap hp (rs ++ lost);
    wd_rep : rep cmp s1 S }.

  Lemma ward_memory cmp D s2 s hp S s1 ss rs lost : ward cmp D s2 s hp S s1 ss rs lost -> sound_memory cmp D s2 hp S.
  Proof.
    intros [W1 W2 W3 W4 W5 W6 W7]. destruct (leaky_ok _ W3 W4 W5 W6 W7) as (nodes & lo & H1 & H2 & H3 & H4 & H5 & H6). exists nodes, lo.
    split; [intros r Hr; rewrite (W1 r Hr); apply H1|]. split; [|auto]. intros r Hr. destruct (H1 r) as (_ & _ & [(_ & _ & X)|X]); [exact X|exfalso].
    rewrite (W2 r Hr) in X. destruct X as [X _]. now apply X.
  Qed.

  (** the variable [r] is given up together with what it holds *)
  Lemma ward_harm cmp D s2 s hp S s1 ss rs lost r hp' X s2' S' : ward cmp D s2 s hp S s1 ss rs lost ->
    goes hp (sres (ss r)) hp' X -> (forall i, i <> r -> s2' i = s2 i) -> (forall i, i <> r -> S' i = S i) ->
    exists T s' s1' ss' rs' lost', (forall i, i <> r -> T i = S' i) /\ ward cmp (r :: D) s2' s' hp' T s1' ss' rs' lost' /\ lost' = X ++ lost.
  Proof.
    intros [W1 W2 W3 W4 W5 W6 W7] G E2 ES. destruct (held_focus r W4) as (rest & P & F).
    assert (Permutation (rs ++ lost) (sres (ss r) ++ rest ++ lost)) as P2 by (rewrite P, <- app_assoc; reflexivity).
    pose proof (goes_fst G (own_perm P2 W5)) as G1.
    assert (goes hp (rs ++ lost) hp' (rest ++ X ++ lost)) as G2.
    { eapply goes_perm; [symmetry; exact P2| |exact G1]. apply Permutation_app_swap_app. }
    exists (upd S r []), (hup_ s r h_new), (upd s1 r (@new K V)), (upd ss r None), rest, (X ++ lost). split.
    - intros i Hi. rewrite (ES i Hi). unfold upd. destruct (Nat.eqb_spec i r); congruence.
    - split; [constructor|reflexivity].
      + intros i Hi. cbn [In] in Hi. unfold hup_. destruct (Nat.eqb_spec i r); [subst; tauto|]. rewrite E2 by assumption. apply W1. tauto.
      + intros i Hi. unfold hup_. destruct (Nat.eqb_spec i r); [reflexivity|]. apply W2. destruct Hi; [congruence|assumption].
      + intros i. unfold hup_, upd. destruct (i =? r); [apply mrep_new|apply W3].
      + exact (F None).
      + exact (go_own G2).
      + exact (goes_exact G2 W6).
      + intros i. unfold upd. destruct (i =? r); [|apply W7]. split; [apply new_valid|reflexivity].
  Qed.
  (** the same when a second variable [t] has been emptied *)
  Lemma ward_harm2 cmp D s2 s hp S s1 ss rs lost r t hp' X s2' S' : ward cmp D s2 s hp S s1 ss rs lost -> r <> t -> ~ In t D ->
    goes hp (sres (ss r) ++ sres (ss t)) hp' X -> (forall i, i <> r -> i <> t -> s2' i = s2 i) -> s2' t = h_new -> (forall i, i <> r -> i <> t -> S' i = S i) -> S' t = [] ->
    exists T s' s1' ss' rs' lost', (forall i, i <> r -> T i = S' i) /\ ward cmp (r :: D) s2' s' hp' T s1' ss' rs' lost' /\ lost' = X ++ lost.
  Proof.
    intros [W1 W2 W3 W4 W5 W6 W7] Ne Ht G E2 Et ES Es. destruct (held_focus2 Ne W4) as (rest & P & F).
    assert (Permutation (rs ++ lost) ((sres (ss r) ++ sres (ss t)) ++ rest ++ lost)) as P2 by (rewrite P, <- !app_assoc; reflexivity).
    pose proof (goes_fst G (own_perm P2 W5)) as G1.
    assert (goes hp (rs ++ lost) hp' (rest ++ X ++ lost)) as G2.
    { eapply goes_perm; [symmetry; exact P2| |exact G1]. apply Permutation_app_swap_app. }
    exists (upd (upd S r []) t []), (hup_ (hup_ s r h_new) t h_new), (upd (upd s1 r (@new K V)) t (@new K V)), (upd (upd ss r None) t None), rest, (X ++ lost). split.
    - intros i Hi. unfold upd. destruct (Nat.eqb_spec i t); [subst i; now rewrite Es|]. destruct (Nat.eqb_spec i r); [congruence|]. symmetry. now apply ES.
    - split; [constructor|reflexivity].
      + intros i Hi. cbn [In] in Hi. unfold hup_. destruct (Nat.eqb_spec i t); [now subst i|]. destruct (Nat.eqb_spec i r); [subst; tauto|]. rewrite E2 by assumption. apply W1. tauto.
      + intros i Hi. unfold hup_. destruct (Nat.eqb_spec i t); [reflexivity|]. destruct (Nat.eqb_spec i r); [reflexivity|]. apply W2. destruct Hi; [congruence|assumption].
      + intros i. unfold hup_, upd. destruct (i =? t); [apply mrep_new|]. destruct (i =? r); [apply mrep_new|apply W3].
      + exact (F None None).
      + exact (go_own G2).
      + exact (goes_exact G2 W6).
      + intros i. unfold upd. destruct (i =? t); [split; [apply new_valid|reflexivity]|]. destruct (i =? r); [|apply W7]. split; [apply new_valid|reflexivity].
  Qed.

  (** one variable, or two, with everything else empty *)
  Lemma alone cmp s S s1 ss r : reps (K := K) (V := V) s s1 ss -> rep cmp s1 S ->
    reps (hup_ hstart r (s r)) (upd (start K V) r (s1 r)) (upd (fun _ => None) r (ss r)) /\ held (upd (fun _ => None) r (ss r)) (sres (ss r)) /\
    rep cmp (upd (start K V) r (s1 r)) (upd (nothing K V) r (S r)).
  Proof.
    intros R RS. split; [|split].
    - intros i. unfold hup_, upd. destruct (i =? r); [apply R|apply mrep_new].
    - destruct (@held_focus K V (fun _ => None) [] r) as (rest & P & F); [exists 0; split; [reflexivity|constructor]|]. cbn [sres app] in P. apply Permutation_nil in P. subst rest.
      specialize (F (ss r)). now rewrite app_nil_r in F.
    - intros i. unfold upd. destruct (i =? r); [apply RS|apply (start_rep V cmp)].
  Qed.
  Lemma alone2 cmp s S s1 ss r t : r <> t -> reps (K := K) (V := V) s s1 ss -> rep cmp s1 S ->
    reps (hup_ (hup_ hstart r (s r)) t (s t)) (upd (upd (start K V) r (s1 r)) t (s1 t)) (upd (upd (fun _ => None) r (ss r)) t (ss t)) /\
    held (upd (upd (fun _ => None) r (ss r)) t (ss t)) (sres (ss r) ++ sres (ss t)) /\
    rep cmp (upd (upd (start K V) r (s1 r)) t (s1 t)) (upd (upd (nothing K V) r (S r)) t (S t)).
  Proof.
    intros Ne R RS. split; [|split].
    - intros i. unfold hup_, upd. destruct (i =? t); [apply R|]. destruct (i =? r); [apply R|apply mrep_new].
    - destruct (@held_focus2 K V (fun _ => None) [] r t Ne) as (rest & P & F); [exists 0; split; [reflexivity|constructor]|]. cbn [sres app] in P. apply Permutation_nil in P. subst rest.
      specialize (F (ss r) (ss t)). now rewrite app_nil_r in F.
    - intros i. unfold upd. destruct (i =? t); [apply RS|]. destruct (i =? r); [apply RS|apply (start_rep V cmp)].
  Qed.
End Contain.
