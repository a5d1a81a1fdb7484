(** * HeapMemory: the representation of the proofs gives the memory of HeapSpec. *)
From Coq Require Import List Arith Lia Bool Permutation.
From Verif Require Import Base MapSpec BTreeModel BTreeInv BTreeLemmas HistoryModel HistorySpec HistoryProofs.
From Verif Require Import HeapModel HeapMapModel HeapArr HeapRep HeapWp HeapRes HeapMap HeapBorder HeapHistory HeapSpec.
Import ListNotations.
Set Implicit Arguments.
Unset Strict Implicit.

Section Memory.
  Variables (K V : Type) (cmp : K -> K -> comparison).
  Notation kv := (K * V)%type.
  Notation heap := (heap K V).
  Notation ltree := (ltree K V).
  Notation src := (src K V).
  Notation res := (res K V).
  Implicit Types (hp : heap).

  Lemma weave_between (ess : list (list kv)) : forall ks, length ess = S (length ks) -> weave ess ks = between ess ks.
  Proof.
    induction ess as [|e ess IH]; intros ks H; cbn [length] in H; [discriminate H|]. destruct ks as [|k ks]; cbn [weave between].
    - apply app_nil_r.
    - rewrite IH; [reflexivity|]. cbn [length] in H. lia.
  Qed.

  Lemma cell_spec c int ks els par : content (K := K) (V := V) c int ks els -> linked c par -> cell_ok c int ks els par.
  Proof.
    intros [C1 C2 C3 C4 C5 C6] [L1 L2]. pose proof (holds_len C3) as Hl. rewrite map_length in Hl.
    destruct C3 as [A1 A2], C4 as [B1 B2], C5 as [D1 D2]. unfold cell_ok. repeat split; auto.
    destruct par as [[p i]|]; [|exact L1]. split; [exact L1|]. now apply (L2 p i).
  Qed.

  Lemma kids_nth hp l i es j e : kids_ok hp l i es -> nth_error es j = Some e -> hung hp (lroot e) (Some (l, i + j)) /\ body hp e.
  Proof.
    revert i j. induction es as [|e0 es IH]; intros i [|j] H E; try discriminate E; destruct H as (H1 & H2 & H3); cbn [nth_error] in E.
    - apply some_inj in E. subst e0. rewrite Nat.add_0_r. auto.
    - replace (i + S j) with (S i + j) by lia. now apply IH.
  Qed.

  Lemma body_stored hp : forall h (T : ltree) par, body hp T -> hung hp (lroot T) par -> kids fair h (erase T) ->
    (par <> None -> fair (nlen (erase T))) -> stored hp h (lroot T) par (inorder (erase T)) (locs T).
  Proof.
    induction h as [|h IH]; intros [l ks es] par B (c & G & L) Hk Hf; apply body_eq in B as (N & (c' & G' & C) & B); cbn [lroot] in G;
      rewrite G in G'; apply some_inj in G'; subst c'; cbn [lroot stored].
    - cbn [kids erase edges] in Hk. apply map_eq_nil in Hk. subst es. split; [exact N|]. exists c, ks, []. split; [exact G|]. split.
      { intros Hp. apply Hf in Hp. apply Hp. }
      split; [now apply cell_spec|]. split; [reflexivity|reflexivity].
    - apply kids_S in Hk as [Hk1 Hk2]. split; [exact N|]. exists c, ks, (map (@lroot K V) es). split; [exact G|]. split.
      { intros Hp. apply Hf in Hp. apply Hp. }
      cbn [erase edges nlen kvs] in Hk1. rewrite map_length in Hk1. unfold nlen in Hk1. cbn [kvs] in Hk1.
      split. { apply cell_spec; [|exact L]. destruct es; [discriminate Hk1|exact C]. }
      exists (map (fun e => (inorder (erase e), locs e)) es). rewrite !map_length. split; [reflexivity|]. split; [|split].
      + rewrite (inorder_eq (erase _)). cbn [erase edges kvs]. rewrite !map_map. cbn [fst]. apply weave_between. rewrite map_length. exact Hk1.
      + rewrite map_map. cbn [snd]. rewrite locs_eq. unfold flocs. now rewrite flat_map_concat_map.
      + intros i x p E1 E2. rewrite nth_error_map in E1, E2. destruct (nth_error es i) as [e|] eqn:E; [|discriminate E1]. cbn [option_map] in E1, E2.
        apply some_inj in E1. apply some_inj in E2. subst x p. cbn [fst snd]. destruct (kids_nth B E) as [H1 H2].
        cbn [erase edges] in Hk2. rewrite Forall_forall in Hk2. destruct (Hk2 (erase e)) as [F1 F2]. { apply in_map. eapply nth_error_In; eauto. }
        apply IH; auto.
  Qed.

  Lemma body_wired hp (T : ltree) : forall par, body hp T -> hung hp (lroot T) par -> wired hp (lroot T) par (locs T).
  Proof.
    induction T as [l ks es IH] using ltree_ind2. intros par B (c & G & L). apply body_eq in B as (N & (c' & G' & C) & B). cbn [lroot] in G.
    rewrite G in G'. apply some_inj in G'. subst c'. cbn [lroot]. rewrite locs_eq. unfold flocs. rewrite flat_map_concat_map.
    eapply Wired; [exact N|exact G|apply cell_spec; [exact C|exact L]|now rewrite !map_length|].
    intros i x p E1 E2. rewrite nth_error_map in E1, E2. destruct (nth_error es i) as [e|] eqn:E; [|discriminate E1]. cbn [option_map] in E1, E2.
    apply some_inj in E1. apply some_inj in E2. subst x p. destruct (kids_nth B E) as [H1 H2].
    rewrite Forall_forall in IH. apply IH; auto. eapply nth_error_In; eauto.
  Qed.

  (** ** All variables *)
  Definition snodes (ss : nat -> src) (r : nat) : list loc := rflocs (sres (ss r)).
  Lemma held_in ss rs l : held ss rs -> (In l (rflocs rs) <-> exists r, In l (snodes ss r)).
  Proof.
    intros (N & Z & P). split.
    - intros H. apply (rflocs_perm P) in H. unfold rflocs in H. apply in_flat_map in H as (x & Hx & Hl). apply in_flat_map in Hx as (r & _ & Hr).
      exists r. apply in_flat_map. eauto.
    - intros (r & H). apply in_flat_map in H as (x & Hx & Hl). apply (rflocs_perm (Permutation_sym P)). apply in_flat_map. exists x. split; [|exact Hl].
      apply in_flat_map. exists r. split; [|exact Hx]. apply in_seq. destruct (le_lt_dec N r) as [Hr|Hr]; [|lia]. rewrite (Z r Hr) in Hx. destruct Hx.
  Qed.
  Lemma held_apart ss rs hp : held ss rs -> own hp rs -> apart (snodes ss).
  Proof.
    intros H O. split.
    - intros r. destruct (held_focus r H) as (rest & P & _). apply (own_perm P), own_sub in O. apply O.
    - intros r t l Ne. destruct (held_focus2 Ne H) as (rest & P & _). apply (own_perm P) in O. rewrite app_assoc in O. apply own_sub, own_app in O as (_ & _ & D). apply D.
  Qed.

  Lemma memory_ok (s2 : hregs) s1 ss rs hp S : reps s2 s1 ss -> held ss rs -> own hp rs -> exact_heap hp rs -> rep cmp s1 S -> memory cmp s2 hp S.
  Proof.
    intros R H O E RS. exists (snodes ss). split; [|split; [exact (held_apart H O)|]].
    - intros r. destruct (RS r) as [[((Hb1 & Hb2) & Hsh & Hlen) Hsort] He]. destruct (R r) as [Rl Rm]. rewrite He in Hsort, Hlen.
      split; [exact Hsort|]. split; [congruence|]. unfold snodes. destruct (ss r) as [T|] eqn:Es.
      + right. destruct Rm as (R1 & _ & R3). rewrite R1. cbn [rh rl sres].
        replace (rflocs [Root T]) with (locs T) by (cbn; now rewrite app_nil_r).
        destruct (held_focus r H) as (rest & P & _). apply (own_perm P), own_sub in O. rewrite Es in O. cbn [sres] in O.
        destruct O as [O _]. apply Forall_inv in O. destruct O as [B Hh]. unfold entries in He. rewrite R3 in He, Hb2. rewrite <- He.
        apply body_stored; auto. intros X. now destruct X.
      + left. destruct Rm as (R1 & _ & R3 & _). split; [exact R1|]. split; [|reflexivity]. unfold entries in He. rewrite R3 in He. now rewrite <- He.
    - intros l Hl Hg. apply (held_in l H). now apply E.
  Qed.

  Lemma torn_ok (s2 : hregs) s1 ss rs lost hp : reps s2 s1 ss -> held ss rs -> own hp (rs ++ lost) -> exact_heap hp (rs ++ lost) -> torn_memory s2 hp.
  Proof.
    intros R H O E. exists (snodes ss), (rflocs lost). pose proof O as Oa. apply own_app in Oa as (O1 & O2 & D).
    split; [|split; [exact (held_apart H O1)|split; [apply O2|split; [|split]]]].
    - intros r. destruct (R r) as [Rl Rm]. unfold snodes. destruct (ss r) as [T|] eqn:Es.
      + right. destruct Rm as (R1 & _ & R3). rewrite R1. cbn [rh rl sres].
        replace (rflocs [Root T]) with (locs T) by (cbn; now rewrite app_nil_r).
        destruct (held_focus r H) as (rest & P & _). apply (own_perm P), own_sub in O1. rewrite Es in O1. cbn [sres] in O1.
        destruct O1 as [O1 _]. apply Forall_inv in O1. destruct O1 as [B Hh]. now apply body_wired.
      + left. destruct Rm as (R1 & _). auto.
    - intros r l Hl. apply D. apply (held_in l H). eauto.
    - intros l Hl Hg. destruct (own_alive O2 Hl) as (_ & c & Hc). congruence.
    - intros l Hl Hg. specialize (E l Hl Hg). rewrite rflocs_app in E. apply in_app_or in E as [E|E]; [right|now left]. now apply (held_in l H).
  Qed.
End Memory.
