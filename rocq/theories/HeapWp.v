(** * HeapWp: rules for the primitives of HeapModel. *)
From Coq Require Import List Arith Lia Bool Permutation.
From Verif Require Import Base BTreeModel BTreeInv HeapModel HeapArr HeapRep.
Import ListNotations.
Set Implicit Arguments.
Unset Strict Implicit.

(** resolve reads of an updated heap *)
Ltac neqs := match goal with
  | |- ?x <> ?y => first [assumption | (apply not_eq_sym; assumption) | congruence]
  end.
Ltac hg1 := match goal with
  | U : hup ?hp ?l ?c ?hp' |- context [hget ?hp' ?l] => rewrite (hup_same U)
  | U : hup ?hp ?l ?c ?hp' |- context [hget ?hp' ?x] => rewrite (hup_other (x := x) U) by neqs
  end.
Ltac hg := cbn [rl]; repeat hg1.
Ltac hgs := hg; first [eassumption | reflexivity].
(** one step: a rule for the first command *)
Tactic Notation "st" uconstr(r) := apply wp_bind; eapply r.

Section Wp.
  Variables (K V : Type).
  Notation kv := (K * V)%type.
  Notation cell := (cell K V).
  Notation heap := (heap K V).
  Notation HM := (HM K V).
  Notation ltree := (ltree K V).

  Definition with_len (c : cell) (n : nat) : cell :=
    Cell (cint c) (cpar c) (cpidx c) n (ckeys c) (cvals c) (cedges c).

  Implicit Types (hp : heap) (c : cell) (r : nref).

  Lemma wp_len r c hp (Q : nat -> heap -> Prop) : hget hp (rl r) = Some c -> Q (clen c) hp -> wp (n_len r) hp Q.
  Proof. intros G H. st wp_read; [exact G|]. exact H. Qed.
  Lemma wp_set_len r c n hp (Q : unit -> heap -> Prop) :
    rl r <> sroot -> hget hp (rl r) = Some c ->
    (forall hp', hup hp (rl r) (Some (with_len c n)) hp' -> Q tt hp') -> wp (set_len r n) hp Q.
  Proof. intros N G H. st wp_read; [exact G|]. eapply wp_write; eauto. Qed.
  Lemma wp_len_add r c n hp (Q : unit -> heap -> Prop) :
    rl r <> sroot -> hget hp (rl r) = Some c ->
    (forall hp', hup hp (rl r) (Some (with_len c (clen c + n))) hp' -> Q tt hp') -> wp (len_add r n) hp Q.
  Proof. intros N G H. st wp_len; [exact G|]. eapply wp_set_len; eauto. Qed.
  Lemma wp_len_sub r c n hp (Q : unit -> heap -> Prop) :
    rl r <> sroot -> hget hp (rl r) = Some c -> n <= clen c ->
    (forall hp', hup hp (rl r) (Some (with_len c (clen c - n))) hp' -> Q tt hp') -> wp (len_sub r n) hp Q.
  Proof.
    intros N G L H. st wp_len; [exact G|]. st wp_check; [now apply Nat.leb_le|]. eapply wp_set_len; eauto.
  Qed.
  Lemma wp_not_shared r hp (Q : unit -> heap -> Prop) : rl r <> sroot -> Q tt hp -> wp (not_shared r) hp Q.
  Proof. intros N H. apply wp_check; [|exact H]. apply negb_true_iff. now apply Nat.eqb_neq. Qed.
  Lemma wp_keys r c xs cap hp (Q : list K -> heap -> Prop) :
    hget hp (rl r) = Some c -> holds (ckeys c) xs cap -> clen c = length xs -> Q xs hp -> wp (n_keys r) hp Q.
  Proof.
    intros G H L P. st wp_len; [exact G|]. st wp_read; [exact G|]. eapply wp_option; [|exact P].
    cbn. rewrite L. eapply holds_init; eauto.
  Qed.
  Lemma wp_vals r c xs cap hp (Q : list V -> heap -> Prop) :
    rl r <> sroot ->
    hget hp (rl r) = Some c -> holds (cvals c) xs cap -> clen c = length xs -> Q xs hp -> wp (n_vals r) hp Q.
  Proof.
    intros N G H L P. st wp_not_shared; [exact N|]. st wp_len; [exact G|]. st wp_read; [exact G|]. eapply wp_option; [|exact P].
    cbn. rewrite L. eapply holds_init; eauto.
  Qed.
  Lemma wp_slice A (f : field K V A) l c xs cap n hp (Q : list A -> heap -> Prop) :
    hget hp l = Some c -> holds (aget f c) xs cap -> n = length xs -> Q xs hp -> wp (slice f l n) hp Q.
  Proof. intros G H -> P. st wp_read; [exact G|]. eapply wp_option; [|exact P]. eapply holds_init; eauto. Qed.
  Lemma wp_a_read A (f : field K V A) l c i x hp (Q : A -> heap -> Prop) :
    hget hp l = Some c -> arr_read (aget f c) i = Some x -> Q x hp -> wp (a_read f l i) hp Q.
  Proof. intros G H P. st wp_read; [exact G|]. eapply wp_option; eauto. Qed.
  Lemma wp_a_write A (f : field K V A) l c i x a hp (Q : unit -> heap -> Prop) :
    l <> sroot -> hget hp l = Some c -> arr_write (aget f c) i x = Some a ->
    (forall hp', hup hp l (Some (aset f c a)) hp' -> Q tt hp') -> wp (a_write f l i x) hp Q.
  Proof. intros N G H P. st wp_read; [exact G|]. st wp_option; [exact H|]. eapply wp_write; eauto. Qed.
  Lemma wp_a_move A (f : field K V A) l c so d n a hp (Q : unit -> heap -> Prop) :
    l <> sroot -> hget hp l = Some c -> arr_copy (aget f c) so (aget f c) d n = Some a ->
    (forall hp', hup hp l (Some (aset f c a)) hp' -> Q tt hp') -> wp (a_move f l so d n) hp Q.
  Proof. intros N G H P. st wp_read; [exact G|]. st wp_option; [exact H|]. eapply wp_write; eauto. Qed.
  Lemma wp_a_copy A (f : field K V A) src cs so dst cd d n a hp (Q : unit -> heap -> Prop) :
    src <> dst -> dst <> sroot -> hget hp src = Some cs -> hget hp dst = Some cd ->
    arr_copy (aget f cs) so (aget f cd) d n = Some a ->
    (forall hp', hup hp dst (Some (aset f cd a)) hp' -> Q tt hp') -> wp (a_copy f src so dst d n) hp Q.
  Proof.
    intros D N G1 G2 H P. st wp_check; [apply negb_true_iff; now apply Nat.eqb_neq|].
    st wp_read; [exact G1|]. st wp_read; [exact G2|]. st wp_option; [exact H|]. eapply wp_write; eauto.
  Qed.
  Lemma wp_slice_ins A (f : field K V A) l c n i x a hp (Q : unit -> heap -> Prop) :
    l <> sroot -> hget hp l = Some c -> arr_slice_insert (aget f c) n i x = Some a ->
    (forall hp', hup hp l (Some (aset f c a)) hp' -> Q tt hp') -> wp (slice_ins f l n i x) hp Q.
  Proof. intros N G H P. st wp_read; [exact G|]. st wp_option; [exact H|]. eapply wp_write; eauto. Qed.
  Lemma wp_slice_rem A (f : field K V A) l c n i x a hp (Q : A -> heap -> Prop) :
    l <> sroot -> hget hp l = Some c -> arr_slice_remove (aget f c) n i = Some (x, a) ->
    (forall hp', hup hp l (Some (aset f c a)) hp' -> Q x hp') -> wp (slice_rem f l n i) hp Q.
  Proof.
    intros N G H P. st wp_read; [exact G|]. st wp_option; [exact H|]. st wp_write; [exact N|exact G|].
    intros hp' U. apply wp_ret. auto.
  Qed.

  Lemma wp_new_edge r c i hp (Q : hhandle -> heap -> Prop) :
    hget hp (rl r) = Some c -> i <= clen c -> Q (r, i) hp -> wp (new_edge r i) hp Q.
  Proof. intros G L H. st wp_len; [exact G|]. st wp_check; [now apply Nat.leb_le|]. exact H. Qed.
  Lemma wp_new_kv r c i hp (Q : hhandle -> heap -> Prop) :
    hget hp (rl r) = Some c -> i < clen c -> Q (r, i) hp -> wp (new_kv r i) hp Q.
  Proof. intros G L H. st wp_len; [exact G|]. st wp_check; [now apply Nat.ltb_lt|]. exact H. Qed.
  Lemma wp_descend r i h c e hp (Q : nref -> heap -> Prop) :
    rh r = S h -> hget hp (rl r) = Some c -> cint c = true -> arr_read (cedges c) i = Some e ->
    Q (NR h e) hp -> wp (h_descend (r, i)) hp Q.
  Proof.
    intros Hh G I R H. unfold h_descend. rewrite Hh. st wp_check; [reflexivity|].
    st wp_read; [exact G|]. st wp_check; [exact I|]. st wp_a_read; [exact G|exact R|].
    apply wp_ret. cbn. rewrite Nat.sub_0_r. exact H.
  Qed.
  Lemma wp_set_parent l c p i hp (Q : unit -> heap -> Prop) :
    l <> sroot -> hget hp l = Some c ->
    (forall hp', hup hp l (Some (set_link p i c)) hp' -> Q tt hp') -> wp (set_parent l p i) hp Q.
  Proof. intros N G H. st wp_read; [exact G|]. eapply wp_write; eauto. Qed.
  Lemma wp_clear_parent l c hp (Q : unit -> heap -> Prop) :
    l <> sroot -> hget hp l = Some c ->
    (forall hp', hup hp l (Some (set_link None (cpidx c) c)) hp' -> Q tt hp') -> wp (clear_parent l) hp Q.
  Proof. intros N G H. st wp_read; [exact G|]. eapply wp_write; eauto. Qed.
  Lemma wp_correct_parent_link r i h c e ce hp (Q : unit -> heap -> Prop) :
    rh r = S h -> hget hp (rl r) = Some c -> cint c = true -> arr_read (cedges c) i = Some e ->
    e <> sroot -> hget hp e = Some ce ->
    (forall hp', hup hp e (Some (set_link (Some (rl r)) (Some i) ce)) hp' -> Q tt hp') ->
    wp (correct_parent_link (r, i)) hp Q.
  Proof.
    intros. st wp_descend; eauto. cbn. eapply wp_set_parent; eauto.
  Qed.

  (** the children [els] get the links (l, first), (l, first + 1), ... *)
  Definition relinks hp (l : loc) (first : nat) (els : list loc) hp' : Prop :=
    (forall x, ~ In x els -> hget hp' x = hget hp x) /\
    (forall j e, nth_error els j = Some e ->
       hget hp' e = option_map (set_link (Some l) (Some (first + j))) (hget hp e)).

  Lemma relinks_nil hp l i : relinks hp l i [] hp.
  Proof. split; [reflexivity|]. intros [|j] e E; discriminate E. Qed.

  Lemma wp_correct_links r h c els first n hp (Q : unit -> heap -> Prop) :
    rh r = S h -> hget hp (rl r) = Some c -> cint c = true ->
    at_ (cedges c) first els -> n = length els -> first + n <= S (clen c) ->
    NoDup els -> ~ In (rl r) els -> (forall e, In e els -> e <> sroot /\ exists ce, hget hp e = Some ce) ->
    (forall hp', relinks hp (rl r) first els hp' -> Q tt hp') ->
    wp (correct_links r first n) hp Q.
  Proof.
    intros Hh G I A -> L ND NI AL H. revert first hp G A L ND NI AL H.
    induction els as [|e els IH]; intros first hp G A L ND NI AL H; cbn [length correct_links].
    - apply wp_ret. apply H. apply relinks_nil.
    - cbn [length] in L. st wp_new_edge; [exact G|lia|].
      apply at_cons in A as [A0 A]. destruct (AL e) as (Ne & ce & Ge); [now left|].
      apply wp_bind. eapply wp_correct_parent_link; [exact Hh|exact G|exact I| |exact Ne|exact Ge|].
      { unfold arr_read. now rewrite A0. }
      intros hp1 U. inversion ND as [|? ? ND1 ND2]; subst. cbn [In] in NI.
      eapply IH with (first := S first); auto.
      + rewrite (hup_other U); [exact G|]. intro E. apply NI. now left.
      + lia.
      + intros x Hx. destruct (AL x) as (Nx & cx & Gx); [now right|]. split; [exact Nx|]. exists cx.
        rewrite (hup_other U); [exact Gx|]. congruence.
      + intros hp2 [R1 R2]. apply H. split.
        * intros x Hx. cbn [In] in Hx. rewrite R1 by tauto. apply (hup_other U). intros ->. tauto.
        * intros [|j] x Hj; cbn in Hj.
          -- injection Hj as <-. rewrite R1 by assumption. rewrite (hup_same U), Ge, Nat.add_0_r. reflexivity.
          -- rewrite (R2 j x Hj). replace (S first + j) with (first + S j) by lia. f_equal.
             apply (hup_other U). intros ->. apply ND1. eapply nth_error_In; eauto.
  Qed.
End Wp.
