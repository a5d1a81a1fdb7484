(** * VecConserve: no value is lost or dropped twice (bookkeeping over VecHistorySpec) *)
From Coq Require Import List Arith Lia Bool Permutation.
Import ListNotations.
From Verif Require Import Base VecModel VecSpec VecProofs2 VecHistoryModel VecHistorySpec.
Set Implicit Arguments.

(** ** Vocabulary *)
Section Words.
  Variables (W T : Type).

  (** the total of a weight over a list *)
  Definition weigh (wt : T -> nat) (l : list T) : nat := fold_right (fun x n => wt x + n) 0 l.

  (** the values a call takes by value *)
  Definition taken (c : vop W T) : list T :=
    match c with
    | VPush _ x | VPushGiveBack _ x | VInsert _ _ x | VResizeNoCopy _ _ x
    | VFromElem _ x _ | VSet _ _ x => [x]
    | _ => []
    end.
  (** the values a call hands to its caller: a popped element, or an argument
      given back with the error *)
  Definition handed (o : outcome (verr T) (vres T)) : list T :=
    match o with
    | Ret (ROpt (Some x)) => [x]
    | Err (Some x, _) => [x]
    | _ => []
    end.
  (** the two calls for Copy types duplicate values and have no place here *)
  Definition moves (c : vop W T) : Prop :=
    match c with VResize _ _ _ | VExtend _ _ => False | _ => True end.
  (** the vectors a call uses have numbers below [N] *)
  Definition below (N : nat) (c : vop W T) : Prop :=
    match c with
    | VNew r | VWithCapacity r _ | VReserve r _ | VPush r _ | VPushGiveBack r _ | VInsert r _ _
    | VResizeWith r _ _ | VResizeNoCopy r _ _ | VExtendNoCopy r _ | VPop r | VClear r
    | VFromElem r _ _ | VCollect r _ _ | VConcat r _ _ | VSlice r | VSet r _ _ | VResize r _ _ | VExtend r _ => r < N
    | VAppend r t | VTryClone r t => r < N /\ t < N
    end.
  (** everything in the vectors below [N] *)
  Definition live (N : nat) (S : nat -> list T) : list T := List.concat (map S (seq 0 N)).

  (** A ledger kept in the world: [made] lists the values brought into being
      by clones and closures, [gone] those whose destructor has run. *)
  Variables (made gone : W -> list T).
  Definition ledger_alloc (alloc : nat -> W -> answer * W) : Prop :=
    forall n w, made (snd (alloc n w)) = made w /\ gone (snd (alloc n w)) = gone w.
  Definition ledger_drop (tdrop : T -> W -> outcome reserve_error unit * W) : Prop :=
    forall x w, made (snd (tdrop x w)) = made w /\ gone (snd (tdrop x w)) = x :: gone w.
  Definition ledger_make (f : W -> outcome reserve_error T * W) : Prop :=
    forall w, gone (snd (f w)) = gone w /\
      made (snd (f w)) = match fst (f w) with Ret y => y :: made w | _ => made w end.
  Definition ledger_next (f : W -> outcome reserve_error (option T) * W) : Prop :=
    forall w, gone (snd (f w)) = gone w /\
      made (snd (f w)) = match fst (f w) with Ret (Some y) => y :: made w | _ => made w end.
  Definition ledger_op (c : vop W T) : Prop :=
    match c with
    | VResizeWith _ _ f => ledger_make f
    | VCollect _ _ f => ledger_next f
    | _ => True
    end.
End Words.

Section P.
  Variable W : Type.
  Variable alloc : nat -> W -> answer * W.
  Variable isize_max : nat.
  Variable T : Type.
  Variable sz : nat.
  Variable tdrop : T -> W -> outcome reserve_error unit * W.
  Variable tclone : T -> W -> outcome reserve_error T * W.
  Variables (made gone : W -> list T).
  Hypothesis La : ledger_alloc made gone alloc.
  Hypothesis Ld : ledger_drop made gone tdrop.
  Hypothesis Lc : forall x, ledger_make made gone (tclone x).
  Variable wt : T -> nat.
  Notation weigh := (weigh wt).

  Lemma weigh_nil : weigh [] = 0.
  Proof. reflexivity. Qed.
  Lemma weigh_cons x l : weigh (x :: l) = wt x + weigh l.
  Proof. reflexivity. Qed.
  Lemma weigh_app l l' : weigh (l ++ l') = weigh l + weigh l'.
  Proof. induction l as [|x l IH]; cbn [app]; rewrite ?weigh_nil, ?weigh_cons; lia. Qed.
  Lemma weigh_rev l : weigh (rev l) = weigh l.
  Proof. induction l as [|x l IH]; cbn [rev]; [reflexivity|]. rewrite weigh_app, !weigh_cons, weigh_nil. lia. Qed.
  Lemma weigh_cut n l : weigh (firstn n l) + weigh (skipn n l) = weigh l.
  Proof. rewrite <- weigh_app. now rewrite firstn_skipn. Qed.

  (** the books before and after: [i] came in, [u] went out *)
  Definition books (w w' : W) (i u : nat) : Prop :=
    i + weigh (made w') + weigh (gone w) = u + weigh (made w) + weigh (gone w').

  Lemma books_trans w w1 w2 i1 u1 i2 u2 : books w w1 i1 u1 -> books w1 w2 i2 u2 -> books w w2 (i1 + i2) (u1 + u2).
  Proof. unfold books. lia. Qed.

  Lemma granted_books k w w' : granted alloc isize_max sz k w w' -> books w w' 0 0.
  Proof.
    intros [_ [->|[x E]]]; unfold books; [lia|]. destruct (La (k * sz) w) as [H1 H2]. rewrite E in H1, H2. cbn in *. rewrite H1, H2. lia.
  Qed.
  Lemma denied_books k e w w' : denied alloc isize_max sz k e w w' -> books w w' 0 0.
  Proof.
    intros [(_ & _ & ->)|[_ E]]; unfold books; [lia|]. destruct (La (k * sz) w) as [H1 H2]. rewrite E in H1, H2. cbn in *. rewrite H1, H2. lia.
  Qed.

  Lemma glue_books xs : forall b w o w', drop_glue tdrop b xs w = (o, w') ->
    o = Ret tt \/ o = Panic -> books w w' (weigh xs) 0.
  Proof.
    induction xs as [|x xs IH]; cbn [drop_glue]; intros b w o w' E Ho.
    - inversion E; subst. unfold books. rewrite ?weigh_cons, ?weigh_nil. lia.
    - destruct (Ld x w) as [Hm Hg]. destruct (tdrop x w) as [o1 w1]. cbn [snd] in Hm, Hg.
      assert (Hk : forall b', drop_glue tdrop b' xs w1 = (o, w') -> books w w' (wt x + weigh xs) 0).
      { intros b' E'. pose proof (IH b' w1 o w' E' Ho) as H. unfold books in *. rewrite Hm, Hg in H. rewrite ?weigh_cons, ?weigh_nil in H. lia. }
      destruct o1 as [[]|e| | |]; try (inversion E; subst; destruct Ho; congruence).
      + exact (Hk _ E).
      + destruct b; [inversion E; subst; destruct Ho; congruence|exact (Hk _ E)].
  Qed.
  Lemma ending_books E A (o : outcome E A) xs w o' w' : ending tdrop o xs w = (o', w') ->
    o' <> Abort -> o <> UB -> books w w' (weigh xs) 0.
  Proof.
    unfold ending. intros Ee Ha Hu. destruct o as [a|e| | |]; try congruence.
    - destruct (drop_glue tdrop false xs w) as [o1 w1] eqn:Eg. destruct o1 as [[]|e1| | |]; inversion Ee; subst; try congruence; eapply glue_books; eauto.
    - destruct (drop_glue tdrop false xs w) as [o1 w1] eqn:Eg. destruct o1 as [[]|e1| | |]; inversion Ee; subst; try congruence; eapply glue_books; eauto.
    - destruct (drop_glue tdrop true xs w) as [o1 w1] eqn:Eg. destruct o1 as [[]|e1| | |]; inversion Ee; subst; try congruence; eapply glue_books; eauto.
  Qed.
  Lemma drops_books xs : forall w w', drops tdrop xs w = (Ret tt, w') -> books w w' (weigh xs) 0.
  Proof.
    induction xs as [|x xs IH]; cbn [drops]; intros w w' E.
    - inversion E; subst. unfold books. rewrite ?weigh_cons, ?weigh_nil. lia.
    - destruct (Ld x w) as [Hm Hg]. destruct (tdrop x w) as [o1 w1]. cbn [snd] in Hm, Hg. destruct o1 as [[]|e| | |]; try discriminate.
      pose proof (IH w1 w' E) as H. unfold books in *. rewrite Hm, Hg in H. rewrite ?weigh_cons, ?weigh_nil in *. lia.
  Qed.
  Lemma clones_books xs : forall w ys o w', clones tclone xs w = (ys, o, w') -> books w w' 0 (weigh ys).
  Proof.
    induction xs as [|x xs IH]; cbn [clones]; intros w ys o w' E.
    - inversion E; subst. unfold books. rewrite ?weigh_cons, ?weigh_nil. lia.
    - destruct (Lc x w) as [Hg Hm]. destruct (tclone x w) as [[y|e| | |] w1]; cbn [fst snd] in *;
        try (inversion E; subst; unfold books; rewrite Hg, Hm, ?weigh_nil; lia).
      destruct (clones tclone xs w1) as [[zs o1] w2] eqn:Ec. inversion E; subst. pose proof (IH w1 zs o w' Ec) as H.
      unfold books in *. rewrite Hm, Hg in H. rewrite ?weigh_cons, ?weigh_nil in *. lia.
  Qed.
  Lemma calls_books f n : ledger_make made gone f -> forall w ys o w', calls f n w = (ys, o, w') -> books w w' 0 (weigh ys).
  Proof.
    intros Lf. induction n as [|n IH]; cbn [calls]; intros w ys o w' E.
    - inversion E; subst. unfold books. rewrite ?weigh_cons, ?weigh_nil. lia.
    - destruct (Lf w) as [Hg Hm]. destruct (f w) as [[y|e| | |] w1]; cbn [fst snd] in *;
        try (inversion E; subst; unfold books; rewrite Hg, Hm, ?weigh_nil; lia).
      destruct (calls f n w1) as [[zs o1] w2] eqn:Ec. inversion E; subst. pose proof (IH w1 zs o w' Ec) as H.
      unfold books in *. rewrite Hm, Hg in H. rewrite ?weigh_cons, ?weigh_nil in *. lia.
  Qed.

  Definition lives {E A} (o : outcome E A) : Prop := o <> Abort /\ o <> UB.

  (** the books of an action that takes [xs] *)
  Definition kept (a : action W T) (xs : list T) : Prop :=
    forall l w o l' w', a l w o l' w' -> lives o -> books w w' (weigh xs + weigh l) (weigh l').

  Ltac bk := repeat match goal with
    | H : granted _ _ _ _ _ _ |- _ => apply granted_books in H
    | H : denied _ _ _ _ _ _ _ |- _ => apply denied_books in H
    | H : clones _ _ _ = _ |- _ => apply clones_books in H
    end; unfold books in *; rewrite ?weigh_app in *; rewrite ?weigh_cons, ?weigh_nil in *; lia.

  Lemma push_kept x : kept (a_push alloc isize_max sz tdrop x) [x].
  Proof.
    intros l w o l' w' H [Ha Hu]. inversion H; subst.
    - bk.
    - match goal with E : ending _ _ _ _ = _ |- _ => apply ending_books in E; [|exact Ha|discriminate] end. bk.
  Qed.
  Lemma collect_kept f n : ledger_next made gone f -> kept (a_collect alloc isize_max sz tdrop f n) [].
  Proof.
    intros Lf l w o l' w' H. induction H as [l w|n l w w' Ef|n l w w' Ef|n l w x w1 l1 w2 o l' w' Ef Hp Hc IH|n l w x w1 o l' w' Ef Hp Ho]; intros Hl.
    - bk.
    - destruct (Lf w) as [Hg Hm]. rewrite Ef in Hg, Hm. cbn in Hg, Hm. unfold books. rewrite Hg, Hm, ?weigh_nil. lia.
    - destruct (Lf w) as [Hg Hm]. rewrite Ef in Hg, Hm. cbn in Hg, Hm. unfold books. rewrite Hg, Hm, ?weigh_nil. lia.
    - destruct (Lf w) as [Hg Hm]. rewrite Ef in Hg, Hm. cbn in Hg, Hm. specialize (IH Hl).
      pose proof (@push_kept x _ _ _ _ _ Hp ltac:(split; discriminate)) as K; clear Hp; rename K into Hp. unfold books in *. rewrite Hg, Hm in Hp. rewrite ?weigh_cons, ?weigh_nil in *. lia.
    - destruct (Lf w) as [Hg Hm]. rewrite Ef in Hg, Hm. cbn in Hg, Hm.
      pose proof (@push_kept x _ _ _ _ _ Hp Hl) as K; clear Hp; rename K into Hp. unfold books in *. rewrite Hg, Hm in Hp. rewrite ?weigh_cons, ?weigh_nil in *. lia.
  Qed.
  Lemma resize_no_copy_kept n x : kept (a_resize_no_copy alloc isize_max sz tdrop tclone n x) [x].
  Proof.
    intros l w o l' w' H [Ha Hu]. inversion H as [? ? w1 ys ? Hn G C|? ? w1 ys o1 w2 ? ? Hn G C Ho E|? ? e w1 ? ? Hn D E|? ? w1 ? ? Hn D E]; subst.
    - bk.
    - assert (o1 <> UB) by (intros ->; cbn in E; inversion E; congruence).
      apply ending_books in E; [|exact Ha|assumption]. bk.
    - apply ending_books in E; [|exact Ha|discriminate]. bk.
    - apply drops_books in D. rewrite weigh_rev in D. apply ending_books in E; [|exact Ha|discriminate].
      pose proof (weigh_cut n l). bk.
  Qed.
  Lemma extend_no_copy_kept xs : kept (a_extend_no_copy alloc isize_max sz tclone xs) [].
  Proof. intros l w o l' w' H [Ha Hu]. inversion H; subst; bk. Qed.
  Lemma reserve_kept n : kept (a_reserve (T := T) alloc isize_max sz n) [].
  Proof. intros l w o l' w' H [Ha Hu]. inversion H; subst; bk. Qed.

  Lemma extends_kept ls : kept (a_extends alloc isize_max sz tclone ls) [].
  Proof.
    intros l w o l' w' H. induction H as [l w|xs ls l w l1 w1 o l' w' H1 H2 IH|xs ls l w o l' w' H1 Ho]; intros Hl.
    - bk.
    - pose proof (@extend_no_copy_kept _ _ _ _ _ _ H1 ltac:(split; discriminate)) as K1. specialize (IH Hl). bk.
    - pose proof (@extend_no_copy_kept _ _ _ _ _ _ H1 Hl) as K1. bk.
  Qed.
  Lemma concat_kept checked ls : kept (a_concat alloc isize_max sz tclone checked ls) [].
  Proof.
    intros l w o l' w' H Hl. inversion H as [n ? ? l1 w1 ? ? ? _ _ H1 H2|n ? ? e ? ? _ H1|]; subst.
    - pose proof (@reserve_kept _ _ _ _ _ _ H1 ltac:(split; discriminate)) as K1. pose proof (@extends_kept _ _ _ _ _ _ H2 Hl) as K2. bk.
    - pose proof (@reserve_kept _ _ _ _ _ _ H1 Hl) as K1. bk.
    - bk.
  Qed.
  Lemma acts_kept c r a : ledger_op made gone c -> moves c ->
    acts alloc isize_max sz tdrop tclone c = Some (r, a) -> kept a (taken c).
  Proof.
    intros Lo Mv E. destruct c; cbn [acts] in E; try discriminate; inversion E; subst; cbn [taken moves ledger_op] in *; try contradiction.
    - apply reserve_kept.
    - apply push_kept.
    - intros l w o l' w' H [Ha Hu]. inversion H; subst.
      + match goal with C : calls _ _ _ = _ |- _ => apply (calls_books _ Lo) in C end. bk.
      + bk.
      + match goal with E : ending _ _ _ _ = _ |- _ => apply ending_books in E; [|exact Ha|discriminate] end. pose proof (weigh_cut n l). bk.
    - apply resize_no_copy_kept.
    - apply extend_no_copy_kept.
    - intros l w o l' w' H [Ha Hu]. inversion H; subst.
      match goal with E : ending _ _ _ _ = _ |- _ => apply ending_books in E; [|exact Ha|discriminate] end. bk.
    - intros l w o l' w' H [Ha Hu]. inversion H; subst.
      + match goal with E : ending _ _ _ _ = _ |- _ => apply ending_books in E; [|exact Ha|discriminate] end. bk.
      + match goal with E : ending _ _ _ _ = _ |- _ => apply ending_books in E; [|exact Ha|discriminate] end. bk.
  Qed.
  Lemma makes_kept c S r a : ledger_op made gone c ->
    makes alloc isize_max sz tdrop tclone c S = Some (r, a) -> kept a (taken c).
  Proof.
    intros Lo E. destruct c; cbn [makes] in E; try discriminate; inversion E; subst; cbn [taken ledger_op] in *.
    - intros l w o l' w' (-> & -> & ->) _. bk.
    - apply reserve_kept.
    - apply resize_no_copy_kept.
    - apply extend_no_copy_kept.
    - now apply collect_kept.
    - apply concat_kept.
  Qed.

  (** *** the table *)
  Lemma live_upd_seq S r l n : forall k, k <= r < k + n ->
    weigh (List.concat (map (upd S r l) (seq k n))) + weigh (S r) = weigh (List.concat (map S (seq k n))) + weigh l.
  Proof.
    induction n as [|n IH]; intros k H; [lia|]. cbn [seq map List.concat]. rewrite !weigh_app.
    destruct (Nat.eq_dec r k) as [->|Hne].
    - rewrite upd_same. assert (Hm : map (upd S k l) (seq (Datatypes.S k) n) = map S (seq (Datatypes.S k) n)).
      { apply map_ext_in. intros j Hj. apply in_seq in Hj. apply upd_other. lia. }
      rewrite Hm. lia.
    - rewrite upd_other by lia. specialize (IH (Datatypes.S k) ltac:(lia)). lia.
  Qed.
  Lemma live_upd N S r l : r < N -> weigh (live N (upd S r l)) + weigh (S r) = weigh (live N S) + weigh l.
  Proof. intros H. apply live_upd_seq. lia. Qed.

  Lemma told_lives o : lives (told T o) -> lives o.
  Proof. intros [Ha Hu]. split; intros ->; [now apply Ha|now apply Hu]. Qed.
  Lemma handed_told o : handed (told T o) = [].
  Proof. destruct o; reflexivity. Qed.
  Lemma weigh_insert i x l : weigh (list_insert i x l) = wt x + weigh l.
  Proof. unfold list_insert. rewrite weigh_app. rewrite ?weigh_cons, ?weigh_nil. pose proof (weigh_cut i l). lia. Qed.
  Lemma ending_handed (o : outcome (verr T) (vres T)) xs w o' w' : ending tdrop o xs w = (o', w') -> handed o = [] -> handed o' = [].
  Proof.
    unfold ending. intros E H. destruct o as [a|e| | |].
    - destruct (drop_glue tdrop false xs w) as [[[]|e1| | |] w1]; inversion E; subst; auto.
    - destruct (drop_glue tdrop false xs w) as [[[]|e1| | |] w1]; inversion E; subst; auto.
    - destruct (drop_glue tdrop true xs w) as [[[]|e1| | |] w1]; inversion E; subst; auto.
    - inversion E; subst; auto.
    - inversion E; subst; auto.
  Qed.
  Lemma acts_below N c r a : below N c -> acts alloc isize_max sz tdrop tclone c = Some (r, a) -> r < N.
  Proof. intros B E. destruct c; cbn [acts below] in *; try discriminate; inversion E; subst; lia. Qed.
  Lemma makes_below N c S r a : below N c -> makes alloc isize_max sz tdrop tclone c S = Some (r, a) -> r < N.
  Proof. intros B E. destruct c; cbn [makes below] in *; try discriminate; inversion E; subst; lia. Qed.

  Lemma step_books N c S w o S' w' : ledger_op made gone c -> moves c -> below N c ->
    vspec alloc isize_max sz tdrop tclone c S w o S' w' -> lives o ->
    books w w' (weigh (taken c) + weigh (live N S)) (weigh (handed o) + weigh (live N S')).
  Proof.
    intros Lo Mv B H. destruct H as [c r a S w o l' w' Hc Ha|c r a S w l' w1 o w' Hc Ha He|c r a S w o1 l' w1 o w' Hc Ha Hn He
      |r x S w w' G|r x S w e w' D|r i x S w w' Hi G|r i x S w e w' D|r i x S w w1 o w' Hi G He
      |r t S w w' Hne G|r t S w e w' Hne D|r S w|r S w E|r S w l x E|r S w]; intros Hl; cbn [taken handed below] in *.
    - pose proof (@acts_kept c r a Lo Mv Hc _ _ _ _ _ Ha (@told_lives o Hl)) as K. rewrite handed_told.
      pose proof (@live_upd N S r l' (@acts_below N c r a B Hc)). unfold books in *. rewrite ?weigh_cons, ?weigh_nil in *. lia.
    - pose proof (@makes_kept c S r a Lo Hc _ _ _ _ _ Ha ltac:(split; discriminate)) as K.
      pose proof (@live_upd N S r l' (@makes_below N c S r a B Hc)). rewrite (@ending_handed _ _ _ _ _ He eq_refl).
      apply ending_books in He; [|apply Hl|discriminate]. unfold books in *. rewrite ?weigh_cons, ?weigh_nil in *. lia.
    - assert (Ho : lives o1). { destruct o1; cbn in He; try (split; discriminate); inversion He; subst; destruct Hl; congruence. }
      pose proof (@makes_kept c S r a Lo Hc _ _ _ _ _ Ha Ho) as K. rewrite (@ending_handed _ _ _ _ _ He (handed_told o1)).
      apply ending_books in He; [|apply Hl|]. 2:{ destruct Ho. destruct o1; cbn; congruence. }
      unfold books in *. rewrite ?weigh_cons, ?weigh_nil in *. lia.
    - apply granted_books in G. pose proof (@live_upd N S r (S r ++ [x]) B) as L. rewrite weigh_app in L. unfold books in *. rewrite ?weigh_cons, ?weigh_nil in *. lia.
    - apply denied_books in D. unfold books in *. rewrite ?weigh_cons, ?weigh_nil in *. lia.
    - apply granted_books in G. pose proof (@live_upd N S r (list_insert i x (S r)) B) as L. rewrite weigh_insert in L. unfold books in *. rewrite ?weigh_cons, ?weigh_nil in *. lia.
    - apply denied_books in D. unfold books in *. rewrite ?weigh_cons, ?weigh_nil in *. lia.
    - apply granted_books in G. rewrite (@ending_handed _ _ _ _ _ He eq_refl). apply ending_books in He; [|apply Hl|discriminate].
      unfold books in *. rewrite ?weigh_cons, ?weigh_nil in *. lia.
    - destruct B as [B1 B2]. apply granted_books in G. pose proof (@live_upd N (upd S r (S r ++ S t)) t [] B2) as L1. pose proof (@live_upd N S r (S r ++ S t) B1) as L2.
      rewrite upd_other in L1 by congruence. rewrite weigh_app in L2. unfold books in *. rewrite ?weigh_cons, ?weigh_nil in *. lia.
    - apply denied_books in D. unfold books in *. rewrite ?weigh_cons, ?weigh_nil in *. lia.
    - unfold books. lia.
    - unfold books. lia.
    - pose proof (@live_upd N S r l B) as L. rewrite E, weigh_app in L. unfold books in *. rewrite ?weigh_cons, ?weigh_nil in *. lia.
    - unfold books. lia.
  Qed.

  Theorem history_books N cs S w os R w' :
    vhistory alloc isize_max sz tdrop tclone cs S w os R w' ->
    Forall (ledger_op made gone) cs -> Forall (@moves W T) cs -> Forall (below N) cs ->
    forall S', R = Some S' -> Forall lives os ->
    books w w' (weigh (flat_map (@taken W T) cs) + weigh (live N S)) (weigh (flat_map (@handed T) os) + weigh (live N S')).
  Proof.
    intros H. induction H as [S w|c cs S w o S1 w1 os R w' Hv Ha Hh IH|c cs S w S1 w' Hv|c cs S w os w' Hb]; intros F1 F2 F3 S' E Fl; try discriminate.
    - inversion E; subst. unfold books. cbn [flat_map]. rewrite ?weigh_nil. lia.
    - inversion F1; inversion F2; inversion F3; inversion Fl; subst.
      specialize (IH ltac:(assumption) ltac:(assumption) ltac:(assumption) S' eq_refl ltac:(assumption)).
      pose proof (@step_books N c S w o S1 w1 ltac:(assumption) ltac:(assumption) ltac:(assumption) Hv ltac:(assumption)) as K.
      cbn [flat_map]. rewrite !weigh_app. unfold books in *. lia.
  Qed.
End P.

(** weights are enough: lists that weigh the same under every weight are
    permutations of each other, when equality is decidable *)
Lemma weigh_permutation T (dec : forall x y : T, {x = y} + {x <> y}) (l l' : list T) :
  (forall wt, weigh wt l = weigh wt l') -> Permutation l l'.
Proof.
  intros H. apply (Permutation_count_occ dec). intros x.
  specialize (H (fun y => if dec y x then 1 else 0)).
  assert (Hc : forall k, weigh (fun y => if dec y x then 1 else 0) k = count_occ dec k x).
  { induction k as [|y k IH]; cbn; [reflexivity|]. destruct (dec y x); cbn; rewrite <- IH; reflexivity. }
  now rewrite !Hc in H.
Qed.
