(** * IterSpec: what a double-ended iterator does, said about plain lists.
    Nothing here refers to trees. *)
From Coq Require Import List Arith Lia Bool.
From Verif Require Import Base.
Import ListNotations.
Set Implicit Arguments.

(** one call of the caller: next() or next_back() *)
Inductive end_ := Front | Back.

Section Deque.
  Variable A : Type.
  (** the ideal iterator over a list of remaining items *)
  Definition dq_step (e : end_) (l : list A) : option A * list A :=
    match e with
    | Front => match l with [] => (None, []) | x :: l' => (Some x, l') end
    | Back => match rev l with [] => (None, []) | x :: l' => (Some x, rev l') end
    end.
  (** the results of a sequence of calls and the items that remain *)
  Fixpoint dq_run (ops : list end_) (l : list A) : list (option A) * list A :=
    match ops with
    | [] => ([], l)
    | e :: ops' =>
        let '(x, l') := dq_step e l in
        let '(xs, l'') := dq_run ops' l' in (x :: xs, l'')
    end.
End Deque.

Section Run.
  Variables (S A : Type).
  (** the same sequence of calls on an iterator of the code *)
  Variables (next next_back : S -> outcome Empty_set (option A * S)).
  Fixpoint calls (ops : list end_) (s : S) : outcome Empty_set (list (option A) * S) :=
    match ops with
    | [] => Ret ([], s)
    | e :: ops' =>
        match (match e with Front => next s | Back => next_back s end) with
        | Ret (x, s') =>
            match calls ops' s' with
            | Ret (xs, s'') => Ret (x :: xs, s'')
            | Err er => Err er | Panic => Panic | Abort => Abort | UB => UB
            end
        | Err er => Err er | Panic => Panic | Abort => Abort | UB => UB
        end
    end.
End Run.

(** the items that were delivered *)
Fixpoint somes {A} (l : list (option A)) : list A :=
  match l with [] => [] | Some x :: l' => x :: somes l' | None :: l' => somes l' end.

(** sanity of the ideal iterator: what it delivers and what remains is what was
    there; from the front only, it delivers the list in order *)
Lemma dq_run_front A (l : list A) : dq_run (repeat Front (length l)) l = (map Some l, []).
Proof. induction l as [|x l IH]; simpl; auto. now rewrite IH. Qed.
Lemma dq_run_back A (l : list A) : dq_run (repeat Back (length l)) l = (map Some (rev l), []).
Proof.
  rewrite <- (rev_involutive l) at 2. rewrite <- rev_length. generalize (rev l). clear l.
  induction l as [|x l IH]; simpl; auto. now rewrite rev_app_distr, rev_involutive; simpl; rewrite IH.
Qed.
Lemma dq_run_nil A ops : dq_run ops ([] : list A) = (repeat None (length ops), []).
Proof. induction ops as [|[] ops IH]; simpl; auto; now rewrite IH. Qed.

(** the part of a list between two positions *)
Definition seg {A} (L : list A) (a b : nat) : list A := firstn (b - a) (skipn a L).
Lemma seg_length A (L : list A) a b : a <= b <= length L -> length (seg L a b) = b - a.
Proof. intros. unfold seg. rewrite firstn_length, skipn_length. lia. Qed.
Lemma seg_all A (L : list A) : seg L 0 (length L) = L.
Proof. unfold seg. rewrite Nat.sub_0_r. simpl. apply firstn_all. Qed.
Lemma seg_nil A (L : list A) a : seg L a a = [].
Proof. unfold seg. now rewrite Nat.sub_diag. Qed.
Lemma seg_front A (L : list A) a b x : a < b -> nth_error L a = Some x -> seg L a b = x :: seg L (S a) b.
Proof.
  intros H Hx. unfold seg. replace (b - a) with (S (b - S a)) by lia.
  apply nth_error_split in Hx. destruct Hx as (l1 & l2 & -> & Hl).
  replace (skipn a (l1 ++ x :: l2)) with (x :: l2).
  2:{ rewrite <- Hl, skipn_app, Nat.sub_diag, skipn_all. reflexivity. }
  replace (skipn (S a) (l1 ++ x :: l2)) with l2.
  2:{ rewrite <- Hl, skipn_app. replace (S (length l1) - length l1) with 1 by lia. rewrite skipn_all2 by lia. reflexivity. }
  reflexivity.
Qed.
Lemma seg_back A (L : list A) a b x : a <= b -> nth_error L b = Some x -> seg L a (S b) = seg L a b ++ [x].
Proof.
  intros H Hx. unfold seg. replace (S b - a) with (S (b - a)) by lia.
  apply nth_error_split in Hx. destruct Hx as (l1 & l2 & -> & Hl).
  rewrite !skipn_app. assert (a - length l1 = 0) as -> by lia. rewrite !skipn_O.
  assert (Hk : length (skipn a l1) = b - a) by (rewrite skipn_length; lia). generalize dependent (skipn a l1).
  intros k Hk. rewrite !firstn_app, Hk, Nat.sub_diag. replace (S (b - a) - (b - a)) with 1 by lia.
  rewrite (@firstn_all2 _ (S (b - a)) k) by lia. rewrite (@firstn_all2 _ (b - a) k) by lia. simpl. now rewrite app_nil_r.
Qed.

(** from an invariant of single steps to all sequences of calls *)
Section Sim.
  Variables (S A B : Type) (proj : A -> B) (good : A -> Prop) (L : list B).
  Variables (next next_back : S -> outcome Empty_set (option A * S)).
  Variable I : nat -> nat -> S -> Prop.
  Hypothesis Ibound : forall a b s, I a b s -> a <= b <= length L.
  Hypothesis next_ok : forall a b s, I a b s ->
    if a =? b then exists s', next s = Ret (None, s') /\ I a b s'
    else exists x s', next s = Ret (Some x, s') /\ nth_error L a = Some (proj x) /\ good x /\ I (Datatypes.S a) b s'.
  Hypothesis back_ok : forall a b s, I a b s ->
    if a =? b then exists s', next_back s = Ret (None, s') /\ I a b s'
    else exists x s', next_back s = Ret (Some x, s') /\ nth_error L (b - 1) = Some (proj x) /\ good x /\ I a (b - 1) s'.

  Lemma calls_sim ops : forall a b s, I a b s ->
    exists outs s' a' b', calls next next_back ops s = Ret (outs, s') /\ I a' b' s' /\
      dq_run ops (seg L a b) = (map (option_map proj) outs, seg L a' b') /\ Forall good (somes outs).
  Proof.
    induction ops as [|e ops IH]; intros a b s HI.
    - exists [], s, a, b. simpl. auto.
    - pose proof (Ibound HI) as Hb. cbn [calls dq_run].
      assert (Hstep : exists x s1 a1 b1, (match e with Front => next s | Back => next_back s end) = Ret (x, s1) /\
        I a1 b1 s1 /\ dq_step e (seg L a b) = (option_map proj x, seg L a1 b1) /\ Forall good (somes [x])).
      { destruct e.
        - specialize (next_ok HI). destruct (Nat.eqb_spec a b) as [->|Hn].
          + destruct next_ok as (s' & E & HI'). exists None, s', b, b. rewrite seg_nil. simpl. auto.
          + destruct next_ok as (x & s' & E & Hx & Hg & HI'). exists (Some x), s', (Datatypes.S a), b.
            rewrite (seg_front L (b := b) (a := a) (x := proj x)) by (auto; lia). simpl. auto.
        - specialize (back_ok HI). destruct (Nat.eqb_spec a b) as [->|Hn].
          + destruct back_ok as (s' & E & HI'). exists None, s', b, b. rewrite seg_nil. simpl. auto.
          + destruct back_ok as (x & s' & E & Hx & Hg & HI'). exists (Some x), s', a, (b - 1).
            split; [exact E|]. split; [exact HI'|]. split; [|simpl; auto].
            replace b with (Datatypes.S (b - 1)) at 1 by lia.
            rewrite (seg_back L (b := b - 1) (a := a) (x := proj x)) by (auto; lia).
            unfold dq_step. rewrite rev_app_distr. cbn [rev app]. now rewrite rev_involutive. }
      destruct Hstep as (x & s1 & a1 & b1 & E & HI1 & Ed & Hg). rewrite E, Ed.
      destruct (IH a1 b1 s1 HI1) as (outs & s2 & a2 & b2 & E2 & HI2 & Ed2 & Hg2). rewrite E2, Ed2.
      exists (x :: outs), s2, a2, b2. split; [reflexivity|]. split; auto. split; [reflexivity|].
      destruct x; simpl in *; auto. constructor; auto. now inversion Hg.
  Qed.
End Sim.
