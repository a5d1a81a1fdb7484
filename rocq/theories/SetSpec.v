(** * SetSpec: sets as strictly ascending lists, the independent specification
    of BTreeSet.  Nothing here refers to trees. *)
From Coq Require Import List Arith Lia Bool Sorted.
From Verif Require Import Base MapSpec.
Import ListNotations.
Set Implicit Arguments.

Section SetSpec.
  Variables (T : Type) (cmp : T -> T -> comparison).

  (** strictly ascending: hence without repetition *)
  Definition ascending (l : list T) : Prop := StronglySorted (fun a b => cmp a b = Lt) l.

  (** an element comparing equal to [x] is in [l] *)
  Definition member (x : T) (l : list T) : Prop := exists y, In y l /\ cmp x y = Eq.

  (** what an iterator that only goes forward delivers in [n] calls: the first
      [n] items of the list, then [None] forever *)
  Definition delivered (n : nat) (l : list T) : list (option T) :=
    map Some (firstn n l) ++ repeat None (n - length l).
End SetSpec.

(** [n] calls of [next] *)
Section Steps.
  Variables (S A : Type) (next : S -> outcome Empty_set (option A * S)).
  Fixpoint steps (n : nat) (s : S) : outcome Empty_set (list (option A) * S) :=
    match n with
    | 0 => Ret ([], s)
    | Datatypes.S n' =>
        match next s with
        | Ret (x, s') =>
            match steps n' s' with
            | Ret (xs, s'') => Ret (x :: xs, s'')
            | Err e => Err e | Panic => Panic | Abort => Abort | UB => UB
            end
        | Err e => Err e | Panic => Panic | Abort => Abort | UB => UB
        end
    end.

  Variable R : S -> list A -> Prop.
  Hypothesis step_ok : forall s l, R s l -> exists s', next s = Ret (hd_error l, s') /\ R s' (tl l).
  Lemma steps_ok n : forall s l, R s l -> exists s', steps n s = Ret (delivered n l, s') /\ R s' (skipn n l).
  Proof.
    induction n as [|n IH]; intros s l H; [exists s; auto|]. cbn [steps]. destruct (step_ok H) as (s1 & -> & H1).
    destruct (IH _ _ H1) as (s2 & -> & H2). exists s2. destruct l; cbn in *; [|auto]. unfold delivered. cbn.
    rewrite firstn_nil, Nat.sub_0_r. cbn. split; auto. now rewrite skipn_nil in H2.
  Qed.
End Steps.

(** the two determine a list: same elements, both strictly ascending *)
Lemma ascending_unique T (cmp : T -> T -> comparison) : ord_laws cmp -> forall l1 l2 : list T,
  ascending cmp l1 -> ascending cmp l2 -> (forall x, In x l1 <-> In x l2) -> l1 = l2.
Proof.
  intros laws. induction l1 as [|a l1 IH]; intros l2 H1 H2 HI.
  - destruct l2 as [|b l2]; auto. exfalso. apply (HI b). now left.
  - destruct l2 as [|b l2]; [exfalso; apply (HI a); now left|].
    inversion H1 as [|? ? S1 F1]; inversion H2 as [|? ? S2 F2]; subst. rewrite Forall_forall in F1, F2.
    assert (E : a = b).
    { destruct (proj1 (HI a) (or_introl eq_refl)) as [E|E]; auto. destruct (proj2 (HI b) (or_introl eq_refl)) as [E'|E']; auto.
      apply F2 in E. apply F1 in E'. rewrite (cmp_antisym laws), E in E'. discriminate. }
    subst b. f_equal. apply IH; auto. intros x. specialize (HI x). split; intros H.
    + destruct (proj1 HI (or_intror H)); auto. subst. apply F1 in H. rewrite (cmp_refl laws) in H. discriminate.
    + destruct (proj2 HI (or_intror H)); auto. subst. apply F2 in H. rewrite (cmp_refl laws) in H. discriminate.
Qed.
