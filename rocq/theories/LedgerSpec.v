(** * LedgerSpec: the books of a program (no code of /repo is modelled here)

    Every key [k] weighs [kw k] and every value [v] weighs [vw v], where [kw] and
    [vw] are any functions: with weight 1 for one key and 0 for everything else
    the sums below count how often that key occurs. *)
From Coq Require Import List Arith.
From Verif Require Import Base MapSpec IterSpec BTreeModel BTreeInv BTreeIterModel HistoryModel LedgerModel.
Import ListNotations.
Set Implicit Arguments.

Section Spec.
  Variables (K V Q : Type) (kw : K -> nat) (vw : V -> nat).
  Notation kv := (K * V)%type.
  Notation result := (outcome reserve_error (obs K V)).

  Definition pw (x : kv) : nat := kw (fst x) + vw (snd x).
  Definition lw (l : list kv) : nat := list_sum (map pw l).
  Definition ow {A} (f : A -> nat) (o : option A) : nat := match o with Some a => f a | None => 0 end.
  (** everything in the nodes of a tree *)
  Fixpoint contents (n : node K V) : list kv := match n with Node ks es => ks ++ flat_map contents es end.

  (** what the variables [0 .. N-1] hold *)
  Definition held (N : nat) (s : regs K V) : nat := list_sum (map (fun r => lw (entries (s r))) (seq 0 N)).
  (** what was made, dropped and leaked *)
  Definition made (t : list (fate K V)) : nat := list_sum (map (fun f => match f with KMade k => kw k | VMade v => vw v | _ => 0 end) t).
  Definition dropped (t : list (fate K V)) : nat := list_sum (map (fun f => match f with KDrop k => kw k | VDrop v => vw v | _ => 0 end) t).
  Definition leaked (t : list (fate K V)) : nat := list_sum (map (fun f => match f with Leak n => lw (contents n) | _ => 0 end) t).
  (** what the caller hands in by value *)
  Definition taken (c : op K V Q) : nat :=
    match c with
    | Insert _ k v | Replace _ k v | EntryOr _ k _ v => kw k + vw v
    | EntryRemove _ k => kw k
    | Extend _ l => lw l
    | _ => 0
    end.
  (** what the caller gets by value *)
  Definition given (c : op K V Q) (o : result) : nat :=
    match c, o with
    | Insert _ _ _, Ret (OVal _ v) | Remove _ _, Ret (OVal _ v) => ow vw v
    | Replace _ _ _, Ret (OKey _ k) => ow kw k
    | Take _ _, Ret (OEntry x) | EntryRemove _ _, Ret (OEntry x) => ow pw x
    | IntoIter_ _ _, Ret (ODropped outs _) => list_sum (map (ow pw) outs)
    | _, _ => 0
    end.
  (** a step that started with the maps [s] and ended with [s'] *)
  Definition balance (N : nat) (s : regs K V) (c : op K V Q) (o : result) (s' : regs K V) (t : list (fate K V)) : Prop :=
    held N s + taken c + made t = held N s' + given c o + dropped t + leaked t.

  (** the variables of a program are below [N] *)
  Definition within (N : nat) (c : op K V Q) : Prop :=
    match c with
    | New r | Insert r _ _ | Replace r _ _ | Remove r _ | Take r _ | Get r _ | GetKeyValue r _ | Contains r _ | Index r _ | GetMut r _ _
    | Len r | IsEmpty r | Clear r | Extend r _ | Iterate r _ | RangeOver r _ _ _ | IterMut r _ _ | RangeMut r _ _ _ _ | IntoIter_ r _
    | EntryOr r _ _ _ | EntryRemove r _ => r < N
    | Append r t | SplitOff r _ t | TryClone r t | Clone r t | Equal r t | Compare r t => r < N /\ t < N
    end.
  Definition no_leak (t : list (fate K V)) : Prop := forall n, ~ In (Leak n) t.

  (** an insertion that fails for want of memory *)
  Definition refused_op (no_memory : reserve_error -> Prop) (c : op K V Q) (o : result) : Prop :=
    match c with
    | Insert _ _ _ | Replace _ _ _ | EntryOr _ _ _ _ => exists e, o = Err e /\ no_memory e
    | Extend _ _ | Append _ _ => o = Panic /\ exists e, no_memory e
    | _ => False
    end.
  (** the books of a program that starts with the maps [s]: every step balances
      and leaks nothing, up to the first insertion without memory.  That one
      balances too, but may leak (C24) *)
  Inductive kept (no_memory : reserve_error -> Prop) (N : nat) : regs K V -> list (op K V Q) -> list (result * regs K V * list (fate K V)) -> Prop :=
  | Kept_end s : kept no_memory N s [] []
  | Kept_step s c l o s' t rest : balance N s c o s' t -> no_leak t -> o <> Abort -> o <> UB -> kept no_memory N s' l rest ->
      kept no_memory N s (c :: l) ((o, s', t) :: rest)
  | Kept_dead s c l o s' t : o = Abort \/ o = UB -> kept no_memory N s (c :: l) [(o, s', t)]      (* only through an element's clone *)
  | Kept_refused s c l o s' t rest : refused_op no_memory c o -> balance N s c o s' t -> kept no_memory N s (c :: l) ((o, s', t) :: rest).
End Spec.

(** ** The same with lists of keys and values *)
Section Lists.
  Variables (K V Q : Type).
  Notation kv := (K * V)%type.
  Notation result := (outcome reserve_error (obs K V)).
  Notation step_ := (op K V Q * (result * regs K V * list (fate K V)))%type.

  Definition k_made (t : list (fate K V)) : list K := flat_map (fun f => match f with KMade k => [k] | _ => [] end) t.
  Definition v_made (t : list (fate K V)) : list V := flat_map (fun f => match f with VMade v => [v] | _ => [] end) t.
  Definition k_dropped (t : list (fate K V)) : list K := flat_map (fun f => match f with KDrop k => [k] | _ => [] end) t.
  Definition v_dropped (t : list (fate K V)) : list V := flat_map (fun f => match f with VDrop v => [v] | _ => [] end) t.
  (** handed in by the caller *)
  Definition in_ (c : op K V Q) : list K * list V :=
    match c with
    | Insert _ k v | Replace _ k v | EntryOr _ k _ v => ([k], [v])
    | EntryRemove _ k => ([k], [])
    | Extend _ l => (map fst l, map snd l)
    | _ => ([], [])
    end.
  (** handed back to the caller *)
  Definition one_of {A} (o : option A) : list A := match o with Some a => [a] | None => [] end.
  Definition out (c : op K V Q) (o : result) : list K * list V :=
    match c, o with
    | Insert _ _ _, Ret (OVal _ v) | Remove _ _, Ret (OVal _ v) => ([], one_of v)
    | Replace _ _ _, Ret (OKey _ k) => (one_of k, [])
    | Take _ _, Ret (OEntry x) | EntryRemove _ _, Ret (OEntry x) => (map fst (one_of x), map snd (one_of x))
    | IntoIter_ _ _, Ret (ODropped outs _) => (map fst (somes outs), map snd (somes outs))
    | _, _ => ([], [])
    end.
  (** nothing went wrong that ends the books: no abort, and no insertion ran out of memory *)
  Definition undisturbed (r : step_) : Prop :=
    let '(c, (o, _, _)) := r in
    o <> Abort /\ o <> UB /\
    match c with
    | Insert _ _ _ | Replace _ _ _ | EntryOr _ _ _ _ => forall e, o <> Err e
    | Extend _ _ | Append _ _ => o <> Panic
    | _ => True
    end.
  (** the same program, and then all its variables go out of scope *)
  Definition to_the_end (N : nat) (ops : list (op K V Q)) : list (op K V Q) := ops ++ map (@New K V Q) (seq 0 N).
End Lists.

