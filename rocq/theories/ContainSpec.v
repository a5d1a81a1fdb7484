(** * ContainSpec: programs that go on after a map was damaged, as long as they
    leave that map alone.

    An insertion that is refused memory, or an append or split_off that panics,
    damages the map it works on (C24, C43, C44).  Here a program remembers the
    damaged variables and what it may expect of the others. *)
From Coq Require Import List Arith Lia Bool Permutation.
From Verif Require Import Base MapSpec IterSpec BTreeModel HeapModel HeapMapModel HistoryModel HistorySpec HeapSpec DropSpec HostileSpec.
Import ListNotations.
Set Implicit Arguments.

Section Spec.
  Variables (K V Q : Type).
  Notation kv := (K * V)%type.
  Notation heap := (heap K V).
  Notation state := (nat -> list kv).
  Notation result := (outcome reserve_error (obs K V)).
  Notation op := (op K V Q).

  (** the variables an operation mentions *)
  Definition mentions (c : op) : list nat :=
    match c with
    | New r | Clear r | Insert r _ _ | Replace r _ _ | Remove r _ | Take r _ | Get r _ | GetKeyValue r _ | Contains r _ | Index r _ | GetMut r _ _
    | Len r | IsEmpty r | Extend r _ | Iterate r _ | RangeOver r _ _ _ | IterMut r _ _ | RangeMut r _ _ _ _ | IntoIter_ r _ | EntryOr r _ _ _ | EntryRemove r _ => [r]
    | Append r t | SplitOff r _ t | TryClone r t | Clone r t | Equal r t | Compare r t => [r; t]
    end.
  Definition avoids (c : op) (D : list nat) : Prop := forall r, In r (mentions c) -> ~ In r D.

  (** the variable that an operation damages when it gives up, and the lists afterwards: nothing
      is said of the damaged one, [append] has emptied the map it takes from, the others are as before *)
  Inductive damages : op -> nat -> state -> state -> Prop :=
  | Dm_insert r k v (S S' : state) : (forall i, i <> r -> S' i = S i) -> damages (Insert r k v) r S S'
  | Dm_replace r k v (S S' : state) : (forall i, i <> r -> S' i = S i) -> damages (Replace r k v) r S S'
  | Dm_entry r k f v (S S' : state) : (forall i, i <> r -> S' i = S i) -> damages (EntryOr r k f v) r S S'
  | Dm_extend r xs (S S' : state) : (forall i, i <> r -> S' i = S i) -> damages (Extend r xs) r S S'
  | Dm_split r x t (S S' : state) : (forall i, i <> r -> S' i = S i) -> damages (SplitOff r x t) r S S'
  | Dm_append r t (S S' : state) : S' t = [] -> (forall i, i <> r -> i <> t -> S' i = S i) -> damages (Append r t) r S S'.

  (** the policy: a variable is left alone for ever after an insertion into it failed, or an extend, append or
      split_off of it panicked *)
  Definition suspect (c : op) (o : result) : list nat :=
    match c, o with
    | Insert r _ _, Err _ | Replace r _ _, Err _ | EntryOr r _ _ _, Err _ | Extend r _, Panic | Append r _, Panic | SplitOff r _ _, Panic => [r]
    | _, _ => []
    end.
  Fixpoint careful (D : list nat) (ops : list op) (outs : list result) : Prop :=
    match ops, outs with
    | c :: ops', o :: outs' => avoids c D /\ careful (suspect c o ++ D) ops' outs'
    | _, _ => True
    end.

  (** every variable [r] outside of [D] holds the map of the list [S r].  The maps share no node with each other, nor
      with the nodes [lost] (those of damaged maps, among others), and no other node is allocated *)
  Definition sound_memory (cmp : K -> K -> comparison) (D : list nat) (s : hregs) (hp : heap) (S : state) : Prop :=
    exists (nodes : nat -> list loc) (lost : list loc),
      (forall r, ~ In r D -> sorted cmp (S r) /\ mlen (s r) = length (S r) /\
         ((mroot (s r) = NR 0 sroot /\ S r = [] /\ nodes r = []) \/
          stored hp (rh (mroot (s r))) (rl (mroot (s r))) None (S r) (nodes r))) /\
      (forall r, In r D -> nodes r = []) /\
      apart nodes /\ NoDup lost /\ (forall r l, In l (nodes r) -> ~ In l lost) /\
      (forall l, In l lost -> hget hp l <> None) /\
      forall l, l <> sroot -> hget hp l <> None -> In l lost \/ exists r, In l (nodes r).

  (** comparisons answer anything and may panic ([loose], [gave_up] of HostileSpec) *)
  Section Loose.
    Variables (no_memory : reserve_error -> Prop) (copy : kv -> kv -> Prop) (clone_fails : outcome reserve_error unit -> Prop) (scared : Prop).
    Notation loose := (loose no_memory copy clone_fails scared).
    Notation gave_up := (HostileSpec.gave_up no_memory scared).
    Notation lt := (fun _ _ : K => Lt).
    Inductive runs_contained : list nat -> state -> list op -> list (result * hregs * heap) -> Prop :=
    | Q_end D S : runs_contained D S [] []
    | Q_step D S c l o s hp S' rest :
        avoids c D -> loose c S o S' -> sound_memory lt D s hp S' -> o <> Abort -> o <> UB ->
        runs_contained D S' l rest -> runs_contained D S (c :: l) ((o, s, hp) :: rest)
    | Q_dead D S c l o s hp S' :   (* only through an element's clone *)
        avoids c D -> loose c S o S' -> o = Abort \/ o = UB -> runs_contained D S (c :: l) [(o, s, hp)]
    | Q_gave_up D S c l o s hp r S' rest :
        avoids c D -> gave_up c S o -> damages c r S S' -> sound_memory lt (r :: D) s hp S' ->
        runs_contained (r :: D) S' l rest -> runs_contained D S (c :: l) ((o, s, hp) :: rest)
    | Q_risk D S c l res : (* a damaged map is used *)
        ~ avoids c D -> runs_contained D S (c :: l) res.
  End Loose.

  (** comparisons obey the laws, destructors may panic ([spec], [gave_up] of HistorySpec, [dropped], [blasts], [panics] of DropSpec) *)
  Section Lawful.
    Variables (W : Type) (cmp : K -> K -> comparison) (qcmp : Q -> Q -> comparison) (borrow : K -> Q).
    Variables (eqb : kv -> kv -> bool) (pcmp : kv -> kv -> option comparison).
    Variables (no_memory : reserve_error -> Prop) (copy : kv -> kv -> Prop) (clone_fails : outcome reserve_error unit -> Prop).
    Variables (kdrop : K -> W -> bool * W) (vdrop : V -> W -> bool * W).
    Notation spec := (spec cmp qcmp borrow eqb pcmp no_memory copy clone_fails).
    Notation gave_up := (HistorySpec.gave_up cmp no_memory).
    Inductive keeps_going : list nat -> state -> list op -> list (result * list kv * hregs * heap) -> Prop :=
    | Kg_end D S : keeps_going D S [] []
    | Kg_step D S c l o log s hp S' rest :
        avoids c D -> spec c S o S' -> log = (match o with Ret _ => dropped cmp c S | _ => [] end) ->
        sound_memory cmp D s hp S' -> o <> Abort -> o <> UB ->
        keeps_going D S' l rest -> keeps_going D S (c :: l) ((o, log, s, hp) :: rest)
    | Kg_panic D S c l log x kept s hp S' rest :
        (* a destructor panicked: the operation has its effect all the same; the entries after [x] are never destroyed *)
        avoids c D -> replaces c = false -> (exists a : obs K V, spec c S (Ret a) S') -> dropped cmp c S = log ++ x :: kept -> panics kdrop vdrop x ->
        sound_memory cmp D s hp S' ->
        keeps_going D S' l rest -> keeps_going D S (c :: l) ((Panic, log ++ [x], s, hp) :: rest)
    | Kg_dead D S c l o log s hp S' :      (* only through an element's clone *)
        avoids c D -> spec c S o S' -> o = Abort \/ o = UB -> keeps_going D S (c :: l) [(o, log, s, hp)]
    | Kg_abort D S c l log s hp :          (* a destructor panicked while a panic was unwinding *)
        avoids c D -> blasts kdrop vdrop log 2 \/ (blasts kdrop vdrop log 1 /\ gave_up c S Panic) -> keeps_going D S (c :: l) [(Abort, log, s, hp)]
    | Kg_gave_up D S c l o log s hp r S' rest :  (* refused memory *)
        avoids c D -> gave_up c S o -> damages c r S S' -> sound_memory cmp (r :: D) s hp S' ->
        keeps_going (r :: D) S' l rest -> keeps_going D S (c :: l) ((o, log, s, hp) :: rest)
    | Kg_append D S r t l log s hp kept S' rest :   (* append: a destructor panicked *)
        avoids (Append r t) D -> blasts kdrop vdrop log 1 -> Permutation (S r ++ S t) (kept ++ log) ->
        damages (Append r t) r S S' -> sound_memory cmp (r :: D) s hp S' ->
        keeps_going (r :: D) S' l rest -> keeps_going D S (Append r t :: l) ((Panic, log, s, hp) :: rest)
    | Kg_risk D S c l res : (* a damaged map is used *)
        ~ avoids c D -> keeps_going D S (c :: l) res.
  End Lawful.
End Spec.
