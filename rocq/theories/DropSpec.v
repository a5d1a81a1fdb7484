(** * DropSpec: what a program may observe, and what memory looks like, when
    the destructors of keys and values are user code that may panic. *)
From Coq Require Import List Arith Lia Bool Sorted Permutation.
From Verif Require Import Base MapSpec IterSpec BTreeModel HeapModel HeapMapModel HistoryModel HistorySpec HeapSpec.
Import ListNotations.
Set Implicit Arguments.

Section Spec.
  Variables (K V : Type).
  Notation kv := (K * V)%type.
  Notation heap := (heap K V).

  (** as [memory] of HeapSpec, next to nodes that belong to no variable any more: they are
      allocated, and not among the nodes of a map *)
  Definition leaky_memory (cmp : K -> K -> comparison) (s : hregs) (hp : heap) (S : nat -> list kv) : Prop :=
    exists (nodes : nat -> list loc) (lost : list loc),
      (forall r, sorted cmp (S r) /\ mlen (s r) = length (S r) /\
         ((mroot (s r) = NR 0 sroot /\ S r = [] /\ nodes r = []) \/
          stored hp (rh (mroot (s r))) (rl (mroot (s r))) None (S r) (nodes r))) /\
      apart nodes /\ NoDup lost /\ (forall r l, In l (nodes r) -> ~ In l lost) /\
      (forall l, In l lost -> hget hp l <> None) /\
      forall l, l <> sroot -> hget hp l <> None -> In l lost \/ exists r, In l (nodes r).

  Section Run.
    Variables (Q W : Type) (cmp : K -> K -> comparison) (qcmp : Q -> Q -> comparison) (borrow : K -> Q).
    Variables (eqb : kv -> kv -> bool) (pcmp : kv -> kv -> option comparison).
    Variables (no_memory : reserve_error -> Prop) (copy : kv -> kv -> Prop) (clone_fails : outcome reserve_error unit -> Prop).
    Variables (kdrop : K -> W -> bool * W) (vdrop : V -> W -> bool * W).
    Notation spec := (spec cmp qcmp borrow eqb pcmp no_memory copy clone_fails).
    Notation gave_up := (gave_up cmp no_memory).
    Notation result := (outcome reserve_error (obs K V)).

    (** there is a world in which the destructor of the key or of the value of [x] panics *)
    Definition panics (x : kv) : Prop := exists w, fst (kdrop (fst x) w) = false \/ fst (vdrop (snd x) w) = false.

    (** at least [n] of the destructors of the keys and values of these entries can panic *)
    Inductive blasts : list kv -> nat -> Prop :=
    | B_none : blasts [] 0
    | B_skip x l n : blasts l n -> blasts (x :: l) n
    | B_one x l n : panics x -> blasts l n -> blasts (x :: l) (1 + n)
    | B_two x l n : (exists w, fst (kdrop (fst x) w) = false) -> (exists w, fst (vdrop (snd x) w) = false) ->
        blasts l n -> blasts (x :: l) (2 + n).

    (** the entries that an operation destroys itself when it returns, in this order *)
    Definition dropped (c : op K V Q) (S : nat -> list kv) : list kv :=
      match c with
      | New r | Clear r => S r                                                  (* the old map *)
      | SplitOff _ _ t | TryClone _ t | Clone _ t => S t                        (* the map that was in [t] *)
      | IntoIter_ r cs => snd (dq_run cs (S r))                                 (* what was not taken out *)
      | Append r t => filter (fun x => has cmp (S t) (fst x)) (S r)             (* the replaced ones *)
      | _ => []
      end.
    Definition replaces (c : op K V Q) : bool := match c with Append _ _ => true | _ => false end.

    (** [leaky]: some destructor has panicked before *)
    Inductive runs_dropping : bool -> (nat -> list kv) -> list (op K V Q) -> list (result * list kv * hregs * heap) -> Prop :=
    | D_end (b : bool) (S : nat -> list kv) : runs_dropping b S [] []
    | D_step (b : bool) S c l o log s hp S' rest :
        spec c S o S' -> log = (match o with Ret _ => dropped c S | _ => [] end) ->
        (if b then leaky_memory cmp s hp S' else memory cmp s hp S') -> o <> Abort -> o <> UB ->
        runs_dropping b S' l rest -> runs_dropping b S (c :: l) ((o, log, s, hp) :: rest)
    | D_panic (b : bool) S c l log x kept s hp S' rest :
        (* a destructor panicked: the operation has its effect all the same; the entries after [x] are never destroyed *)
        replaces c = false -> (exists a : obs K V, spec c S (Ret a) S') -> dropped c S = log ++ x :: kept -> panics x ->
        leaky_memory cmp s hp S' ->
        runs_dropping true S' l rest -> runs_dropping b S (c :: l) ((Panic, log ++ [x], s, hp) :: rest)
    | D_dead (b : bool) S c l o log s hp S' :      (* only through an element's clone *)
        spec c S o S' -> o = Abort \/ o = UB -> runs_dropping b S (c :: l) [(o, log, s, hp)]
    | D_abort (b : bool) S c l log s hp :          (* a destructor panicked while a panic, of a destructor or for want of memory, was unwinding *)
        blasts log 2 \/ (blasts log 1 /\ gave_up c S Panic) -> runs_dropping b S (c :: l) [(Abort, log, s, hp)]
    | D_gave_up (b : bool) S c l o log s hp rest :  (* refused memory *)
        gave_up c S o -> torn_memory s hp -> runs_dropping b S (c :: l) ((o, log, s, hp) :: rest)
    | D_append (b : bool) S r t l log s hp kept rest :   (* append: a destructor panicked; nothing is destroyed twice *)
        blasts log 1 -> Permutation (S r ++ S t) (kept ++ log) -> torn_memory s hp ->
        runs_dropping b S (Append r t :: l) ((Panic, log, s, hp) :: rest).
  End Run.
End Spec.
