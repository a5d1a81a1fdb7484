(** * HeapSpec: what memory looks like when maps are in order, said about
    cells and addresses only (HeapModel's [heap], [cell], [hget]; addresses and
    the records of a map, nothing of the proofs). *)
From Coq Require Import List Arith Lia Bool Sorted.
From Verif Require Import Base MapSpec BTreeModel HeapModel HeapMapModel HistoryModel HistorySpec.
Import ListNotations.
Set Implicit Arguments.

Section Spec.
  Variables (K V : Type).
  Notation kv := (K * V)%type.
  Notation cell := (cell K V).
  Notation heap := (heap K V).

  (** the first slots of the array are initialised and hold [xs] *)
  Definition filled (A : Type) (a : list (option A)) (xs : list A) : Prop :=
    forall i x, nth_error xs i = Some x -> nth_error a i = Some (Some x).

  (** a node of type InternalNode ([int]) or LeafNode whose header and arrays say: entries [ks],
      children at [els], and whose parent is [par] (address, index of the edge) *)
  Definition cell_ok (c : cell) (int : bool) (ks : list kv) (els : list loc) (par : option (loc * nat)) : Prop :=
    cint c = int /\ clen c = length ks /\ length ks <= 11 /\
    length (ckeys c) = 11 /\ filled (ckeys c) (map fst ks) /\
    length (cvals c) = 11 /\ filled (cvals c) (map snd ks) /\
    length (cedges c) = (if int then 12 else 0) /\ filled (cedges c) els /\
    (if int then length els = S (length ks) else els = []) /\
    match par with
    | Some (p, i) => cpar c = Some p /\ cpidx c = Some i
    | None => cpar c = None
    end.

  (** the entries of the children with the entries of the node between them *)
  Fixpoint between (parts : list (list kv)) (ks : list kv) : list kv :=
    match parts, ks with
    | p :: parts', k :: ks' => p ++ k :: between parts' ks'
    | p :: _, [] => p
    | [], _ => []
    end.

  (** the node at [l], of height [h], is the root of a tree that holds the entries [es] in this order;
      the addresses of its nodes are [ls] *)
  Fixpoint stored (hp : heap) (h : nat) (l : loc) (par : option (loc * nat)) (es : list kv) (ls : list loc) : Prop :=
    l <> sroot /\
    exists c ks els, hget hp l = Some c /\ (par <> None -> 4 <= length ks) /\
      match h with
      | 0 => cell_ok c false ks els par /\ es = ks /\ ls = [l]
      | S h' => cell_ok c true ks els par /\
          exists parts : list (list kv * list loc),
            length parts = length els /\ es = between (map fst parts) ks /\ ls = l :: concat (map snd parts) /\
            forall i e x, nth_error els i = Some e -> nth_error parts i = Some x -> stored hp h' e (Some (l, i)) (fst x) (snd x)
      end.

  (** less: the nodes of a tree point to each other as they should; nothing about heights and order *)
  Inductive wired (hp : heap) : loc -> option (loc * nat) -> list loc -> Prop :=
  | Wired l par c int ks els (parts : list (list loc)) :
      l <> sroot -> hget hp l = Some c -> cell_ok c int ks els par -> length parts = length els ->
      (forall i e x, nth_error els i = Some e -> nth_error parts i = Some x -> wired hp e (Some (l, i)) x) ->
      wired hp l par (l :: concat parts).

  (** [nodes r] are the addresses of the nodes of map [r]: all different, and allocated *)
  Definition apart (nodes : nat -> list loc) : Prop :=
    (forall r, NoDup (nodes r)) /\ forall r t l, r <> t -> In l (nodes r) -> ~ In l (nodes t).

  (** every variable [r] holds the map of the list [S r], and every allocated node belongs to one of them *)
  Definition memory (cmp : K -> K -> comparison) (s : hregs) (hp : heap) (S : nat -> list kv) : Prop :=
    exists nodes : nat -> list loc,
      (forall r, sorted cmp (S r) /\ mlen (s r) = length (S r) /\
         ((mroot (s r) = NR 0 sroot /\ S r = [] /\ nodes r = []) \/
          stored hp (rh (mroot (s r))) (rl (mroot (s r))) None (S r) (nodes r))) /\
      apart nodes /\
      forall l, l <> sroot -> hget hp l <> None -> exists r, In l (nodes r).

  (** what is left of it when an insertion was refused or an append failed:
      the variables have trees that are in order as far as memory is concerned, next to lost nodes *)
  Definition torn_memory (s : hregs) (hp : heap) : Prop :=
    exists (nodes : nat -> list loc) (lost : list loc),
      (forall r, (mroot (s r) = NR 0 sroot /\ nodes r = []) \/ wired hp (rl (mroot (s r))) None (nodes r)) /\
      apart nodes /\ NoDup lost /\ (forall r l, In l (nodes r) -> ~ In l lost) /\
      (forall l, In l lost -> hget hp l <> None) /\
      forall l, l <> sroot -> hget hp l <> None -> In l lost \/ exists r, In l (nodes r).

  (** a run of a program on memory: after each step the outcome is as HistorySpec
      says, and the memory is that of the lists *)
  Section Run.
    Variables (Q : Type) (cmp : K -> K -> comparison) (qcmp : Q -> Q -> comparison) (borrow : K -> Q).
    Variables (eqb : kv -> kv -> bool) (pcmp : kv -> kv -> option comparison).
    Variables (no_memory : reserve_error -> Prop) (copy : kv -> kv -> Prop) (clone_fails : outcome reserve_error unit -> Prop).
    Notation spec := (spec cmp qcmp borrow eqb pcmp no_memory copy clone_fails).
    Notation gave_up := (gave_up cmp no_memory).
    Notation result := (outcome reserve_error (obs K V)).

    Inductive runs_ok : (nat -> list kv) -> list (op K V Q) -> list (result * hregs * heap) -> Prop :=
    | H_end S : runs_ok S [] []
    | H_step S c l o s hp S' rest :
        spec c S o S' -> memory cmp s hp S' -> o <> Abort -> o <> UB -> runs_ok S' l rest -> runs_ok S (c :: l) ((o, s, hp) :: rest)
    | H_dead S c l o s hp S' :   (* only through an element's clone *)
        spec c S o S' -> o = Abort \/ o = UB -> runs_ok S (c :: l) [(o, s, hp)]
    | H_gave_up S c l o s hp rest :
        gave_up c S o -> torn_memory s hp -> runs_ok S (c :: l) ((o, s, hp) :: rest).
  End Run.
End Spec.
