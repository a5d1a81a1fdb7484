(** * LookSpec: iterators as lists of what they have left.

    An iterator is the list of the entries it has not delivered; a clone is the
    same list again; printing shows the list and changes nothing. *)
From Coq Require Import List Arith Lia Bool.
From Verif Require Import Base MapSpec IterSpec BTreeModel BTreeRange HeapModel HeapMapModel HistoryModel HistorySpec HeapSpec LookModel.
Import ListNotations.
Set Implicit Arguments.

Section Spec.
  Variables (K V Q : Type).
  Notation kv := (K * V)%type.
  Notation lobs := (lobs K V).

  (** one command; [counted]: the iterators know their length *)
  Definition sees1 (counted : bool) (c : lcmd) (pool : list (list kv)) : lobs * list (list kv) :=
    match c with
    | LCall e i => match nth_error pool i with
                   | Some l => (LItem (fst (dq_step e l)), firstn i pool ++ snd (dq_step e l) :: skipn (S i) pool)
                   | None => (LDone, pool)
                   end
    | LLen i => match nth_error pool i with
                | Some l => (LCount (if counted then Some (length l) else None), pool)
                | None => (LDone, pool)
                end
    | LClone i => match nth_error pool i with Some l => (LDone, pool ++ [l]) | None => (LDone, pool) end
    | LDebug i => match nth_error pool i with Some l => (LShown l, pool) | None => (LDone, pool) end
    end.
  Fixpoint sees (counted : bool) (cs : list lcmd) (pool : list (list kv)) : list lobs :=
    match cs with
    | [] => []
    | c :: cs' => fst (sees1 counted c pool) :: sees counted cs' (snd (sees1 counted c pool))
    end.
  (** an IntoIter: what it answers, and what it has left in the end *)
  Fixpoint eats (cs : list icmd) (l : list kv) : list lobs * list kv :=
    match cs with
    | [] => ([], l)
    | ICall e :: cs' => (LItem (fst (dq_step e l)) :: fst (eats cs' (snd (dq_step e l))), snd (eats cs' (snd (dq_step e l))))
    | ILen :: cs' => (LCount (Some (length l)) :: fst (eats cs' l), snd (eats cs' l))
    | IDebug :: cs' => (LShown l :: fst (eats cs' l), snd (eats cs' l))
    end.

  Variables (cmp : K -> K -> comparison) (qcmp : Q -> Q -> comparison) (borrow : K -> Q).
  Variables (eqb : kv -> kv -> bool) (pcmp : kv -> kv -> option comparison).
  Variables (no_memory : reserve_error -> Prop) (copy : kv -> kv -> Prop) (clone_fails : outcome reserve_error unit -> Prop).
  Notation spec := (spec cmp qcmp borrow eqb pcmp no_memory copy clone_fails).
  Notation gave_up := (gave_up cmp no_memory).
  Notation result := (outcome reserve_error (dobs K V)).

  Definition dspec (c : dop K V Q) (S : nat -> list kv) (o : result) (S' : nat -> list kv) : Prop :=
    match c with
    | Plain c => exists o', o = fmap (@DPlain K V) o' /\ spec c S o' S'
    | Look r cs => o = Ret (DSession (sees true cs [S r]) []) /\ forall i, S' i = S i
    | LookRange r lo hi cs =>
        (s_bad qcmp lo hi /\ o = Panic /\ forall i, S' i = S i) \/
        (~ s_bad qcmp lo hi /\ o = Ret (DSession (sees false cs [s_range qcmp borrow lo hi (S r)]) []) /\ forall i, S' i = S i)
    | Consume r cs => o = Ret (DSession (fst (eats cs (S r))) (snd (eats cs (S r)))) /\ S' r = [] /\ forall i, i <> r -> S' i = S i
    end.
  Definition dgave_up (c : dop K V Q) (S : nat -> list kv) (o : result) : Prop :=
    match c with Plain c => exists o', o = fmap (@DPlain K V) o' /\ gave_up c S o' | _ => False end.

  (** sessions that only read *)
  Definition only_looks (c : dop K V Q) : Prop := match c with Look _ _ | LookRange _ _ _ _ => True | _ => False end.

  (** a run from the lists [S], the variables [s] and the memory [hp] *)
  Inductive dd_ok : (nat -> list kv) -> hregs -> heap K V -> list (dop K V Q) -> list (result * hregs * heap K V) -> Prop :=
  | D_end S s hp : dd_ok S s hp [] []
  | D_step S s hp c l o s' hp' S' rest :
      dspec c S o S' -> memory cmp s' hp' S' -> (only_looks c -> s' = s /\ hp' = hp) -> o <> Abort -> o <> UB ->
      dd_ok S' s' hp' l rest -> dd_ok S s hp (c :: l) ((o, s', hp') :: rest)
  | D_dead S s hp c l o s' hp' S' :   (* only through an element's clone *)
      dspec c S o S' -> o = Abort \/ o = UB -> dd_ok S s hp (c :: l) [(o, s', hp')]
  | D_gave_up S s hp c l o s' hp' rest :
      dgave_up c S o -> torn_memory s' hp' -> dd_ok S s hp (c :: l) ((o, s', hp') :: rest).
End Spec.
