(** * HostileSpec: what programs over BTreeMaps may observe when comparisons
    answer anything, said about lists of entries.

    A map is a list whose order the comparisons no longer explain.
    [loose c S o S']: operation [c], started when variable [r] holds the list [S r],
    may end with outcome [o] and the lists [S'].  The comparisons only choose where
    in the list it acts. *)
From Coq Require Import List Arith Lia Bool.
From Verif Require Import Base IterSpec BTreeModel BTreeIterModel HeapModel HeapMapModel HistoryModel HeapSpec.
Import ListNotations.
Set Implicit Arguments.

Section Spec.
  Variables (K V Q : Type).
  Notation kv := (K * V)%type.
  Notation state := (nat -> list kv).
  Notation result := (outcome reserve_error (obs K V)).
  (** [no_memory e]: the allocator refuses with [e]; [copy x y]: the clone functions of the elements
      make [y] of [x]; [clone_fails o]: they or the allocator end with [o]; [scared]: some comparison panics *)
  Variables (no_memory : reserve_error -> Prop) (copy : kv -> kv -> Prop) (clone_fails : outcome reserve_error unit -> Prop) (scared : Prop).

  Definition is (S S' : state) : Prop := forall i, S' i = S i.
  Definition put (S : state) (r : nat) (l : list kv) : state := fun i => if i =? r then l else S i.

  (** the entry [k], [v] was added at some place, or some entry's value was replaced by [v] *)
  Inductive inserted (k : K) (v : V) : list kv -> option V -> list kv -> Prop :=
  | Ins_new a b : inserted k v (a ++ b) None (a ++ (k, v) :: b)
  | Ins_old a x b : inserted k v (a ++ x :: b) (Some (snd x)) (a ++ (fst x, v) :: b).
  Inductive inserted_all : list kv -> list kv -> list kv -> Prop :=
  | All_nil l : inserted_all [] l l
  | All_cons k v xs l old l1 l2 : inserted k v l old l1 -> inserted_all xs l1 l2 -> inserted_all ((k, v) :: xs) l l2.
  (** as BTreeSet::replace: the entry was added, or some entry's key was replaced by [k] *)
  Inductive replaced (k : K) (v : V) : list kv -> option K -> list kv -> Prop :=
  | Rep_new a b : replaced k v (a ++ b) None (a ++ (k, v) :: b)
  | Rep_old a x b : replaced k v (a ++ x :: b) (Some (fst x)) (a ++ (k, snd x) :: b).
  (** nothing, or some entry *)
  Inductive removed : list kv -> option kv -> list kv -> Prop :=
  | Rem_none l : removed l None l
  | Rem_some a x b : removed (a ++ x :: b) (Some x) (a ++ b).
  Definition one_of (l : list kv) (x : option kv) : Prop := match x with None => True | Some x => In x l end.
  Inductive updated (f : V -> V) : list kv -> bool -> list kv -> Prop :=
  | Upd_none l : updated f l false l
  | Upd_some a x b : updated f (a ++ x :: b) true (a ++ (fst x, f (snd x)) :: b).
  (** the two lists merged: each keeps its order; an entry of the left may be dropped for one of the right *)
  Inductive woven : list kv -> list kv -> list kv -> Prop :=
  | Wov_nil : woven [] [] []
  | Wov_left x l r m : woven l r m -> woven (x :: l) r (x :: m)
  | Wov_right y l r m : woven l r m -> woven l (y :: r) (y :: m)
  | Wov_both x y l r m : woven l r m -> woven (x :: l) (y :: r) (y :: m).

  (** the entry number [i] *)
  Fixpoint write_at (i : nat) (f : V -> V) (l : list kv) : list kv :=
    match l, i with
    | [], _ => []
    | x :: l', 0 => (fst x, f (snd x)) :: l'
    | x :: l', S i' => x :: write_at i' f l'
    end.
  (** [outs]: what the calls yielded, as positions; [ws]: which of them are written, in this order *)
  Fixpoint writes_at (outs : list (option nat)) (ws : list (nat * (V -> V))) (l : list kv) : list kv :=
    match ws with
    | [] => l
    | (i, f) :: ws' => writes_at outs ws' (match nth_error outs i with Some (Some p) => write_at p f l | _ => l end)
    end.
  Definition positions (cs : list end_) (from n : nat) : list (option nat) := fst (dq_run cs (seq from n)).

  Definition loose (c : op K V Q) (S : state) (o : result) (S' : state) : Prop :=
    match c with
    | New r | Clear r => o = Ret OUnit /\ is (put S r []) S'
    | Insert r k v =>
        (exists old l, inserted k v (S r) old l /\ o = Ret (OVal K old) /\ is (put S r l) S') \/
        (exists e, o = Err e /\ no_memory e /\ S r = [] /\ is S S') \/ (scared /\ o = Panic /\ is S S')
    | Replace r k v =>
        (exists old l, replaced k v (S r) old l /\ o = Ret (OKey V old) /\ is (put S r l) S') \/
        (exists e, o = Err e /\ no_memory e /\ S r = [] /\ is S S') \/ (scared /\ o = Panic /\ is S S')
    | Remove r x =>
        (exists y l, removed (S r) y l /\ o = Ret (OVal K (option_map snd y)) /\ is (put S r l) S') \/ (scared /\ o = Panic /\ is S S')
    | Take r x =>
        (exists y l, removed (S r) y l /\ o = Ret (OEntry y) /\ is (put S r l) S') \/ (scared /\ o = Panic /\ is S S')
    | Get r x =>
        (exists y, one_of (S r) y /\ o = Ret (OVal K (option_map snd y)) /\ is S S') \/ (scared /\ o = Panic /\ is S S')
    | GetKeyValue r x =>
        (exists y, one_of (S r) y /\ o = Ret (OEntry y) /\ is S S') \/ (scared /\ o = Panic /\ is S S')
    | Contains r x =>
        (exists b, (b = true -> S r <> []) /\ o = Ret (OBool b) /\ is S S') \/ (scared /\ o = Panic /\ is S S')
    | Index r x =>
        (exists y, In y (S r) /\ o = Ret (OVal K (Some (snd y))) /\ is S S') \/ (o = Panic /\ is S S')
    | GetMut r x f =>
        (exists b l, updated f (S r) b l /\ o = Ret (OBool b) /\ is (put S r l) S') \/ (scared /\ o = Panic /\ is S S')
    | Len r => o = Ret (ONat (length (S r))) /\ is S S'
    | IsEmpty r => o = Ret (OBool (match S r with [] => true | _ => false end)) /\ is S S'
    | Append r t => exists l, woven (S r) (S t) l /\ o = Ret OUnit /\ is (put (put S r l) t []) S'
    | SplitOff r x t =>
        (exists a b, S r = a ++ b /\ o = Ret OUnit /\ is (put (put S r a) t b) S') \/
        (exists e, o = Err e /\ no_memory e /\ is S S')
    | TryClone r t =>
        (o = Ret OUnit /\ exists l, Forall2 copy (S r) l /\ is (put S t l) S') \/
        (exists u, clone_fails u /\ o = omap (fun _ => OUnit) u /\ (forall x, o <> Ret x) /\ is S S')
    | Clone r t =>
        (o = Ret OUnit /\ exists l, Forall2 copy (S r) l /\ is (put S t l) S') \/
        (exists u, clone_fails u /\ o = (match u with Err _ => Panic | _ => omap (fun _ => OUnit) u end) /\ (forall x, o <> Ret x) /\ is S S')
    | Extend r xs =>
        (exists l, inserted_all xs (S r) l /\ o = Ret OUnit /\ is (put S r l) S') \/
        (exists xs1 xs2 l, xs = xs1 ++ xs2 /\ xs2 <> [] /\ inserted_all xs1 (S r) l /\ scared /\ o = Panic /\ is (put S r l) S')
    | Iterate r cs => let '(outs, rest) := dq_run cs (S r) in o = Ret (OSized outs (length rest)) /\ is S S'
    | RangeOver r lo hi cs =>
        (exists a m b, S r = a ++ m ++ b /\ o = Ret (OItems (fst (dq_run cs m))) /\ is S S') \/ (o = Panic /\ is S S')
    | IterMut r cs ws =>
        o = Ret (OItems (fst (dq_run cs (S r)))) /\ is (put S r (writes_at (positions cs 0 (length (S r))) ws (S r))) S'
    | RangeMut r lo hi cs ws =>
        (exists a m b, S r = a ++ m ++ b /\ o = Ret (OItems (fst (dq_run cs m))) /\
           is (put S r (writes_at (positions cs (length a) (length m)) ws (S r))) S') \/ (o = Panic /\ is S S')
    | IntoIter_ r cs => let '(outs, rest) := dq_run cs (S r) in o = Ret (ODropped outs rest) /\ is (put S r []) S'
    | EntryOr r k f v =>
        (exists a x b, S r = a ++ x :: b /\ o = Ret (OVal K (Some (f (snd x)))) /\ is (put S r (a ++ (fst x, f (snd x)) :: b)) S') \/
        (exists a b, S r = a ++ b /\ o = Ret (OVal K (Some v)) /\ is (put S r (a ++ (k, v) :: b)) S') \/
        (exists e, o = Err e /\ no_memory e /\ S r = [] /\ is S S') \/ (scared /\ o = Panic /\ is S S')
    | EntryRemove r k =>
        (exists y l, removed (S r) y l /\ o = Ret (OEntry y) /\ is (put S r l) S') \/
        (exists e, o = Err e /\ no_memory e /\ S r = [] /\ is S S') \/ (scared /\ o = Panic /\ is S S')
    | Equal r t => (exists b, o = Ret (OBool b) /\ (b = true -> length (S r) = length (S t)) /\ is S S') \/ (scared /\ o = Panic /\ is S S')
    | Compare r t => (exists x, o = Ret (OCmp x) /\ is S S') \/ (scared /\ o = Panic /\ is S S')
    end.

  (** after these nothing is claimed: an insertion was refused memory (C24; only if the map has 11 entries or more),
      extend panicked because of it, append panicked, a comparison panicked in split_off *)
  Definition gave_up (c : op K V Q) (S : state) (o : result) : Prop :=
    match c with
    | Insert r _ _ | Replace r _ _ | EntryOr r _ _ _ => exists e, o = Err e /\ no_memory e /\ 11 <= length (S r)
    | Extend _ _ => o = Panic /\ exists e, no_memory e
    | Append _ _ => o = Panic /\ (scared \/ exists e, no_memory e)
    | SplitOff _ _ _ => o = Panic /\ scared
    | _ => False
    end.

  (** a run of a program on memory.  [memory] is that of HeapSpec for an order
      that every list has *)
  Inductive runs_loose : state -> list (op K V Q) -> list (result * hregs * heap K V) -> Prop :=
  | X_end S : runs_loose S [] []
  | X_step S c l o s hp S' rest :
      loose c S o S' -> memory (fun _ _ => Lt) s hp S' -> o <> Abort -> o <> UB -> runs_loose S' l rest ->
      runs_loose S (c :: l) ((o, s, hp) :: rest)
  | X_dead S c l o s hp S' :   (* only through an element's clone *)
      loose c S o S' -> o = Abort \/ o = UB -> runs_loose S (c :: l) [(o, s, hp)]
  | X_gave_up S c l o s hp rest :
      gave_up c S o -> torn_memory s hp -> runs_loose S (c :: l) ((o, s, hp) :: rest).
End Spec.
