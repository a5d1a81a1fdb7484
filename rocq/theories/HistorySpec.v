(** * HistorySpec: what programs over BTreeMaps may observe, said about sorted
    association lists.  [spec c S o S']: operation [c], started when variable
    [r] holds the list [S r], may end with outcome [o] and the lists [S']. *)
From Coq Require Import List Arith Lia Bool Sorted.
From Verif Require Import Base MapSpec IterSpec BTreeModel BTreeInv BTreeInsert BTreeIterModel BTreeRange BTreeCollect BTreeWrites HistoryModel.
Import ListNotations.
Set Implicit Arguments.

Section Spec.
  Variables (K V Q : Type) (cmp : K -> K -> comparison) (qcmp : Q -> Q -> comparison) (borrow : K -> Q).
  Notation kv := (K * V)%type.
  Notation state := (nat -> list kv).
  Notation result := (outcome reserve_error (obs K V)).
  Variables (eqb : kv -> kv -> bool) (pcmp : kv -> kv -> option comparison).
  (** [no_memory e]: the allocator refuses with [e]; [copy x y]: the clone
      functions of the elements make [y] of [x]; [clone_fails o]: they or the
      allocator end with [o] (errors, panics...) *)
  Variables (no_memory : reserve_error -> Prop) (copy : kv -> kv -> Prop) (clone_fails : outcome reserve_error unit -> Prop).

  Definition same (S S' : state) : Prop := forall i, S' i = S i.
  Notation find_ x l := (s_get (fun k => qcmp x (borrow k)) l).
  Definition absent (k : K) (l : list kv) : Prop := s_get (cmp k) l = None.

  Fixpoint s_chosen (outs : list (option kv)) (ws : list (nat * (V -> V))) : list (K * (V -> V)) :=
    match ws with
    | [] => []
    | (i, f) :: ws' => match nth_error outs i with Some (Some x) => (fst x, f) :: s_chosen outs ws' | _ => s_chosen outs ws' end
    end.

  Definition spec (c : op K V Q) (S : state) (o : result) (S' : state) : Prop :=
    match c with
    | New r | Clear r => o = Ret OUnit /\ same (upd S r []) S'
    | Insert r k v =>
        (o = Ret (OVal K (option_map snd (s_get (cmp k) (S r)))) /\ same (upd S r (s_insert cmp k v (S r))) S') \/
        (exists e, o = Err e /\ no_memory e /\ S r = [] /\ same S S')
    | Replace r k v =>
        (o = Ret (OKey V (option_map fst (s_get (cmp k) (S r)))) /\
         same (upd S r (match s_get (cmp k) (S r) with Some _ => s_rekey (cmp k) k (S r) | None => s_insert cmp k v (S r) end)) S') \/
        (exists e, o = Err e /\ no_memory e /\ S r = [] /\ same S S')
    | Remove r x => o = Ret (OVal K (option_map snd (find_ x (S r)))) /\ same (upd S r (s_remove (fun k => qcmp x (borrow k)) (S r))) S'
    | Take r x => o = Ret (OEntry (find_ x (S r))) /\ same (upd S r (s_remove (fun k => qcmp x (borrow k)) (S r))) S'
    | Get r x => o = Ret (OVal K (option_map snd (find_ x (S r)))) /\ same S S'
    | GetKeyValue r x => o = Ret (OEntry (find_ x (S r))) /\ same S S'
    | Contains r x => o = Ret (OBool (match find_ x (S r) with Some _ => true | None => false end)) /\ same S S'
    | Index r x => o = (match find_ x (S r) with Some e => Ret (OVal K (Some (snd e))) | None => Panic end) /\ same S S'
    | GetMut r x f =>
        o = Ret (OBool (match find_ x (S r) with Some _ => true | None => false end)) /\
        same (upd S r (s_update (fun k => qcmp x (borrow k)) f (S r))) S'
    | Len r => o = Ret (ONat (length (S r))) /\ same S S'
    | IsEmpty r => o = Ret (OBool (match S r with [] => true | _ => false end)) /\ same S S'
    | Append r t => o = Ret OUnit /\ same (upd (upd S r (s_append cmp (S r) (S t))) t []) S'
    | SplitOff r x t =>
        (o = Ret OUnit /\ same (upd (upd S r (s_below (fun k => qcmp x (borrow k)) (S r))) t (s_from (fun k => qcmp x (borrow k)) (S r))) S') \/
        (exists e, o = Err e /\ no_memory e /\ same S S')
    | TryClone r t =>
        (o = Ret OUnit /\ exists l, Forall2 copy (S r) l /\ same (upd S t l) S') \/
        (exists u, clone_fails u /\ o = omap (fun _ => OUnit) u /\ (forall x, o <> Ret x) /\ same S S')
    | Clone r t =>
        (o = Ret OUnit /\ exists l, Forall2 copy (S r) l /\ same (upd S t l) S') \/
        (exists u, clone_fails u /\ o = (match u with Err _ => Panic | _ => omap (fun _ => OUnit) u end) /\ (forall x, o <> Ret x) /\ same S S')
    | Extend r l => o = Ret OUnit /\ same (upd S r (fold_left (fun s x => s_insert cmp (fst x) (snd x) s) l (S r))) S'
    | Iterate r cs => let '(outs, rest) := dq_run cs (S r) in o = Ret (OSized outs (length rest)) /\ same S S'
    | RangeOver r lo hi cs =>
        (s_bad qcmp lo hi /\ o = Panic /\ same S S') \/
        (~ s_bad qcmp lo hi /\ o = Ret (OItems (fst (dq_run cs (s_range qcmp borrow lo hi (S r))))) /\ same S S')
    | IterMut r cs ws =>
        let outs := fst (dq_run cs (S r)) in
        o = Ret (OItems outs) /\ same (upd S r (s_writes cmp (s_chosen outs ws) (S r))) S'
    | RangeMut r lo hi cs ws =>
        let outs := fst (dq_run cs (s_range qcmp borrow lo hi (S r))) in
        (s_bad qcmp lo hi /\ o = Panic /\ same S S') \/
        (~ s_bad qcmp lo hi /\ o = Ret (OItems outs) /\ same (upd S r (s_writes cmp (s_chosen outs ws) (S r))) S')
    | IntoIter_ r cs => let '(outs, rest) := dq_run cs (S r) in o = Ret (ODropped outs rest) /\ same (upd S r []) S'
    | EntryOr r k f v =>
        match s_get (cmp k) (S r) with
        | Some x => o = Ret (OVal K (Some (f (snd x)))) /\ same (upd S r (s_update (cmp k) f (S r))) S'
        | None => (o = Ret (OVal K (Some v)) /\ same (upd S r (s_insert cmp k v (S r))) S') \/
                  (exists e, o = Err e /\ no_memory e /\ S r = [] /\ same S S')
        end
    | EntryRemove r k =>
        (o = Ret (OEntry (s_get (cmp k) (S r))) /\ same (upd S r (s_remove (cmp k) (S r))) S') \/
        (exists e, o = Err e /\ no_memory e /\ S r = [] /\ same S S')
    | Equal r t =>
        exists b, o = Ret (OBool b) /\ (b = true <-> Forall2 (fun x y => eqb x y = true) (S r) (S t)) /\ same S S'
    | Compare r t => o = Ret (OCmp (lex pcmp (S r) (S t))) /\ same S S'
    end.

  (** the one thing after which nothing is claimed: an insertion of a new key
      was refused memory (C24; only if the map has 11 entries or more), or extend or append panicked because of it *)
  Definition gave_up (c : op K V Q) (S : state) (o : result) : Prop :=
    match c with
    | Insert r k _ | Replace r k _ | EntryOr r k _ _ => exists e, o = Err e /\ no_memory e /\ absent k (S r) /\ 11 <= length (S r)
    | Extend _ _ | Append _ _ => o = Panic /\ exists e, no_memory e
    | _ => False
    end.

  (** a run that behaves as specified; [P] is what is to hold between the maps
      and the lists after each step *)
  Section Agrees.
    Variable P : regs K V -> state -> Prop.
    Inductive agrees : state -> list (op K V Q) -> list (result * regs K V) -> Prop :=
    | A_end S : agrees S [] []
    | A_step S c l o s S' rest : spec c S o S' -> P s S' -> o <> Abort -> o <> UB -> agrees S' l rest -> agrees S (c :: l) ((o, s) :: rest)
    | A_dead S c l o s S' : spec c S o S' -> o = Abort \/ o = UB -> agrees S (c :: l) [(o, s)]   (* only through an element's clone *)
    | A_gave_up S c l o s rest : gave_up c S o -> agrees S (c :: l) ((o, s) :: rest).
  End Agrees.

  (** a well-built map holding [l]: uniform depth, node sizes, order, length *)
  Definition well_built (m : bmap K V) (l : list kv) : Prop :=
    (forall p n, node_at (bnode m) p = Some n ->
       length p <= bheight m /\ nlen n <= 11 /\ (p <> [] -> 4 <= nlen n) /\
       (length p = bheight m -> edges n = []) /\ (length p < bheight m -> length (edges n) = nlen n + 1)) /\
    (bheight m <> 0 -> 1 <= nlen (bnode m)) /\
    inorder (bnode m) = l /\ sorted cmp l /\ len m = length l.
End Spec.
