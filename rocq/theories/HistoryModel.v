(** * HistoryModel: programs that use any number of BTreeMaps

    A program is a list of operations on numbered variables, each holding a map.
    The semantics calls the functions of the model; maps that go out of scope
    are dropped by [drop_map] (map.rs 129-135), and iterators by
    [drop_into_iter].  References and borrowing iterators do not outlive their
    operation, as the borrow checker enforces. *)
From Coq Require Import List Arith Lia Bool.
From Verif Require Import Base MapSpec IterSpec BTreeModel BTreeInsert BTreeIterModel BTreeBulkModel BTreeWrites.
Import ListNotations.
Set Implicit Arguments.

Section Programs.
  Variables (K V Q : Type).
  Notation kv := (K * V)%type.
  Notation bmap := (bmap K V).

  Inductive op :=
  | New (r : nat)                                    (* r = BTreeMap::new() *)
  | Insert (r : nat) (k : K) (v : V)                 (* r.try_insert(k, v) *)
  | Replace (r : nat) (k : K) (v : V)                (* Recover::replace, the BTreeSet::replace of a set *)
  | Remove (r : nat) (x : Q)                         (* r.remove(&x) *)
  | Take (r : nat) (x : Q)                           (* Recover::take, BTreeSet::take *)
  | Get (r : nat) (x : Q) | GetKeyValue (r : nat) (x : Q) | Contains (r : nat) (x : Q)
  | Index (r : nat) (x : Q)                          (* r[&x] *)
  | GetMut (r : nat) (x : Q) (f : V -> V)            (* if let Some(v) = r.get_mut(&x) { write f(v) } *)
  | Len (r : nat) | IsEmpty (r : nat)
  | Clear (r : nat)
  | Append (r s : nat)                               (* r.append(&mut s) *)
  | SplitOff (r : nat) (x : Q) (s : nat)             (* s = r.split_off(&x)? *)
  | TryClone (r s : nat)                             (* s = r.try_clone()? *)
  | Clone (r s : nat)                                (* s = r.clone() *)
  | Extend (r : nat) (l : list kv)
  | Iterate (r : nat) (calls : list end_)            (* r.iter(), then these calls *)
  | RangeOver (r : nat) (lo hi : bound_ Q) (calls : list end_)
  | IterMut (r : nat) (calls : list end_) (ws : list (nat * (V -> V)))
      (* r.iter_mut(), these calls, then writes through the references that call number i gave *)
  | RangeMut (r : nat) (lo hi : bound_ Q) (calls : list end_) (ws : list (nat * (V -> V)))
  | IntoIter_ (r : nat) (calls : list end_)          (* mem::take(r).into_iter(), these calls, drop *)
  | EntryOr (r : nat) (k : K) (f : V -> V) (v : V)   (* the value behind r.try_entry(k)?.and_modify(f).or_try_insert(v)? *)
  | EntryRemove (r : nat) (k : K)                    (* match r.try_entry(k)? { Occupied(e) => Some(e.remove_entry()), Vacant(_) => None } *)
  | Equal (r s : nat) | Compare (r s : nat).

  Inductive obs :=
  | OUnit | OBool (b : bool) | ONat (n : nat) | OVal (v : option V) | OKey (k : option K) | OEntry (e : option kv)
  | OItems (l : list (option kv))                    (* results of the calls of an iterator *)
  | OSized (l : list (option kv)) (n : nat)          (* and its len() afterwards *)
  | ODropped (l : list (option kv)) (d : list kv)    (* and the entries dropped with it *)
  | OCmp (c : option comparison).

  Definition regs := nat -> bmap.

  Definition cast {A} (o : outcome Empty_set A) : outcome reserve_error A :=
    match o with Ret a => Ret a | Err e => match e with end | Panic => Panic | Abort => Abort | UB => UB end.
  Definition fmap {E A B} (f : A -> B) (o : outcome E A) : outcome E B := omap f o.

  (** dropping maps; their entries and nodes are not observed here (C30) *)
  Fixpoint drop_all (l : list bmap) : outcome reserve_error unit :=
    match l with
    | [] => Ret tt
    | m :: l' => match drop_map m with Ret _ => drop_all l' | Err e => match e with end | Panic => Panic | Abort => Abort | UB => UB end
    end.
  (** after the drops, the outcome [o] *)
  Definition after {A} (d : outcome reserve_error unit) (o : outcome reserve_error A) : outcome reserve_error A :=
    match d with Ret _ => o | Err e => Err e | Panic => Panic | Abort => Abort | UB => UB end.

  (** the references that the chosen calls delivered *)
  Fixpoint chosen (outs : list (option (item K V))) (ws : list (nat * (V -> V))) : list (addr * (V -> V)) :=
    match ws with
    | [] => []
    | (i, f) :: ws' => match nth_error outs i with Some (Some x) => (snd x, f) :: chosen outs ws' | _ => chosen outs ws' end
    end.

  Variables (W : Type) (nalloc : bool -> W -> option reserve_error * W).
  Variables (cmp : K -> K -> comparison) (qcmp : Q -> Q -> comparison) (borrow : K -> Q).
  Variables (kclone : K -> W -> outcome reserve_error K * W) (vclone : V -> W -> outcome reserve_error V * W).
  Variables (eqb : kv -> kv -> bool) (pcmp : kv -> kv -> option comparison).

  Definition look (x : Q) : K -> comparison := fun k => qcmp x (borrow k).

  Definition step (c : op) (s : regs) (w : W) : outcome reserve_error obs * regs * W :=
    match c with
    | New r => (after (drop_all [s r]) (Ret OUnit), upd s r new, w)
    | Insert r k v => let '(o, m, w') := try_insert nalloc cmp k v (s r) w in (fmap OVal o, upd s r m, w')
    | Replace r k v => let '(o, m, w') := replace_key nalloc cmp k v (s r) w in (fmap OKey o, upd s r m, w')
    | Remove r x => let '(o, m) := remove (look x) (s r) in (fmap OVal (cast o), upd s r m, w)
    | Take r x => let '(o, m) := remove_entry (look x) (s r) in (fmap OEntry (cast o), upd s r m, w)
    | Get r x => (fmap OVal (cast (get (look x) (s r))), s, w)
    | GetKeyValue r x => (fmap OEntry (cast (get_key_value (look x) (s r))), s, w)
    | Contains r x => (fmap OBool (cast (contains_key (look x) (s r))), s, w)
    | Index r x => (fmap (fun v => OVal (Some v)) (cast (index (look x) (s r))), s, w)
    | GetMut r x f =>
        match cast (get_mut (look x) (s r)) with
        | Ret (Some a) => match update_at a (write_val f) (s r) with
                          | Some m => (Ret (OBool true), upd s r m, w)
                          | None => (UB, s, w)
                          end
        | Ret None => (Ret (OBool false), s, w)
        | o => (fmap (fun _ => OUnit) o, s, w)
        end
    | Len r => (Ret (ONat (len (s r))), s, w)
    | IsEmpty r => (Ret (OBool (is_empty (s r))), s, w)
    | Clear r => (after (drop_all [s r]) (Ret OUnit), upd s r (clear (s r)), w)
    | Append r t =>
        let '(o, m, m2, mi, w') := append nalloc cmp (s r) (s t) w in
        let s' := upd (upd s r m) t m2 in
        match mi with
        | None => (fmap (fun _ => OUnit) (cast o), s', w')
        | Some mi =>
            match drop_peekable (mleft mi), drop_peekable (mright mi) with
            | Ret _, Ret _ => (fmap (fun _ => OUnit) (cast o), s', w')
            | _, _ => (UB, s', w')
            end
        end
    | SplitOff r x t =>
        let '(o, m, ds, w') := split_off nalloc (look x) (s r) w in
        match o with
        | Ret m2 => (after (drop_all [s t]) (Ret OUnit), upd (upd s r m) t m2, w')
        | o => (after (drop_all ds) (fmap (fun _ => OUnit) o), upd s r m, w')
        end
    | TryClone r t =>
        let '(o, ds, w') := try_clone nalloc kclone vclone (s r) w in
        match o with
        | Ret m => (after (drop_all [s t]) (Ret OUnit), upd s t m, w')
        | o => (after (drop_all ds) (fmap (fun _ => OUnit) o), s, w')
        end
    | Clone r t =>
        let '(o, ds, w') := clone nalloc kclone vclone (s r) w in
        match o with
        | Ret m => (after (drop_all [s t]) (Ret OUnit), upd s t m, w')
        | o => (after (drop_all ds) (fmap (fun _ => OUnit) (cast o)), s, w')
        end
    | Extend r l => let '(o, m, w') := extend nalloc cmp l (s r) w in (fmap (fun _ => OUnit) (cast o), upd s r m, w')
    | Iterate r cs =>
        (match map_iter (s r) with
         | Ret it => match cast (calls (@iter_next K V) (@iter_next_back K V) cs it) with
                     | Ret (outs, it') => Ret (OSized (map (option_map fst) outs) (fst (iter_size_hint it')))
                     | o => fmap (fun _ => OUnit) o
                     end
         | o => fmap (fun _ => OUnit) (cast o)
         end, s, w)
    | RangeOver r lo hi cs =>
        (match map_range qcmp borrow lo hi (s r) with
         | Ret it => match cast (calls (@range_next K V) (@range_next_back K V) cs it) with
                     | Ret (outs, _) => Ret (OItems (map (option_map fst) outs))
                     | o => fmap (fun _ => OUnit) o
                     end
         | o => fmap (fun _ => OUnit) (cast o)
         end, s, w)
    | IterMut r cs ws =>
        match map_iter (s r) with
        | Ret it => match cast (calls (@iter_next K V) (@iter_next_back K V) cs it) with
                    | Ret (outs, _) =>
                        match write_all (chosen outs ws) (s r) with
                        | Some m => (Ret (OItems (map (option_map fst) outs)), upd s r m, w)
                        | None => (UB, s, w)
                        end
                    | o => (fmap (fun _ => OUnit) o, s, w)
                    end
        | o => (fmap (fun _ => OUnit) (cast o), s, w)
        end
    | RangeMut r lo hi cs ws =>
        match map_range qcmp borrow lo hi (s r) with
        | Ret it => match cast (calls (@range_next K V) (@range_next_back K V) cs it) with
                    | Ret (outs, _) =>
                        match write_all (chosen outs ws) (s r) with
                        | Some m => (Ret (OItems (map (option_map fst) outs)), upd s r m, w)
                        | None => (UB, s, w)
                        end
                    | o => (fmap (fun _ => OUnit) o, s, w)
                    end
        | o => (fmap (fun _ => OUnit) (cast o), s, w)
        end
    | IntoIter_ r cs =>
        (match map_into_iter (s r) with
         | Ret it => match cast (calls (@into_next K V) (@into_next_back K V) cs it) with
                     | Ret (outs, it') => fmap (fun d => ODropped outs (fst d)) (cast (drop_into_iter it'))
                     | o => fmap (fun _ => OUnit) o
                     end
         | o => fmap (fun _ => OUnit) (cast o)
         end, upd s r new, w)
    | EntryOr r k f v =>
        let '(o, m1, w1) := try_entry nalloc cmp k (s r) w in
        match o with
        | Ret en =>
            let '(o2, m2) := and_modify m1 en f in
            match o2 with
            | Ret en' =>
                let '(o3, m3, w3) := or_try_insert_with nalloc m2 en' (fun w => (Ret v, w)) w1 in
                (match o3 with
                 | Ret a => match kv_at (bnode m3) a with Some x => Ret (OVal (Some (snd x))) | None => UB end
                 | o => fmap (fun _ => OUnit) o
                 end, upd s r m3, w3)
            | o => (fmap (fun _ => OUnit) o, upd s r m2, w1)
            end
        | o => (fmap (fun _ => OUnit) o, upd s r m1, w1)
        end
    | EntryRemove r k =>
        let '(o, m1, w1) := try_entry nalloc cmp k (s r) w in
        match o with
        | Ret (Occupied hd) => let '(o2, m2) := remove_entry_at m1 hd in (fmap (fun x => OEntry (Some x)) (cast o2), upd s r m2, w1)
        | Ret (Vacant _ _) => (Ret (OEntry None), upd s r m1, w1)
        | o => (fmap (fun _ => OUnit) o, upd s r m1, w1)
        end
    | Equal r t => (fmap OBool (cast (map_eq eqb (s r) (s t))), s, w)
    | Compare r t => (fmap OCmp (cast (map_partial_cmp pcmp (s r) (s t))), s, w)
    end.

  (** the borrow checker: no operation on two maps gets the same one twice, and
      [s = ...] does not overwrite the map it reads through a mutable reference *)
  Definition legal (c : op) : Prop :=
    match c with Append r t | SplitOff r _ t | TryClone r t | Clone r t => r <> t | _ => True end.

  (** every step with its result and the maps after it; the program goes on
      after errors and (caught) panics, but not after an abort or undefined
      behaviour *)
  Fixpoint run (l : list op) (s : regs) (w : W) : list (outcome reserve_error obs * regs) :=
    match l with
    | [] => []
    | c :: l' =>
        let '(o, s', w') := step c s w in
        (o, s') :: match o with Abort | UB => [] | _ => run l' s' w' end
    end.
End Programs.

Arguments New {K V Q}. Arguments Len {K V Q}. Arguments IsEmpty {K V Q}. Arguments Clear {K V Q}. Arguments Append {K V Q}.
Arguments TryClone {K V Q}. Arguments Clone {K V Q}. Arguments Iterate {K V Q}. Arguments IntoIter_ {K V Q}.
Arguments Equal {K V Q}. Arguments Compare {K V Q}.
Arguments Insert {K V Q}. Arguments Replace {K V Q}. Arguments Remove {K V Q}. Arguments Take {K V Q}. Arguments Get {K V Q}.
Arguments GetKeyValue {K V Q}. Arguments Contains {K V Q}. Arguments Index {K V Q}. Arguments GetMut {K V Q}. Arguments SplitOff {K V Q}.
Arguments Extend {K V Q}. Arguments RangeOver {K V Q}. Arguments IterMut {K V Q}. Arguments RangeMut {K V Q}. Arguments EntryOr {K V Q}.
Arguments EntryRemove {K V Q}.
Arguments OUnit {K V}. Arguments OBool {K V}. Arguments ONat {K V}. Arguments OCmp {K V}.
