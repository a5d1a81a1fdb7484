(** * HashHistoryModel: programs over several TryHashMaps (src/hashmap.rs)

    A program is a list of calls of the public operations of [TryHashMap] on
    numbered maps.  MiscModel says what the calls do to a map; here it is also
    modelled what happens to the keys and values that do not stay in a map: an
    argument dropped because the call failed, the second of two equal keys, a
    half-made clone, the old map dropped by an assignment.  Destructors act on
    the world; that they return is a simplification (a destructor that panics
    inside std's table is std's business). *)
From Coq Require Import List Arith Bool.
Import ListNotations.
From Verif Require Import Base VecModel MiscModel.
Set Implicit Arguments.

Section Ops.
  Variables K V : Type.
  (** The calls.  [r], [t] are numbers of maps. *)
  Inductive top :=
  | TNew (r : nat)                  (* r = TryHashMap::default() *)
  | TWithCapacity (r n : nat)       (* r = TryHashMap::with_capacity(n)? *)
  | TInsert (r : nat) (k : K) (v : V)  (* r.insert(k, v) *)
  | TRemove (r : nat) (k : K)       (* r.remove(&k) *)
  | TGet (r : nat) (k : K)          (* r.get(&k) *)
  | TLen (r : nat)                  (* r.len() *)
  | TIter (r : nat)                 (* r.iter().collect() *)
  | TInto (r n : nat)               (* take(r).into_iter().take(n).collect(), the rest dropped *)
  | TTryClone (r t : nat).          (* r = t.try_clone()? *)
  (** what a call returns: [TEntries] by reference, [TTaken] by value *)
  Inductive tres := TUnit | TOpt (o : option V) | TRef (o : option V) | TNum (n : nat)
                  | TEntries (l : list (K * V)) | TTaken (l : list (K * V)).
End Ops.
Arguments TNew {K V}. Arguments TWithCapacity {K V}. Arguments TInsert {K V}. Arguments TRemove {K} V.
Arguments TGet {K} V. Arguments TLen {K V}. Arguments TIter {K V}. Arguments TInto {K V}. Arguments TTryClone {K V}.
Arguments TUnit {K V}. Arguments TOpt {K V}. Arguments TRef {K V}. Arguments TNum {K V}. Arguments TEntries {K V}. Arguments TTaken {K V}.

Section History.
  Variable W : Type.
  Variable alloc : nat -> W -> answer * W.
  Variable isize_max : nat.
  Variables K V : Type.
  Variable keq : K -> K -> bool.
  Variable policy : nat -> bool.
  Variable esz : nat.
  Variable kclone : K -> W -> outcome reserve_error K * W.
  Variable vclone : V -> W -> outcome reserve_error V * W.
  Variable kdrop : K -> W -> W.
  Variable vdrop : V -> W -> W.
  (** the order in which a table is iterated over: arbitrary, and different
      at different times (std's RandomState); HashHistorySpec asks it to be a
      permutation *)
  Variable order : nat -> list (K * V) -> list (K * V).
  Notation hmap := (hmap K V).
  Notation top := (top K V).
  Notation tres := (tres K V).

  (** src/hashmap.rs:69-72 iter *)
  Definition t_iter (m : hmap) : list (K * V) := order (hstep m) (items m).

  Definition drop_opt (o : option V) (w : W) : W := match o with Some v => vdrop v w | None => w end.
  (** a tuple drops its fields in order *)
  Definition drop_entry (x : K * V) (w : W) : W := vdrop (snd x) (kdrop (fst x) w).
  Definition drop_entries (l : list (K * V)) (w : W) : W := fold_left (fun w x => drop_entry x w) l w.
  (** the drop glue of a map: std drops every entry, in table order *)
  Definition drop_map (m : hmap) (w : W) : W := drop_entries (t_iter m) w.

  (** src/hashmap.rs:63-67 insert: parameters go out of scope in reverse order
      when it fails; std's insert drops the new key if an equal one is there *)
  Definition t_insert (k : K) (v : V) (m : hmap) (w : W) : outcome reserve_error (option V) * (hmap * W) :=
    match thm_insert alloc isize_max keq policy esz k v (m, w) with
    | (Ret (Some old), (m', w')) => (Ret (Some old), (m', kdrop k w'))
    | (Ret None, s') => (Ret None, s')
    | (Err e, (m', w')) => (Err e, (m', kdrop k (vdrop v w')))
    | (Panic, (m', w')) => (Panic, (m', kdrop k (vdrop v w')))
    | (Abort, s') => (Abort, s')
    | (UB, s') => (UB, s')
    end.

  (** std contract: the key stored in the entry that a lookup finds *)
  Fixpoint stored (k : K) (l : list (K * V)) : option K :=
    match l with
    | [] => None
    | (k', _) :: l' => if keq k k' then Some k' else stored k l'
    end.
  (** src/hashmap.rs:79-86 remove: std drops the key that was stored *)
  Definition t_remove (k : K) (m : hmap) (w : W) : option V * (hmap * W) :=
    let '(o, m') := thm_remove keq policy k m in
    (o, (m', match stored k (items m) with Some k0 => kdrop k0 w | None => w end)).

  (** src/hashmap.rs:114-116: the loop of try_clone.  When the value's clone
      fails the key's clone is dropped; a value that insert returns is dropped
      at the end of the statement *)
  Fixpoint t_clone_loop (l : list (K * V)) (c : hmap) (w : W) : outcome reserve_error unit * (hmap * W) :=
    match l with
    | [] => (Ret tt, (c, w))
    | (k, v) :: l' =>
        match kclone k w with
        | (Ret k', w1) =>
            match vclone v w1 with
            | (Ret v', w2) =>
                match t_insert k' v' c w2 with
                | (Ret old, (c', w3)) => t_clone_loop l' c' (drop_opt old w3)
                | (Err e, s') => (Err e, s')
                | (Panic, s') => (Panic, s')
                | (Abort, s') => (Abort, s')
                | (UB, s') => (UB, s')
                end
            | (Err e, w2) => (Err e, (c, kdrop k' w2))
            | (Panic, w2) => (Panic, (c, kdrop k' w2))
            | (Abort, w2) => (Abort, (c, w2))
            | (UB, w2) => (UB, (c, w2))
            end
        | (Err e, w1) => (Err e, (c, w1))
        | (Panic, w1) => (Panic, (c, w1))
        | (Abort, w1) => (Abort, (c, w1))
        | (UB, w1) => (UB, (c, w1))
        end
    end.
  (** src/hashmap.rs:111-119 try_clone: the half-made clone is dropped when the
      loop does not reach its end *)
  Definition t_try_clone (m : hmap) (w : W) : outcome reserve_error hmap * W :=
    match thm_with_capacity alloc isize_max K V esz (thm_len m) w with
    | (Ret c, w') =>
        match t_clone_loop (t_iter m) c w' with
        | (Ret _, (c', w'')) => (Ret c', w'')
        | (Err e, (c', w'')) => (Err e, drop_map c' w'')
        | (Panic, (c', w'')) => (Panic, drop_map c' w'')
        | (Abort, (_, w'')) => (Abort, w'')
        | (UB, (_, w'')) => (UB, w'')
        end
    | r => r
    end.

  (** src/hashmap.rs:96-104 into_iter: the first [n] entries go to the caller,
      dropping the iterator drops the others *)
  Definition t_into (n : nat) (m : hmap) (w : W) : list (K * V) * W :=
    (firstn n (t_iter m), drop_entries (skipn n (t_iter m)) w).

  Definition tregs := nat -> hmap.

  (** [r = m], the old map is dropped *)
  Definition t_assign (r : nat) (m : hmap) (g : tregs) (w : W) : tregs * W := (upd g r m, drop_map (g r) w).

  (** [r = build?] *)
  Definition t_built (r : nat) (b : outcome reserve_error hmap * W) (g : tregs) : outcome reserve_error tres * (tregs * W) :=
    match b with
    | (Ret m, w') => (Ret TUnit, t_assign r m g w')
    | (Err e, w') => (Err e, (g, w'))
    | (Panic, w') => (Panic, (g, w'))
    | (Abort, w') => (Abort, (g, w'))
    | (UB, w') => (UB, (g, w'))
    end.

  (** one call; src/hashmap.rs:25-32 default, 45-52 with_capacity, 54-61 get,
      63-67 insert, 69-72 iter, 74-77 len, 79-86 remove, 96-104 into_iter,
      106-120 try_clone *)
  Definition tstep (c : top) (s : tregs * W) : outcome reserve_error tres * (tregs * W) :=
    let '(g, w) := s in
    match c with
    | TNew r => (Ret TUnit, t_assign r (hmap_new K V) g w)
    | TWithCapacity r n => t_built r (thm_with_capacity alloc isize_max K V esz n w) g
    | TInsert r k v =>
        match t_insert k v (g r) w with
        | (Ret old, (m, w')) => (Ret (TOpt old), (upd g r m, w'))
        | (Err e, (m, w')) => (Err e, (upd g r m, w'))
        | (Panic, (m, w')) => (Panic, (upd g r m, w'))
        | (Abort, (m, w')) => (Abort, (upd g r m, w'))
        | (UB, (m, w')) => (UB, (upd g r m, w'))
        end
    | TRemove _ r k => let '(o, (m, w')) := t_remove k (g r) w in (Ret (TOpt o), (upd g r m, w'))
    | TGet _ r k => (Ret (TRef (thm_get keq k (g r))), (g, w))
    | TLen r => (Ret (TNum (thm_len (g r))), (g, w))
    | TIter r => (Ret (TEntries (t_iter (g r))), (g, w))
    | TInto r n => let '(l, w') := t_into n (g r) w in (Ret (TTaken l), (upd g r (hmap_new K V), w'))
    | TTryClone r t => t_built r (t_try_clone (g t) w) g
    end.

  (** A program: errors are handled by the caller and panics caught, so it goes
      on after either; an abort or undefined behaviour ends it. *)
  Fixpoint trun (cs : list top) (s : tregs * W) : list (outcome reserve_error tres) * (tregs * W) :=
    match cs with
    | [] => ([], s)
    | c :: cs' =>
        match tstep c s with
        | (Abort, s') => ([Abort], s')
        | (UB, s') => ([UB], s')
        | (o, s') => let '(os, s'') := trun cs' s' in (o :: os, s'')
        end
    end.

  Definition no_maps : tregs := fun _ => hmap_new K V.
End History.
