(** * MiscModel: src/boxed.rs, src/rc.rs, src/arc.rs, src/format.rs,
      src/try_clone.rs, src/hashmap.rs and the std_io module of src/vec.rs *)
From Coq Require Import List Arith Lia Bool.
Import ListNotations.
From Verif Require Import Base VecModel.
Set Implicit Arguments.

Section Misc.
  Variable W : Type.
  Variable alloc : nat -> W -> answer * W.
  Variable isize_max : nat.
  (** size of a usize, for the two counters of an Rc/Arc block *)
  Variable usize_bytes : nat.

  (** ** Box, Rc, Arc *)
  Section Pointers.
    Variable T : Type.
    Variable sz : nat.

    (** std contract: Vec::try_reserve_exact on a vector; the documentation
        does not promise exactness, so the answer may carry extra capacity. *)
    Definition try_reserve_exact (additional : nat) : VM W T reserve_error unit :=
      try_reserve alloc isize_max sz additional.

    (** std contract: Vec::into_boxed_slice: shrink_to_fit, an infallible
        reallocation, if the capacity is larger than the length *)
    Definition into_boxed_slice : VM W T reserve_error unit :=
      fun '(v, w) =>
        if negb (sz =? 0) && (vlen v <? vcap v) then
          match alloc (vlen v * sz) w with
          | (Grant _, w') => (Ret tt, (mkVec (vlen v) (vlen v) (vslots v), w'))
          | (Refuse CapacityOverflow, w') => (Panic, (v, w'))
          | (Refuse AllocError, w') => (Abort, (v, w'))
          end
        else (Ret tt, (v, w)).

    (** src/boxed.rs:66-74 Box::try_new (and 26-31 TryBox::try_new).  A box is
        represented by the value it owns: slot 0 of the boxed slice, which must
        be initialised and inside the block. *)
    Definition box_try_new (t : T) (w : W) : outcome reserve_error T * W :=
      match (try_reserve_exact 1 ;;; std_push alloc isize_max sz t ;;; into_boxed_slice)
              (vec_new T, w) with
      | (Ret _, (v, w')) =>
          match vslots v 0 with
          | Some x => (Ret x, w')
          | None => (UB, w')
          end
      | (Err e, (_, w')) => (Err e, w')
      | (Panic, (_, w')) => (Panic, w')
      | (Abort, (_, w')) => (Abort, w')
      | (UB, (_, w')) => (UB, w')
      end.

    (** std contract: Rc::from(Box<T>) / Arc::from(Box<T>): one infallible
        allocation of the counted block, the value is moved there. *)
    Definition counted_from_box (t : T) (w : W) : outcome reserve_error T * W :=
      match alloc (sz + 2 * usize_bytes) w with
      | (Grant _, w') => (Ret t, w')
      | (Refuse _, w') => (Abort, w')
      end.

    (** src/rc.rs:25-28 Rc::try_new; src/arc.rs:30-35 Arc::try_new without the
        feature "unstable" *)
    Definition rc_try_new (t : T) (w : W) : outcome reserve_error T * W :=
      match box_try_new t w with
      | (Ret b, w') => counted_from_box b w'
      | r => r
      end.
    Definition arc_try_new_stable := rc_try_new.

    (** src/arc.rs:36-47 Arc::try_new with the feature "unstable": std's
        Arc::try_new, one fallible allocation; the error is replaced by an
        AllocError *)
    Definition arc_try_new_unstable (t : T) (w : W) : outcome reserve_error T * W :=
      match alloc (sz + 2 * usize_bytes) w with
      | (Grant _, w') => (Ret t, w')
      | (Refuse _, w') => (Err AllocError, w')
      end.

    (** src/arc.rs:53-55 TryClone for Arc: the strong count of the shared block
        goes up by one; std aborts the process past isize::MAX references. *)
    Definition arc_try_clone (count : nat) : outcome reserve_error nat :=
      if isize_max <? count then Abort else Ret (S count).
  End Pointers.

  (** ** TryClone, compositionally *)

  (** src/try_clone.rs:6-21: u8..usize, bool *)
  Definition clone_prim {T} (x : T) (w : W) : outcome reserve_error T * W := (Ret x, w).

  (** src/try_clone.rs:23-31 Option *)
  Definition clone_option {T} (c : T -> W -> outcome reserve_error T * W)
      (o : option T) (w : W) : outcome reserve_error (option T) * W :=
    match o with
    | Some t => match c t w with
                | (Ret y, w') => (Ret (Some y), w')
                | (Err e, w') => (Err e, w')
                | (Panic, w') => (Panic, w')
                | (Abort, w') => (Abort, w')
                | (UB, w') => (UB, w')
                end
    | None => (Ret None, w)
    end.

  (** src/boxed.rs:50-53 TryBox, 79-81 Box: clone the contents, then allocate *)
  Definition clone_box {T} (sz : nat) (c : T -> W -> outcome reserve_error T * W)
      (b : T) (w : W) : outcome reserve_error T * W :=
    match c b w with
    | (Ret y, w') => box_try_new sz y w'
    | r => r
    end.

  (** a universe of clonable types built from the instances above; [P] is a
      primitive type *)
  Inductive ty := TPrim | TOpt (t : ty) | TBox (t : ty) | TVec (t : ty).
  Section Universe.
    Variable P : Type.
    (** size_of each type *)
    Variable szof : ty -> nat.
    (** run-time representation *)
    Fixpoint val (t : ty) : Type :=
      match t with
      | TPrim => P
      | TOpt t => option (val t)
      | TBox t => val t
      | TVec t => rvec (val t)
      end.
    (** the [try_clone] the trait resolution selects for each type:
        src/try_clone.rs, src/boxed.rs:50-53,79-81, src/vec.rs:679-689 *)
    Fixpoint clone_ty (t : ty) : val t -> W -> outcome reserve_error (val t) * W :=
      match t return val t -> W -> outcome reserve_error (val t) * W with
      | TPrim => clone_prim
      | TOpt t => clone_option (clone_ty t)
      | TBox t => clone_box (szof t) (clone_ty t)
      | TVec t => vec_try_clone alloc isize_max (szof t) (clone_ty t)
      end.
  End Universe.

  (** ** try_format *)

  (** What formatting the arguments does to the string: a sequence of
      [write_str] calls, possibly ended by an error or a panic of a user's
      Display implementation. *)
  Inductive fragment (B : Type) := FStr (bs : list B) | FErr | FPanic.
  Arguments FStr {B} bs. Arguments FErr {B}. Arguments FPanic {B}.

  Section Format.
    Variable B : Type. (* bytes *)
    (** std contract: String's write_fmt: every fragment is appended with
        String::push_str, i.e. Vec::extend_from_slice (infallible growth) *)
    Fixpoint write_fmt (fs : list (fragment B)) : VM W B unit unit :=
      match fs with
      | [] => ret tt
      | FStr bs :: fs' => std_extend_from_slice alloc isize_max 1 bs ;;; write_fmt fs'
      | FErr :: _ => fail tt
      | FPanic :: _ => panic
      end.
    (** src/format.rs:15-21 try_format *)
    Definition try_format (max_capacity : nat) (fs : list (fragment B)) (w : W)
      : outcome reserve_error (rvec B) * W :=
      match try_with_capacity alloc isize_max B 1 max_capacity w with
      | (Ret v, w') =>
          match write_fmt fs (v, w') with
          | (Ret _, (s, w'')) => (Ret s, w'')
          | (Err _, (_, w'')) => (Panic, w'')   (* .expect(..) *)
          | (Panic, (_, w'')) => (Panic, w'')
          | (Abort, (_, w'')) => (Abort, w'')
          | (UB, (_, w'')) => (UB, w'')
          end
      | (Err e, w') => (Err e, w')
      | (Panic, w') => (Panic, w')
      | (Abort, w') => (Abort, w')
      | (UB, w') => (UB, w')
      end.
  End Format.

  (** ** std_io *)
  Inductive read_result (B : Type) := RData (bs : list B) | RInterrupted | RError.
  Arguments RData {B} bs. Arguments RInterrupted {B}. Arguments RError {B}.
  Inductive io_error := IoConversion | IoReserve | IoRead | IoExtend.

  Section IO.
    Variable B : Type.
    Variable R : Type.
    (** Read::read with a buffer of [n] bytes; contract: at most [n] bytes *)
    Variable read : R -> nat -> read_result B * R.

    (** std contract: Take<R>::read: a limit of 0 reads nothing without asking
        the inner reader; otherwise the inner reader gets min(n, limit) *)
    Definition take_read (r : R) (limit n : nat) : read_result B * R * nat :=
      if limit =? 0 then (RData [], r, limit)
      else match read r (min n limit) with
           | (RData bs, r') => (RData bs, r', limit - length bs)
           | (RInterrupted, r') => (RInterrupted, r', limit)
           | (RError, r') => (RError, r', limit)
           end.

    (** std contract: Read::read_to_end (library/std/src/io/mod.rs of Rust
        1.64, the MSRV in Cargo.toml): grow by 32 when full, read into the
        spare capacity, stop on 0 bytes, retry on Interrupted; when the
        original capacity is filled exactly, probe with a 32 byte buffer on
        the stack first.  [None] when the fuel is used up. *)
    Fixpoint read_to_end (fuel : nat) (start_len start_cap : nat) (r : R) (limit : nat)
        (s : rvec B * W) (probing : bool)
      : option (outcome io_error nat * (rvec B * W) * R) :=
      match fuel with
      | 0 => None
      | S fuel' =>
        if probing then
          match take_read r limit 32 with
          | (RData [], r', limit') => Some (Ret (vlen (fst s) - start_len), s, r')
          | (RData bs, r', limit') =>
              match std_extend_from_slice alloc isize_max 1 (E:=io_error) bs s with
              | (Ret _, s') => read_to_end fuel' start_len start_cap r' limit' s' false
              | (Err e, s') => Some (Err e, s', r')
              | (Panic, s') => Some (Panic, s', r')
              | (Abort, s') => Some (Abort, s', r')
              | (UB, s') => Some (UB, s', r')
              end
          | (RInterrupted, r', limit') => read_to_end fuel' start_len start_cap r' limit' s true
          | (RError, r', limit') => Some (Err IoRead, s, r')
          end
        else
          match (if vlen (fst s) =? capacity isize_max 1 (fst s)
                 then reserve alloc isize_max 1 (E:=io_error) 32 s else (Ret tt, s)) with
          | (Ret _, s) =>
            match take_read r limit (capacity isize_max 1 (fst s) - vlen (fst s)) with
            | (RData [], r', limit') => Some (Ret (vlen (fst s) - start_len), s, r')
            | (RData bs, r', limit') =>
                match push_all isize_max 1 (E:=io_error) bs s with
                | (Ret _, s') =>
                    read_to_end fuel' start_len start_cap r' limit' s'
                      ((vlen (fst s') =? capacity isize_max 1 (fst s')) &&
                       (capacity isize_max 1 (fst s') =? start_cap))
                | (Err e, s') => Some (Err e, s', r')
                | (Panic, s') => Some (Panic, s', r')
                | (Abort, s') => Some (Abort, s', r')
                | (UB, s') => Some (UB, s', r')
                end
            | (RInterrupted, r', limit') => read_to_end fuel' start_len start_cap r' limit' s false
            | (RError, r', limit') => Some (Err IoRead, s, r')
            end
          | (Err e, s') => Some (Err e, s', r)
          | (Panic, s') => Some (Panic, s', r)
          | (Abort, s') => Some (Abort, s', r)
          | (UB, s') => Some (UB, s', r)
          end
      end.

    (** src/vec.rs:252-264 try_read_up_to; also 244-246 try_read_to_end for
        Take (limit = Take::limit(); the extra Take around a Take of the same
        limit changes nothing) *)
    Definition try_read_up_to (fuel : nat) (r : R) (limit : nat) (s : rvec B * W)
      : option (outcome io_error nat * (rvec B * W) * R) :=
      if usize_max isize_max <? limit then Some (Err IoConversion, s, r)
      else match try_reserve alloc isize_max 1 limit s with
           | (Ret _, s') =>
               read_to_end fuel (vlen (fst s')) (capacity isize_max 1 (fst s')) r limit s' false
           | (Err _, s') => Some (Err IoReserve, s', r)
           | (Panic, s') => Some (Panic, s', r)
           | (Abort, s') => Some (Abort, s', r)
           | (UB, s') => Some (UB, s', r)
           end.

    (** src/vec.rs:222-227 read_into_try_vec *)
    Definition read_into_try_vec (fuel : nat) (r : R) (limit : nat) (w : W)
      : option (outcome io_error (rvec B) * W * R) :=
      match try_read_up_to fuel r limit (vec_new B, w) with
      | Some (Ret _, (v, w'), r') => Some (Ret v, w', r')
      | Some (Err e, (_, w'), r') => Some (Err e, w', r')
      | Some (Panic, (_, w'), r') => Some (Panic, w', r')
      | Some (Abort, (_, w'), r') => Some (Abort, w', r')
      | Some (UB, (_, w'), r') => Some (UB, w', r')
      | None => None
      end.

    (** src/vec.rs:266-277 io::Write::write for TryVec<u8> *)
    Definition io_write (buf : list B) : VM W B io_error nat :=
      map_err (fun _ => IoExtend)
        (try_extend_from_slice_no_copy alloc isize_max 1 clone_prim buf) ;;;
      ret (length buf).
  End IO.

  (** ** TryHashMap *)
  Section HashMap.
    Variables K V : Type.
    (** K's Eq *)
    Variable keq : K -> K -> bool.

    (** hashbrown / std HashMap state by contract: the entries, the number of
        further insertions possible without growing ([growth_left]; the
        reported capacity is [items + growth_left]), and a step counter that
        feeds the table's internal decisions below. *)
    Record hmap := mkMap { items : list (K * V); growth_left : nat; hstep : nat }.

    (** Whether removing an entry leaves a tombstone (the slot is not usable by
        [growth_left]) and whether an insertion reuses one: decided by the
        table's layout, here by an arbitrary function of the step counter. *)
    Variable policy : nat -> bool.

    (** std contract: HashMap::new(): no allocation *)
    Definition hmap_new : hmap := mkMap [] 0 0.
    (** std contract: HashMap::capacity() *)
    Definition hmap_capacity (m : hmap) : nat := length (items m) + growth_left m.

    (** std contract: HashMap::try_reserve: nothing to do if there is room;
        otherwise the table is rehashed in place or grown, which the allocator
        may refuse; on refusal nothing changes. [esz] = bytes per bucket. *)
    Variable esz : nat.
    Definition hmap_try_reserve (additional : nat) : M (hmap * W) reserve_error unit :=
      fun '(m, w) =>
        if additional <=? growth_left m then (Ret tt, (m, w))
        else match alloc ((length (items m) + additional) * esz) w with
             | (Grant extra, w') => (Ret tt, (mkMap (items m) (additional + extra) (S (hstep m)), w'))
             | (Refuse e, w') => (Err e, (m, w'))
             end.

    (** the infallible version: panic on overflow, abort on refusal *)
    Definition hmap_reserve {E} (additional : nat) : M (hmap * W) E unit :=
      fun s => match hmap_try_reserve additional s with
               | (Ret _, s') => (Ret tt, s')
               | (Err CapacityOverflow, s') => (Panic, s')
               | (Err AllocError, s') => (Abort, s')
               | (Panic, s') => (Panic, s')
               | (Abort, s') => (Abort, s')
               | (UB, s') => (UB, s')
               end.

    (** std contract: get: the value of the entry with an equal key *)
    Fixpoint assoc (k : K) (l : list (K * V)) : option V :=
      match l with
      | [] => None
      | (k', v) :: l' => if keq k k' then Some v else assoc k l'
      end.
    (** std contract: insert on a present key keeps the key, replaces the value *)
    Fixpoint assoc_set (k : K) (v : V) (l : list (K * V)) : list (K * V) :=
      match l with
      | [] => []
      | (k', v') :: l' => if keq k k' then (k', v) :: l' else (k', v') :: assoc_set k v l'
      end.
    (** std contract: remove *)
    Fixpoint assoc_remove (k : K) (l : list (K * V)) : list (K * V) :=
      match l with
      | [] => []
      | (k', v') :: l' => if keq k k' then l' else (k', v') :: assoc_remove k l'
      end.

    (** std contract: HashMap::insert: reserve(1) infallibly, then replace or
        add *)
    Definition std_hmap_insert {E} (k : K) (v : V) : M (hmap * W) E (option V) :=
      hmap_reserve 1 ;;;
      fun '(m, w) =>
        match assoc k (items m) with
        | Some old => (Ret (Some old), (mkMap (assoc_set k v (items m)) (growth_left m) (S (hstep m)), w))
        | None =>
            let g := if policy (hstep m) then growth_left m else growth_left m - 1 in
            (Ret None, (mkMap ((k, v) :: items m) g (S (hstep m)), w))
        end.

    (** std contract: HashMap::remove *)
    Definition hmap_remove (k : K) (m : hmap) : option V * hmap :=
      match assoc k (items m) with
      | Some v =>
          let g := if policy (hstep m) then growth_left m else S (growth_left m) in
          (Some v, mkMap (assoc_remove k (items m)) g (S (hstep m)))
      | None => (None, m)
      end.

    (** src/hashmap.rs:130-135 make_try_reserve_error: try_reserve(!0) on an
        empty Vec<[u8; 1024]>; [None] = its unwrap_err would panic *)
    Definition make_try_reserve_error (w : W) : option reserve_error :=
      match try_reserve alloc isize_max 1024 (usize_max isize_max) (vec_new unit, w) with
      | (Err e, _) => Some e
      | _ => None
      end.

    (** src/hashmap.rs:89-93 TryHashMap::reserve *)
    Definition thm_reserve (additional : nat) : M (hmap * W) reserve_error unit :=
      fun s => match hmap_try_reserve additional s with
               | (Err _, s') => match make_try_reserve_error (snd s') with
                                | Some e => (Err e, s')
                                | None => (Panic, s')
                                end
               | r => r
               end.

    (** src/hashmap.rs:45-52 TryHashMap::with_capacity *)
    Definition thm_with_capacity (n : nat) (w : W) : outcome reserve_error hmap * W :=
      match thm_reserve n (hmap_new, w) with
      | (Ret _, (m, w')) => (Ret m, w')
      | (Err e, (_, w')) => (Err e, w')
      | (Panic, (_, w')) => (Panic, w')
      | (Abort, (_, w')) => (Abort, w')
      | (UB, (_, w')) => (UB, w')
      end.

    (** src/hashmap.rs:63-67 TryHashMap::insert *)
    Definition thm_insert (k : K) (v : V) : M (hmap * W) reserve_error (option V) :=
      s <- get_st ;;
      thm_reserve (if hmap_capacity (fst s) =? 0 then 4 else 1) ;;;
      std_hmap_insert k v.

    (** src/hashmap.rs:54-61 get, 69-72 iter, 74-77 len, 79-86 remove *)
    Definition thm_get (k : K) (m : hmap) : option V := assoc k (items m).
    Definition thm_iter (m : hmap) : list (K * V) := items m.
    Definition thm_len (m : hmap) : nat := length (items m).
    Definition thm_remove := hmap_remove.

    Variable kclone : K -> W -> outcome reserve_error K * W.
    Variable vclone : V -> W -> outcome reserve_error V * W.

    Definition hlift {A} (f : W -> outcome reserve_error A * W) : M (hmap * W) reserve_error A :=
      fun '(m, w) => let '(o, w') := f w in (o, (m, w')).

    (** src/hashmap.rs:114-116: the loop of try_clone *)
    Fixpoint thm_clone_loop (l : list (K * V)) : M (hmap * W) reserve_error unit :=
      match l with
      | [] => ret tt
      | (k, v) :: l' =>
          k' <- hlift (kclone k) ;;
          v' <- hlift (vclone v) ;;
          thm_insert k' v' ;;;
          thm_clone_loop l'
      end.
    (** src/hashmap.rs:111-119 TryClone for TryHashMap *)
    Definition thm_try_clone (m : hmap) (w : W) : outcome reserve_error hmap * W :=
      match thm_with_capacity (length (items m)) w with
      | (Ret c, w') =>
          match thm_clone_loop (thm_iter m) (c, w') with
          | (Ret _, (c', w'')) => (Ret c', w'')
          | (Err e, (_, w'')) => (Err e, w'')
          | (Panic, (_, w'')) => (Panic, w'')
          | (Abort, (_, w'')) => (Abort, w'')
          | (UB, (_, w'')) => (UB, w'')
          end
      | r => r
      end.
  End HashMap.
End Misc.
Arguments FStr {B} bs. Arguments FErr {B}. Arguments FPanic {B}.
Arguments RData {B} bs. Arguments RInterrupted {B}. Arguments RError {B}.
