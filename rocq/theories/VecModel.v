(** * VecModel: src/vec.rs (FallibleVec for Vec, TryVec) and src/try_clone.rs

    The std type [Vec<T>] is modelled as a raw buffer: a capacity, a length
    and a table of slots, each slot initialised ([Some x]) or not ([None]).
    The std methods used by the crate are modelled by their documented
    contract on that buffer, the crate's own functions are transcribed. *)
From Coq Require Import List Arith Lia Bool.
Import ListNotations.
From Verif Require Import Base.
Set Implicit Arguments.

(** std contract: the state of a [Vec<T>].  [vcap] is the size of the heap
    block in elements (meaningless for zero-sized elements). *)
Record rvec (T : Type) := mkVec
  { vcap : nat; vlen : nat; vslots : nat -> option T }.
Arguments mkVec {T}.

(** The allocator's answer to a request: granted (with [extra] elements of
    capacity beyond what was needed: amortised growth or a generous
    allocator), or refused with one of the two error kinds (std reports
    CapacityOverflow when its amortised size is too large). *)
Inductive answer := Grant (extra : nat) | Refuse (e : reserve_error).

Section Vec.
  (** the world: allocator state and anything user code can change *)
  Variable W : Type.
  (** the allocator: request in bytes -> answer *)
  Variable alloc : nat -> W -> answer * W.
  (** isize::MAX of the target *)
  Variable isize_max : nat.
  Definition usize_max := 2 * isize_max + 1.

  Section Elem.
  Variable T : Type.
  (** size_of::<T>() *)
  Variable sz : nat.

  Definition VM (E A : Type) := M (rvec T * W) E A.

  (** std contract: Vec::new() *)
  Definition vec_new : rvec T := mkVec 0 0 (fun _ => None).

  (** std contract: Vec::capacity(); usize::MAX for zero-sized types *)
  Definition capacity (v : rvec T) : nat :=
    if sz =? 0 then usize_max else vcap v.

  (** std contract: growing the heap block so that [need] elements fit.
      All initialised slots are kept (realloc); slots past the length are
      uninitialised.  The amount actually granted never exceeds isize::MAX
      bytes. *)
  Definition grown (v : rvec T) (need extra : nat) : rvec T :=
    let c := if (need + extra) * sz <=? isize_max then need + extra else need in
    mkVec c (vlen v) (fun i => if i <? vlen v then vslots v i else None).

  (** std contract: Vec::try_reserve (RawVec::grow_amortized): nothing happens
      if there is enough spare room; CapacityOverflow if the element is
      zero-sized (capacity is already usize::MAX), if len + additional
      overflows usize or if the size in bytes exceeds isize::MAX; else the
      allocator decides.  Models also src/vec.rs:441-444 (the trait method
      calls the inherent one).  Simplification: the number shown to [alloc]
      is the least that will do.  RawVec asks for more (twice the old capacity
      if that is larger) and does not try again with less; what it gets beyond
      the need is [extra], and a refusal of the larger request, or its not
      fitting into isize::MAX, is a [Refuse] with the reason reported.  As
      [alloc] and the world are arbitrary (the world can be the script of all
      answers to come), every sequence of answers RawVec can see is one the
      model can see. *)
  Definition try_reserve (additional : nat) : VM reserve_error unit :=
    fun '(v, w) =>
      if additional <=? capacity v - vlen v then (Ret tt, (v, w))
      else if sz =? 0 then (Err CapacityOverflow, (v, w))
      else if usize_max <? vlen v + additional then (Err CapacityOverflow, (v, w))
      else if isize_max <? (vlen v + additional) * sz then (Err CapacityOverflow, (v, w))
      else match alloc ((vlen v + additional) * sz) w with
           | (Grant extra, w') => (Ret tt, (grown v (vlen v + additional) extra, w'))
           | (Refuse e, w') => (Err e, (v, w'))
           end.

  (** std contract: Vec::reserve, the infallible version: panics on capacity
      overflow, aborts when the allocator refuses. *)
  Definition reserve {E} (additional : nat) : VM E unit :=
    fun s => match try_reserve additional s with
             | (Ret _, s') => (Ret tt, s')
             | (Err CapacityOverflow, s') => (Panic, s')
             | (Err AllocError, s') => (Abort, s')
             | (Panic, s') => (Panic, s')
             | (Abort, s') => (Abort, s')
             | (UB, s') => (UB, s')
             end.

  (** ptr::write(v.as_mut_ptr().add(i), x): must stay inside the allocation. *)
  Definition raw_write {E} (i : nat) (x : T) : VM E unit :=
    fun '(v, w) =>
      if i <? capacity v then (Ret tt, (mkVec (vcap v) (vlen v) (upd (vslots v) i (Some x)), w))
      else (UB, (v, w)).

  (** ptr::read / move out of slot [i]: must be initialised, and is not
      afterwards. *)
  Definition raw_take {E} (i : nat) : VM E T :=
    fun '(v, w) =>
      match vslots v i with
      | Some x => (Ret x, (mkVec (vcap v) (vlen v) (upd (vslots v) i None), w))
      | None => (UB, (v, w))
      end.

  (** all slots in [a, a+n) are initialised *)
  Definition all_init (f : nat -> option T) (a n : nat) : bool :=
    forallb (fun i => match f i with Some _ => true | None => false end) (seq a n).

  (** Vec::set_len: within the capacity, and newly exposed slots must be
      initialised (its safety contract). *)
  Definition set_len {E} (n : nat) : VM E unit :=
    fun '(v, w) =>
      if (n <=? capacity v) && all_init (vslots v) (vlen v) (n - vlen v)
      then (Ret tt, (mkVec (vcap v) n (vslots v), w))
      else (UB, (v, w)).

  Definition get_len {E} : VM E nat := fun s => (Ret (vlen (fst s)), s).
  Definition get_cap {E} : VM E nat := fun s => (Ret (capacity (fst s)), s).

  (** user code: an effect on the world that may fail or panic *)
  Definition lift {E A} (f : W -> outcome E A * W) : VM E A :=
    fun '(v, w) => let '(o, w') := f w in (o, (v, w')).

  (** std contract: Vec::push; grows infallibly when full. *)
  Definition std_push {E} (x : T) : VM E unit :=
    len <- get_len ;; cap <- get_cap ;;
    (if len =? cap then reserve 1 else ret tt) ;;;
    raw_write len x ;;; set_len (S len).

  (** std contract: the memmove of Vec::insert: slots [index, len) move up by
      one.  Position len must be inside the allocation. *)
  Definition shift_up {E} (index : nat) : VM E unit :=
    fun '(v, w) =>
      if vlen v <? capacity v then
        (Ret tt, (mkVec (vcap v) (vlen v)
                    (fun i => if (index <? i) && (i <=? vlen v) then vslots v (i - 1) else vslots v i), w))
      else (UB, (v, w)).

  (** std contract: Vec::insert; panics if index > len, grows infallibly when
      full. *)
  Definition std_insert {E} (index : nat) (x : T) : VM E unit :=
    len <- get_len ;; cap <- get_cap ;;
    if len <? index then panic else
    (if len =? cap then reserve 1 else ret tt) ;;;
    shift_up index ;;; raw_write index x ;;; set_len (S len).

  (** std contract: writing the elements [xs] at the end, one by one *)
  Fixpoint push_all {E} (xs : list T) : VM E unit :=
    match xs with
    | [] => ret tt
    | x :: xs' => len <- get_len ;; raw_write len x ;;; set_len (S len) ;;; push_all xs'
    end.

  (** std contract: Vec::extend_from_slice for T: Copy (a memcpy after an
      infallible reserve) *)
  Definition std_extend_from_slice {E} (xs : list T) : VM E unit :=
    reserve (length xs) ;;; push_all xs.

  (** std contract: Vec::pop *)
  Definition pop {E} : VM E (option T) :=
    len <- get_len ;;
    match len with
    | 0 => ret None
    | S n => set_len n ;;; x <- raw_take n ;; ret (Some x)
    end.

  (** destructor of an element: may panic *)
  Variable tdrop : T -> W -> outcome reserve_error unit * W.

  (** ptr::drop_in_place(v.as_mut_ptr().add(i)): the destructor runs on an
      initialised slot; the slot is dead afterwards even if it panicked. *)
  Definition drop_slot (i : nat) : VM reserve_error unit :=
    x <- raw_take i ;; lift (tdrop x).

  (** drop glue of a slice: destructors run in ascending order; if one
      panics the others still run ([unw = true]) and the panic continues; a
      second panic aborts the process. *)
  Fixpoint drop_rest (unw : bool) (i n : nat) : VM reserve_error unit :=
    match n with
    | 0 => if unw then panic else ret tt
    | S n' => fun s => match drop_slot i s with
                       | (Ret _, s') => drop_rest unw (S i) n' s'
                       | (Panic, s') => if unw then (Abort, s') else drop_rest true (S i) n' s'
                       | r => r
                       end
    end.
  Definition drop_slice := drop_rest false.

  (** std contract: Vec::truncate: the length is set first. *)
  Definition std_truncate (n : nat) : VM reserve_error unit :=
    len <- get_len ;;
    if len <=? n then ret tt else set_len n ;;; drop_slice n (len - n).

  (** std contract: Vec::clear = truncate(0) *)
  Definition clear : VM reserve_error unit := std_truncate 0.

  (** std contract: dropping the Vec drops the live elements *)
  Definition drop_vec : VM reserve_error unit :=
    len <- get_len ;; drop_slice 0 len.

  (** std contract: Vec::resize for T: Copy *)
  Definition std_resize (n : nat) (x : T) : VM reserve_error unit :=
    len <- get_len ;;
    if len <? n then reserve (n - len) ;;; push_all (repeat x (n - len))
    else std_truncate n.

  (** std contract: the growing part of Vec::resize_with: one call of the
      closure per new element, the length follows each step *)
  Fixpoint push_with (n : nat) (f : W -> outcome reserve_error T * W) : VM reserve_error unit :=
    match n with
    | 0 => ret tt
    | S n' => x <- lift f ;; len <- get_len ;;
              raw_write len x ;;; set_len (S len) ;;; push_with n' f
    end.

  (** std contract: Vec::resize_with.  The closure returns a plain T: it may
      panic but has no error branch ([f] below never returns [Err]; see
      [closure_ok]). *)
  Definition std_resize_with (n : nat) (f : W -> outcome reserve_error T * W)
    : VM reserve_error unit :=
    len <- get_len ;;
    if len <? n then reserve (n - len) ;;; push_with (n - len) f
    else std_truncate n.

  (** *** The crate's code *)

  (** src/vec.rs:434-438 needs_to_grow *)
  Definition needs_to_grow (v : rvec T) (len : nat) : bool :=
    if usize_max <? vlen v + len then true (* checked_add = None *)
    else capacity v <? vlen v + len.

  (** src/vec.rs:446-452 try_push *)
  Definition try_push (x : T) : VM reserve_error unit :=
    len <- get_len ;; cap <- get_cap ;;
    (if len =? cap then try_reserve 1 else ret tt) ;;;
    std_push x.

  (** src/vec.rs:454-462 try_push_give_back *)
  Definition try_push_give_back (x : T) : VM (T * reserve_error) unit :=
    len <- get_len ;; cap <- get_cap ;;
    (if len =? cap then map_err (fun e => (x, e)) (try_reserve 1) else ret tt) ;;;
    std_push x.

  (** src/vec.rs:464-472 try_with_capacity; runs on a fresh vector *)
  Definition try_with_capacity (n : nat) (w : W) : outcome reserve_error (rvec T) * W :=
    match try_reserve n (vec_new, w) with
    | (Ret _, (v, w')) => (Ret v, w')
    | (Err e, (_, w')) => (Err e, w')
    | (Panic, (_, w')) => (Panic, w')
    | (Abort, (_, w')) => (Abort, w')
    | (UB, (_, w')) => (UB, w')
    end.

  (** src/vec.rs:474-482 try_insert *)
  Definition try_insert (index : nat) (x : T) : VM (T * reserve_error) unit :=
    len <- get_len ;; cap <- get_cap ;;
    (if len =? cap then map_err (fun e => (x, e)) (try_reserve 1) else ret tt) ;;;
    std_insert index x.

  (** std contract: Vec::append after the reservation: the elements of other
      are copied behind self's and other's length becomes 0; an infallible
      reserve comes first. *)
  Definition std_append (v o : rvec T) (w : W)
    : outcome reserve_error unit * (rvec T * rvec T * W) :=
    match reserve (E := reserve_error) (vlen o) (v, w) with
    | (Ret _, (v', w')) =>
        if (vlen v' + vlen o <=? capacity v') && all_init (vslots o) 0 (vlen o) then
          (Ret tt, (mkVec (vcap v') (vlen v' + vlen o)
                      (fun i => if i <? vlen v' then vslots v' i
                                else if i <? vlen v' + vlen o then vslots o (i - vlen v')
                                else vslots v' i),
                    mkVec (vcap o) 0 (fun _ => None), w'))
        else (UB, (v', o, w'))
    | (Err e, (v', w')) => (Err e, (v', o, w'))
    | (Panic, (v', w')) => (Panic, (v', o, w'))
    | (Abort, (v', w')) => (Abort, (v', o, w'))
    | (UB, (v', w')) => (UB, (v', o, w'))
    end.

  (** src/vec.rs:484-488 try_append *)
  Definition try_append (v o : rvec T) (w : W)
    : outcome reserve_error unit * (rvec T * rvec T * W) :=
    match try_reserve (vlen o) (v, w) with
    | (Ret _, (v', w')) => std_append v' o w'
    | (Err e, (v', w')) => (Err e, (v', o, w'))
    | (Panic, (v', w')) => (Panic, (v', o, w'))
    | (Abort, (v', w')) => (Abort, (v', o, w'))
    | (UB, (v', w')) => (UB, (v', o, w'))
    end.

  (** src/vec.rs:490-499 try_resize (T: Copy) *)
  Definition try_resize (new_len : nat) (x : T) : VM reserve_error unit :=
    len <- get_len ;;
    (if len <? new_len then try_reserve (new_len - len) else ret tt) ;;;
    std_resize new_len x.

  (** src/vec.rs:501-510 try_resize_with *)
  Definition try_resize_with (new_len : nat) (f : W -> outcome reserve_error T * W)
    : VM reserve_error unit :=
    len <- get_len ;;
    (if len <? new_len then try_reserve (new_len - len) else ret tt) ;;;
    std_resize_with new_len f.

  (** src/vec.rs:525-534 try_extend_from_slice (T: Copy) *)
  Definition try_extend_from_slice (xs : list T) : VM reserve_error unit :=
    s <- get_st ;;
    (if needs_to_grow (fst s) (length xs) then try_reserve (length xs) else ret tt) ;;;
    std_extend_from_slice xs.

  (** the element's [TryClone::try_clone]: may fail or panic *)
  Variable tclone : T -> W -> outcome reserve_error T * W.

  (** src/vec.rs:543-552: the while loop; [len] is the local variable *)
  Fixpoint extend_loop (xs : list T) (len : nat) : VM reserve_error unit :=
    match xs with
    | [] => ret tt
    | x :: xs' =>
        y <- lift (tclone x) ;;
        raw_write len y ;;;
        set_len (S len) ;;;
        extend_loop xs' (S len)
    end.

  (** src/vec.rs:536-554 try_extend_from_slice_no_copy *)
  Definition try_extend_from_slice_no_copy (xs : list T) : VM reserve_error unit :=
    s <- get_st ;;
    (if needs_to_grow (fst s) (length xs) then try_reserve (length xs) else ret tt) ;;;
    len <- get_len ;;
    extend_loop xs len.

  (** src/vec.rs:598-611: the for loop over 1..n; [k] iterations remain,
      [ptr] and [local_len] are the local variables (ptr as an index) *)
  Fixpoint extend_with_loop (k : nat) (x : T) (ptr local_len : nat)
    : VM reserve_error (nat * nat) :=
    match k with
    | 0 => ret (ptr, local_len)
    | S k' =>
        y <- lift (tclone x) ;;
        raw_write ptr y ;;;
        set_len (S local_len) ;;;
        extend_with_loop k' x (S ptr) (S local_len)
    end.

  (** src/vec.rs:584-616 try_extend_with, for the generator TryExtendElement
      (lines 562-572: next = try_clone, last = the value itself) *)
  Definition try_extend_with (n : nat) (x : T) : VM reserve_error unit :=
    s <- get_st ;;
    (if needs_to_grow (fst s) n then try_reserve n else ret tt) ;;;
    len <- get_len ;;
    p <- extend_with_loop (n - 1) x len len ;;
    (if 0 <? n then raw_write (fst p) x ;;; set_len (S (snd p)) else ret tt).

  (** src/vec.rs:635-640: the loop of Truncate::truncate; [k] elements
      remain to be dropped, [ptr] is one past the next one, [local_len] is
      the local length.  The destructor runs *before* the length is
      reduced. *)
  Fixpoint truncate_loop (k ptr local_len : nat) : VM reserve_error unit :=
    match k with
    | 0 => ret tt
    | S k' =>
        drop_slot (ptr - 1) ;;;
        set_len (local_len - 1) ;;;
        truncate_loop k' (ptr - 1) (local_len - 1)
    end.

  (** src/vec.rs:624-642 Truncate::truncate *)
  Definition truncate (n : nat) : VM reserve_error unit :=
    len <- get_len ;;
    truncate_loop (len - n) len len.

  (** src/vec.rs:512-523 try_resize_no_copy.  When growing by at least one
      element [x] is moved into the vector; the model drops no copy of it
      elsewhere. *)
  Definition try_resize_no_copy (new_len : nat) (x : T) : VM reserve_error unit :=
    len <- get_len ;;
    if len <? new_len then try_extend_with (new_len - len) x
    else truncate new_len.

  (** a fresh vector built by an operation; on failure the vector is dropped
      (its drop is not modelled further) *)
  Definition build (m : VM reserve_error unit) (w : W) : outcome reserve_error (rvec T) * W :=
    match m (vec_new, w) with
    | (Ret _, (v, w')) => (Ret v, w')
    | (Err e, (_, w')) => (Err e, w')
    | (Panic, (_, w')) => (Panic, w')
    | (Abort, (_, w')) => (Abort, w')
    | (UB, (_, w')) => (UB, w')
    end.

  (** src/vec.rs:657-664 try_from_elem, generic implementation *)
  Definition try_from_elem (x : T) (n : nat) : W -> outcome reserve_error (rvec T) * W :=
    build (try_resize_no_copy n x).

  (** src/vec.rs:666-677 try_from_elem for u8: write_bytes of n elements,
      then set_len; both must stay in the allocation *)
  Definition write_bytes (x : T) (n : nat) : VM reserve_error unit :=
    fun '(v, w) =>
      if n <=? capacity v then
        (Ret tt, (mkVec (vcap v) (vlen v) (fun i => if i <? n then Some x else vslots v i), w))
      else (UB, (v, w)).
  Definition try_from_elem_u8 (x : T) (n : nat) : W -> outcome reserve_error (rvec T) * W :=
    build (try_reserve n ;;; write_bytes x n ;;; set_len n).

  (** the elements a vector exposes as a slice; reading an uninitialised
      slot is UB, expressed as [None] *)
  Fixpoint slots_list (f : nat -> option T) (i n : nat) : option (list T) :=
    match n with
    | 0 => Some []
    | S n' => match f i, slots_list f (S i) n' with
              | Some x, Some l => Some (x :: l)
              | _, _ => None
              end
    end.
  Definition as_slice (v : rvec T) : option (list T) := slots_list (vslots v) 0 (vlen v).

  (** src/vec.rs:679-689 TryClone for Vec (and 169-174, 361-370 for TryVec,
      which does the same through TryFrom<&[T]>) *)
  Definition vec_try_clone (v : rvec T) (w : W) : outcome reserve_error (rvec T) * W :=
    match as_slice v with
    | Some l => build (try_extend_from_slice_no_copy l) w
    | None => (UB, w)
    end.

  (** src/vec.rs:695-706 try_from_iterator (712-720 try_collect).  The iterator
      is a function from its own state and the world to the next item; it may
      panic.  [fuel] bounds the number of items looked at (the result is [None]
      when it does not suffice: the loop of an infinite iterator need not end). *)
  Section Iterator.
    Variable I : Type.
    Variable next : I -> W -> outcome reserve_error (option (T * I)) * W.
    Fixpoint from_iter_loop (fuel : nat) (it : I) (s : rvec T * W)
      : option (outcome reserve_error unit * (rvec T * W)) :=
      match fuel with
      | 0 => None
      | S fuel' =>
          match lift (next it) s with
          | (Ret None, s') => Some (Ret tt, s')
          | (Ret (Some (x, it')), s') =>
              match try_push x s' with
              | (Ret _, s'') => from_iter_loop fuel' it' s''
              | r => Some r
              end
          | (Err e, s') => Some (Err e, s')
          | (Panic, s') => Some (Panic, s')
          | (Abort, s') => Some (Abort, s')
          | (UB, s') => Some (UB, s')
          end
      end.
    Definition try_from_iterator (fuel : nat) (it : I) (w : W)
      : option (outcome reserve_error (rvec T) * W) :=
      match from_iter_loop fuel it (vec_new, w) with
      | Some (Ret _, (v, w')) => Some (Ret v, w')
      | Some (Err e, (_, w')) => Some (Err e, w')
      | Some (Panic, (_, w')) => Some (Panic, w')
      | Some (Abort, (_, w')) => Some (Abort, w')
      | Some (UB, (_, w')) => Some (UB, w')
      | None => None
      end.
  End Iterator.

  (** src/vec.rs:176-184 TryVec<TryVec<T>>::concat.  [sum] of usize panics on
      overflow in a debug build ([checked = true]) and wraps in a release
      build. *)
  Definition usize_sum (checked : bool) (ns : list nat) : option nat :=
    let total := fold_right plus 0 ns in
    if usize_max <? total
    then if checked then None else Some (total mod (S usize_max))
    else Some total.
  Fixpoint concat_loop (vs : list (rvec T)) : VM reserve_error unit :=
    match vs with
    | [] => ret tt
    | v :: vs' => match as_slice v with
                  | Some l => try_extend_from_slice_no_copy l ;;; concat_loop vs'
                  | None => ub
                  end
    end.
  Definition concat (checked : bool) (vs : list (rvec T)) (w : W)
    : outcome reserve_error (rvec T) * W :=
    match usize_sum checked (map (@vlen T) vs) with
    | None => (Panic, w)
    | Some size =>
        build (try_reserve size ;;; concat_loop vs) w
    end.
  End Elem.
End Vec.
