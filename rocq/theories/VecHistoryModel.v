(** * VecHistoryModel: programs over several vectors (src/vec.rs)

    A program is a list of calls of the public operations of [FallibleVec]
    and [TryVec] on numbered vectors.  The state is the table of vectors and
    the world.  Unlike in VecModel, what happens to values that are *not* put
    into a vector is modelled too: an argument dropped because the call
    failed, the old vector dropped by an assignment, a partly built vector
    dropped on the way out, with the panics all of these can cause. *)
From Coq Require Import List Arith Lia Bool.
Import ListNotations.
From Verif Require Import Base VecModel.
Set Implicit Arguments.

Section Ops.
  Variables (W T : Type).
  (** The calls.  [r], [t] are numbers of vectors. *)
  Inductive vop :=
  | VNew (r : nat)                       (* r = Vec::new() *)
  | VWithCapacity (r n : nat)            (* r = try_with_capacity(n)? *)
  | VReserve (r n : nat)                 (* r.try_reserve(n) *)
  | VPush (r : nat) (x : T)              (* r.try_push(x) *)
  | VPushGiveBack (r : nat) (x : T)      (* r.try_push_give_back(x) *)
  | VInsert (r i : nat) (x : T)          (* r.try_insert(i, x) *)
  | VAppend (r t : nat)                  (* r.try_append(&mut t) *)
  | VResizeWith (r n : nat) (f : W -> outcome reserve_error T * W)
                                         (* r.try_resize_with(n, f) *)
  | VResizeNoCopy (r n : nat) (x : T)    (* r.try_resize_no_copy(n, x) *)
  | VExtendNoCopy (r : nat) (xs : list T) (* r.try_extend_from_slice_no_copy(xs) *)
  | VPop (r : nat)                       (* r.pop() *)
  | VClear (r : nat)                     (* r.clear() *)
  | VFromElem (r : nat) (x : T) (n : nat) (* r = try_vec![x; n]? *)
  | VTryClone (r t : nat)                (* r = t.try_clone()? *)
  | VCollect (r n : nat) (f : W -> outcome reserve_error (option T) * W)
                                         (* r = f.take(n).try_collect()?, f an iterator with its state in the world *)
  | VConcat (r : nat) (checked : bool) (ts : list nat)
                                         (* r = TryVec of the vectors ts .concat()? *)
  | VSlice (r : nat)                     (* reading r as a slice / by iteration *)
  | VSet (r i : nat) (x : T)             (* r[i] = x *)
  | VResize (r n : nat) (x : T)          (* r.try_resize(n, x), T: Copy *)
  | VExtend (r : nat) (xs : list T).     (* r.try_extend_from_slice(xs), T: Copy *)

  (** what a call returns, and its error: the value given back, if any *)
  Inductive vres := RUnit | ROpt (x : option T) | RList (l : list T).
  Definition verr : Type := option T * reserve_error.
End Ops.
Arguments VNew {W T}. Arguments VWithCapacity {W T}. Arguments VReserve {W T}.
Arguments VPush {W T}. Arguments VPushGiveBack {W T}. Arguments VInsert {W T}.
Arguments VAppend {W T}. Arguments VResizeWith {W T}. Arguments VResizeNoCopy {W T}.
Arguments VExtendNoCopy {W T}. Arguments VPop {W T}. Arguments VClear {W T}.
Arguments VFromElem {W T}. Arguments VTryClone {W T}. Arguments VCollect {W T}. Arguments VConcat {W T}.
Arguments VSlice {W T}. Arguments VSet {W T}. Arguments VResize {W T}. Arguments VExtend {W T}.
Arguments RUnit {T}. Arguments ROpt {T}. Arguments RList {T}.

Section History.
  Variable W : Type.
  Variable alloc : nat -> W -> answer * W.
  Variable isize_max : nat.
  Variable T : Type.
  Variable sz : nat.
  (** the destructor and the [TryClone::try_clone] of the element type *)
  Variable tdrop : T -> W -> outcome reserve_error unit * W.
  Variable tclone : T -> W -> outcome reserve_error T * W.

  Notation VM := (VM W T).

  Notation vop := (vop W T).
  Notation vres := (vres T).
  Notation verr := (verr T).

  (** Running a destructor while not unwinding ([unw = false]) or while
      unwinding ([unw = true]): a second panic aborts the process. *)
  Definition drop_one (unw : bool) (x : T) : VM reserve_error unit :=
    fun s => match lift (tdrop x) s with
             | (Ret _, s') => (if unw then Panic else Ret tt, s')
             | (Panic, s') => (if unw then Abort else Panic, s')
             | r => r
             end.

  (** Leaving a scope that owns something: [d] is its drop glue, run after
      the body [m] returned, failed or panicked. *)
  Definition leaving {S E A} (d : bool -> M S reserve_error unit) (m : M S E A) : M S E A :=
    fun s => match m s with
             | (Ret a, s') => match d false s' with
                              | (Ret _, s'') => (Ret a, s'')
                              | (Panic, s'') => (Panic, s'')
                              | (Abort, s'') => (Abort, s'')
                              | (_, s'') => (UB, s'')
                              end
             | (Err e, s') => match d false s' with
                              | (Ret _, s'') => (Err e, s'')
                              | (Panic, s'') => (Panic, s'')
                              | (Abort, s'') => (Abort, s'')
                              | (_, s'') => (UB, s'')
                              end
             | (Panic, s') => match d true s' with
                              | (Panic, s'') => (Panic, s'')
                              | (Abort, s'') => (Abort, s'')
                              | (_, s'') => (UB, s'')
                              end
             | (Abort, s') => (Abort, s')
             | (UB, s') => (UB, s')
             end.

  (** The same for a value that is moved away on success. *)
  Definition leaving_unless {S E A} (d : bool -> M S reserve_error unit) (m : M S E A) : M S E A :=
    fun s => match m s with
             | (Ret a, s') => (Ret a, s')
             | (o, s') => leaving d (fun _ => (o, s')) s
             end.

  (** drop glue of a whole vector: std drops the elements as a slice *)
  Definition drop_all (unw : bool) : VM reserve_error unit :=
    len <- @get_len W T reserve_error ;; drop_rest tdrop unw 0 len.

  (** src/vec.rs:446-452 try_push: on failure the argument is dropped *)
  Definition h_push (x : T) : VM reserve_error unit :=
    leaving_unless (fun unw => drop_one unw x) (try_push alloc isize_max sz x).

  (** src/vec.rs:474-482 try_insert: on failure the argument is given back;
      when Vec::insert panics because the index is too large it is dropped *)
  Definition h_insert (i : nat) (x : T) : VM (T * reserve_error) unit :=
    fun s => match try_insert alloc isize_max sz i x s with
             | (Panic, s') => leaving (fun unw => drop_one unw x) (fun _ => (Panic, s')) s
             | r => r
             end.

  (** src/vec.rs:512-523 try_resize_no_copy: the value is moved into the vector
      when it grows and everything succeeds, and dropped otherwise *)
  Definition h_resize_no_copy (n : nat) (x : T) : VM reserve_error unit :=
    fun s =>
      if vlen (fst s) <? n
      then leaving_unless (fun unw => drop_one unw x)
             (try_resize_no_copy alloc isize_max sz tdrop tclone n x) s
      else leaving (fun unw => drop_one unw x)
             (try_resize_no_copy alloc isize_max sz tdrop tclone n x) s.

  (** src/vec.rs:695-706 try_from_iterator for the iterator [f.take(n)]: the
      loop after the vector was created.  [f] is Iterator::next; Take does not
      call it again after [n] items, nor the loop after a [None]. *)
  Fixpoint collect_loop (n : nat) (f : W -> outcome reserve_error (option T) * W) : VM reserve_error unit :=
    match n with
    | 0 => ret tt
    | S n' => x <- lift f ;;
              match x with
              | None => ret tt
              | Some x => h_push x ;;; collect_loop n' f
              end
    end.

  (** src/vec.rs:176-184 concat: the part after the vector was created, and the
      sum before it (an overflow panics in a debug build) *)
  Definition h_concat (checked : bool) (vs : list (rvec T)) : VM reserve_error unit :=
    match usize_sum isize_max checked (map (@vlen T) vs) with
    | None => panic
    | Some size => try_reserve alloc isize_max sz size ;;; concat_loop alloc isize_max sz tclone vs
    end.

  (** A vector being built by [m]: it starts empty, and if [m] does not
      succeed it is dropped (src/vec.rs:464-472, 657-664, 679-689, 695-706:
      the [?] in the middle of each). *)
  Definition h_build (m : VM reserve_error unit) (w : W) : outcome reserve_error (rvec T) * W :=
    match leaving_unless drop_all m (vec_new T, w) with
    | (Ret _, (v, w')) => (Ret v, w')
    | (Err e, (_, w')) => (Err e, w')
    | (Panic, (_, w')) => (Panic, w')
    | (Abort, (_, w')) => (Abort, w')
    | (UB, (_, w')) => (UB, w')
    end.

  Definition vregs := nat -> rvec T.

  (** an operation on one vector of the table *)
  Definition on {E A} (r : nat) (m : VM E A) : M (vregs * W) E A :=
    fun '(g, w) => let '(o, (v, w')) := m (g r, w) in (o, (upd g r v, w')).

  (** [r = v]: the old vector is dropped; the new one is in place even if
      that panics *)
  Definition assign (r : nat) (v : rvec T) : M (vregs * W) reserve_error unit :=
    fun '(g, w) => let '(o, (_, w')) := drop_all false (g r, w) in (o, (upd g r v, w')).

  (** [r = build?] *)
  Definition assign_built (r : nat) (b : W -> outcome reserve_error (rvec T) * W)
    : M (vregs * W) reserve_error unit :=
    fun '(g, w) => match b w with
                   | (Ret v, w') => assign r v (g, w')
                   | (Err e, w') => (Err e, (g, w'))
                   | (Panic, w') => (Panic, (g, w'))
                   | (Abort, w') => (Abort, (g, w'))
                   | (UB, w') => (UB, (g, w'))
                   end.

  (** src/vec.rs:484-488 on two different vectors of the table; a vector
      cannot be appended to itself (two mutable borrows): no call happens *)
  Definition h_append (r t : nat) : M (vregs * W) reserve_error unit :=
    fun '(g, w) =>
      if r =? t then (Ret tt, (g, w)) else
      let '(o, (v, v', w')) := try_append alloc isize_max sz (g r) (g t) w in
      (o, (upd (upd g r v) t v', w')).

  (** src/vec.rs:392-396 DerefMut, then slice indexing: the old value is
      dropped, the new one is in place even if that panics; an index out of
      range panics and the new value is dropped *)
  Definition h_set (i : nat) (x : T) : VM reserve_error unit :=
    fun '(v, w) =>
      if i <? vlen v then
        match vslots v i with
        | Some y => let '(o, (v', w')) := drop_one false y (v, w) in
                    (o, (mkVec (vcap v') (vlen v') (upd (vslots v') i (Some x)), w'))
        | None => (UB, (v, w))
        end
      else leaving (fun unw => drop_one unw x) panic (v, w).

  Definition h_slice : VM reserve_error (list T) :=
    fun s => match as_slice (fst s) with
             | Some l => (Ret l, s)
             | None => (UB, s)
             end.

  Definition res {S E A} (k : A -> vres) (j : E -> verr) (m : M S E A) : M S verr vres :=
    a <- map_err j m ;; ret (k a).
  Definition plain (e : reserve_error) : verr := (None, e).
  Definition given_back (e : T * reserve_error) : verr := (Some (fst e), snd e).
  Definition runit (_ : unit) : vres := RUnit.

  (** one call *)
  Definition vstep (c : vop) : M (vregs * W) verr vres :=
    match c with
    | VNew r => res runit plain (assign r (vec_new T))
    | VWithCapacity r n => res runit plain (assign_built r (h_build (try_reserve alloc isize_max sz n)))
    | VReserve r n => res runit plain (on r (try_reserve alloc isize_max sz n))
    | VPush r x => res runit plain (on r (h_push x))
    | VPushGiveBack r x => res runit given_back (on r (try_push_give_back alloc isize_max sz x))
    | VInsert r i x => res runit given_back (on r (h_insert i x))
    | VAppend r t => res runit plain (h_append r t)
    | VResizeWith r n f => res runit plain (on r (try_resize_with alloc isize_max sz tdrop n f))
    | VResizeNoCopy r n x => res runit plain (on r (h_resize_no_copy n x))
    | VExtendNoCopy r xs => res runit plain (on r (try_extend_from_slice_no_copy alloc isize_max sz tclone xs))
    | VPop r => res ROpt plain (on r (pop isize_max sz))
    | VClear r => res runit plain (on r (clear isize_max sz tdrop))
    | VFromElem r x n => res runit plain (assign_built r (h_build (h_resize_no_copy n x)))
    | VTryClone r t => fun '(g, w) =>
        match as_slice (g t) with
        | Some l => res runit plain (assign_built r (h_build (try_extend_from_slice_no_copy alloc isize_max sz tclone l))) (g, w)
        | None => (UB, (g, w))
        end
    | VCollect r n f => res runit plain (assign_built r (h_build (collect_loop n f)))
    | VConcat r checked ts => fun '(g, w) => res runit plain (assign_built r (h_build (h_concat checked (map g ts)))) (g, w)
    | VSlice r => res RList plain (on r h_slice)
    | VSet r i x => res runit plain (on r (h_set i x))
    | VResize r n x => res runit plain (on r (try_resize alloc isize_max sz tdrop n x))
    | VExtend r xs => res runit plain (on r (try_extend_from_slice alloc isize_max sz xs))
    end.

  (** A program: errors are handled by the caller and panics caught, so it
      goes on after either; an abort or undefined behaviour ends it.  The
      result is the list of outcomes and the final state. *)
  Fixpoint vrun (cs : list vop) (s : vregs * W) : list (outcome verr vres) * (vregs * W) :=
    match cs with
    | [] => ([], s)
    | c :: cs' =>
        match vstep c s with
        | (Abort, s') => ([Abort], s')
        | (UB, s') => ([UB], s')
        | (o, s') => let '(os, s'') := vrun cs' s' in (o :: os, s'')
        end
    end.
End History.
