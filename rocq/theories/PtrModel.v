(** * PtrModel: programs over Box/TryBox, Rc and Arc on memory blocks
    (src/boxed.rs, src/rc.rs, src/arc.rs).

    MiscModel says which value a pointer owns.  Here the blocks behind the
    pointers are kept: their addresses, the sizes they were allocated with,
    whether their value is still there, and the reference counts.  A read of a
    block that is not there or was emptied, and a release with another size than
    that of the allocation, are undefined behaviour. *)
From Coq Require Import List Arith Lia Bool.
Import ListNotations.
From Verif Require Import Base VecModel.
Set Implicit Arguments.

(** [psize]: the bytes the block was allocated with; [pval]: its value, unless it was moved out;
    [pcount]: the strong count of an RcBox / ArcInner (0 in the block of a Box) *)
Record block (T : Type) := Block { psize : nat; pval : option T; pcount : nat }.
(** an address with a block behind it *)
Definition pheap (T : Type) := list (nat * block T).

Section Heap.
  Variable T : Type.
  Fixpoint pget (hp : pheap T) (l : nat) : option (block T) :=
    match hp with
    | [] => None
    | (l', b) :: hp' => if l =? l' then Some b else pget hp' l
    end.
  Fixpoint pfree (hp : pheap T) (l : nat) : pheap T :=
    match hp with
    | [] => []
    | (l', b) :: hp' => if l =? l' then hp' else (l', b) :: pfree hp' l
    end.
  Fixpoint pput (hp : pheap T) (l : nat) (x : block T) : pheap T :=
    match hp with
    | [] => []
    | (l', b) :: hp' => if l =? l' then (l', x) :: hp' else (l', b) :: pput hp' l x
    end.
End Heap.

(** A Box or a raw pointer: the address of its block.  For a zero-sized type no
    block exists and the pointer dangles (NonNull::dangling); its value, which
    has no bytes, is kept with the pointer so that the model can say which it is. *)
Inductive ptr (T : Type) := Dangling (x : T) | At (l : nat).
Arguments Dangling {T} x. Arguments At {T} l.

(** What a variable holds: nothing (moved out or dropped), a Box or TryBox, an Rc or Arc *)
Inductive slot (T : Type) := Void | Boxed (p : ptr T) | Counted (l : nat).
Arguments Void {T}. Arguments Boxed {T} p. Arguments Counted {T} l.

(** The calls.  [r], [s] are variables; assigning to a variable drops what it
    held before.  A call on a variable that does not hold what the call needs
    does not type check in Rust; here it does nothing. *)
Inductive pop (T : Type) :=
| BoxNew (r : nat) (t : T)        (* r = Box::try_new(t)?  or  TryBox::try_new(t)? *)
| BoxClone (r s : nat)            (* s = r.try_clone()? *)
| Deref_ (r : nat)                (* *r *)
| BoxSet (r : nat) (t : T)        (* *r = t, for a Box *)
| Unbox (r : nat)                 (* let x = *r, moving out of a Box *)
| IntoRaw (r : nat)               (* raws.push(TryBox::into_raw(r)) *)
| RawRead (i : nat)               (* *raws[i] *)
| FromRaw (i r : nat)             (* r = TryBox::from_raw(raws.remove(i)) *)
| RcNew (r : nat) (t : T)         (* r = Rc::try_new(t)?  or, without "unstable", Arc::try_new(t)? *)
| ArcNew (r : nat) (t : T)        (* r = Arc::try_new(t)? with the feature "unstable" *)
| CountedClone (r s : nat)        (* s = r.try_clone()?  of an Arc; r.clone() of an Rc *)
| Release (r : nat).              (* drop(r) *)
Arguments Deref_ {T}. Arguments BoxClone {T}. Arguments Unbox {T}. Arguments IntoRaw {T}. Arguments RawRead {T}.
Arguments FromRaw {T}. Arguments CountedClone {T}. Arguments Release {T}.

(** what a call returns: nothing, a look at a value, a value *)
Inductive pobs (T : Type) := PUnit | PSeen (x : option T) | PMoved (x : option T).
Arguments PUnit {T}.

(** what happens to values on the way: one is dropped, one is made by cloning *)
Inductive pevent (T : Type) := PDrop (x : T) | PMade (x : T).

(** the variables and the raw pointers that have not been turned back into boxes *)
Record pvars (T : Type) := PVars { regs : nat -> slot T; raws : list (ptr T) }.

Section Ptr.
  Variables (T W : Type).
  Variable alloc : nat -> W -> answer * W.
  Variable place : pheap T -> W -> nat.
  Variables (isize_max usize_bytes sz : nat).
  (** TryClone of the values, and their destructor: arbitrary effects *)
  Variable tclone : T -> W -> outcome reserve_error T * W.
  Variable tdrop : T -> W -> W.
  Notation heap := (pheap T).
  (** bytes of an RcBox / ArcInner *)
  Definition counted_size : nat := sz + 2 * usize_bytes.

  (** the results below: outcome, memory, world, what happened to values *)
  (** boxed.rs 66-74: the Vec with capacity for one, the push, into_boxed_slice
      (a reallocation that cannot be reported if the reservation was not exact;
      the block may move), Box::from_raw.  Since [?] returns before the push, the
      value is dropped with the call's arguments *)
  Definition pbox_new (t : T) (hp : heap) (w : W) : outcome reserve_error (ptr T) * heap * W * list (pevent T) :=
    if sz =? 0 then (Ret (Dangling t), hp, w, [])
    else if isize_max <? sz then (Err CapacityOverflow, hp, tdrop t w, [PDrop t])
    else match alloc sz w with
         | (Refuse e, w1) => (Err e, hp, tdrop t w1, [PDrop t])
         | (Grant extra, w1) =>
             let l := place hp w1 in
             let hp1 := (l, Block ((1 + extra) * sz) (Some t) 0) :: hp in
             if extra =? 0 then (Ret (At l), hp1, w1, [])
             else match alloc sz w1 with
                  | (Refuse _, w2) => (Abort, hp1, w2, [])
                  | (Grant _, w2) =>
                      let hp2 := pfree hp1 l in
                      let l2 := place hp2 w2 in
                      (Ret (At l2), (l2, Block sz (Some t) 0) :: hp2, w2, [])
                  end
         end.
  (** drop glue of Box<T>: the value, then the block, as one of [sz] bytes *)
  Definition pbox_drop (p : ptr T) (hp : heap) (w : W) : option (heap * W * list (pevent T)) :=
    match p with
    | Dangling x => Some (hp, tdrop x w, [PDrop x])
    | At l => match pget hp l with
              | Some (Block n (Some x) _) => if n =? sz then Some (pfree hp l, tdrop x w, [PDrop x]) else None
              | _ => None
              end
    end.
  (** a read through the pointer *)
  Definition pread (p : ptr T) (hp : heap) : option T :=
    match p with
    | Dangling x => Some x
    | At l => match pget hp l with Some b => pval b | None => None end
    end.
  (** moving the value out of a box: read, then the block is freed without dropping *)
  Definition punbox (p : ptr T) (hp : heap) : option (T * heap) :=
    match p with
    | Dangling x => Some (x, hp)
    | At l => match pget hp l with
              | Some (Block n (Some x) _) => if n =? sz then Some (x, pfree hp l) else None
              | _ => None
              end
    end.

  (** rc.rs 25-28, arc.rs 30-35: the box, then Rc::from(box): an infallible
      allocation of the counted block, the value is moved there, the block of the box is freed *)
  Definition prc_new (t : T) (hp : heap) (w : W) : outcome reserve_error nat * heap * W * list (pevent T) :=
    match pbox_new t hp w with
    | (Ret p, hp1, w1, d) =>
        match alloc counted_size w1 with
        | (Refuse _, w2) => (Abort, hp1, w2, d)
        | (Grant _, w2) =>
            let l := place hp1 w2 in
            match punbox p ((l, Block counted_size None 1) :: hp1) with
            | Some (x, hp2) => (Ret l, pput hp2 l (Block counted_size (Some x) 1), w2, d)
            | None => (UB, hp1, w2, d)
            end
        end
    | (Err e, hp1, w1, d) => (Err e, hp1, w1, d)
    | (Panic, hp1, w1, d) => (Panic, hp1, w1, d)
    | (Abort, hp1, w1, d) => (Abort, hp1, w1, d)
    | (UB, hp1, w1, d) => (UB, hp1, w1, d)
    end.
  (** arc.rs 36-47: std's Arc::try_new, one fallible allocation *)
  Definition parc_new (t : T) (hp : heap) (w : W) : outcome reserve_error nat * heap * W * list (pevent T) :=
    match alloc counted_size w with
    | (Refuse _, w1) => (Err AllocError, hp, tdrop t w1, [PDrop t])
    | (Grant _, w1) =>
        let l := place hp w1 in (Ret l, (l, Block counted_size (Some t) 1) :: hp, w1, [])
    end.
  (** arc.rs 53-55 (Arc::clone): one more reference; the process ends past isize::MAX of them *)
  Definition pcounted_clone (l : nat) (hp : heap) : outcome reserve_error unit * heap :=
    match pget hp l with
    | Some (Block n (Some x) c) =>
        if isize_max <? c then (Abort, hp) else (Ret tt, pput hp l (Block n (Some x) (S c)))
    | _ => (UB, hp)
    end.
  (** Drop for Rc/Arc (no weak references exist here): one reference less; the last one
      drops the value and frees the block, as one of [counted_size] bytes *)
  Definition pcounted_drop (l : nat) (hp : heap) (w : W) : option (heap * W * list (pevent T)) :=
    match pget hp l with
    | Some (Block n (Some x) c) =>
        match c with
        | 0 => None
        | 1 => if n =? counted_size then Some (pfree hp l, tdrop x w, [PDrop x]) else None
        | S c' => Some (pput hp l (Block n (Some x) c'), w, [])
        end
    | _ => None
    end.
  Definition pdrop (a : slot T) (hp : heap) (w : W) : option (heap * W * list (pevent T)) :=
    match a with
    | Void => Some (hp, w, [])
    | Boxed p => pbox_drop p hp w
    | Counted l => pcounted_drop l hp w
    end.

  Notation vars := (pvars T).
  Notation result := (outcome reserve_error (pobs T) * vars * heap * W * list (pevent T))%type.
  Definition pset_ (v : vars) (r : nat) (a : slot T) : vars := PVars (upd (regs v) r a) (raws v).
  (** [r = a]: what [r] held is dropped *)
  Definition passign (v : vars) (r : nat) (a : slot T) (hp : heap) (w : W) (d : list (pevent T)) : result :=
    match pdrop (regs v r) hp w with
    | Some (hp', w', d') => (Ret PUnit, pset_ v r a, hp', w', d ++ d')
    | None => (UB, v, hp, w, d)
    end.
  Definition pfail {A} (o : outcome reserve_error A) : outcome reserve_error (pobs T) :=
    match o with Ret _ => UB | Err e => Err e | Panic => Panic | Abort => Abort | UB => UB end.
  Definition pnone (v : vars) (hp : heap) (w : W) : result := (Ret PUnit, v, hp, w, []).

  Definition pstep (c : pop T) (v : vars) (hp : heap) (w : W) : result :=
    match c with
    | BoxNew r t =>
        match pbox_new t hp w with
        | (Ret p, hp1, w1, d) => passign v r (Boxed p) hp1 w1 d
        | (o, hp1, w1, d) => (pfail o, v, hp1, w1, d)
        end
    | BoxClone r s =>   (* boxed.rs 50-53, 79-81 *)
        match regs v r with
        | Boxed p =>
            match pread p hp with
            | Some x =>
                match tclone x w with
                | (Ret y, w1) =>
                    match pbox_new y hp w1 with
                    | (Ret q, hp2, w2, d) => passign v s (Boxed q) hp2 w2 (PMade y :: d)
                    | (o, hp2, w2, d) => (pfail o, v, hp2, w2, PMade y :: d)
                    end
                | (o, w1) => (pfail o, v, hp, w1, [])
                end
            | None => (UB, v, hp, w, [])
            end
        | _ => pnone v hp w
        end
    | Deref_ r =>   (* boxed.rs 60-62; Rc and Arc alike *)
        match regs v r with
        | Boxed p => match pread p hp with Some x => (Ret (PSeen (Some x)), v, hp, w, []) | None => (UB, v, hp, w, []) end
        | Counted l => match pread (At l) hp with Some x => (Ret (PSeen (Some x)), v, hp, w, []) | None => (UB, v, hp, w, []) end
        | Void => (Ret (PSeen None), v, hp, w, [])
        end
    | BoxSet r t =>
        match regs v r with
        | Boxed (Dangling x) => (Ret PUnit, pset_ v r (Boxed (Dangling t)), hp, tdrop x w, [PDrop x])
        | Boxed (At l) =>
            match pget hp l with
            | Some (Block n (Some x) c) => (Ret PUnit, v, pput hp l (Block n (Some t) c), tdrop x w, [PDrop x])
            | _ => (UB, v, hp, w, [])
            end
        | _ => (Ret PUnit, v, hp, tdrop t w, [PDrop t])
        end
    | Unbox r =>
        match regs v r with
        | Boxed p => match punbox p hp with
                     | Some (x, hp') => (Ret (PMoved (Some x)), pset_ v r Void, hp', w, [])
                     | None => (UB, v, hp, w, [])
                     end
        | _ => (Ret (PMoved None), v, hp, w, [])
        end
    | IntoRaw r =>   (* boxed.rs 34-36 *)
        match regs v r with
        | Boxed p => (Ret PUnit, PVars (upd (regs v) r Void) (raws v ++ [p]), hp, w, [])
        | _ => pnone v hp w
        end
    | RawRead i =>
        match nth_error (raws v) i with
        | Some p => match pread p hp with Some x => (Ret (PSeen (Some x)), v, hp, w, []) | None => (UB, v, hp, w, []) end
        | None => (Ret (PSeen None), v, hp, w, [])
        end
    | FromRaw i r =>   (* boxed.rs 42-46 *)
        match nth_error (raws v) i with
        | Some p => passign (PVars (regs v) (firstn i (raws v) ++ skipn (S i) (raws v))) r (Boxed p) hp w []
        | None => pnone v hp w
        end
    | RcNew r t =>
        match prc_new t hp w with
        | (Ret l, hp1, w1, d) => passign v r (Counted l) hp1 w1 d
        | (o, hp1, w1, d) => (pfail o, v, hp1, w1, d)
        end
    | ArcNew r t =>
        match parc_new t hp w with
        | (Ret l, hp1, w1, d) => passign v r (Counted l) hp1 w1 d
        | (o, hp1, w1, d) => (pfail o, v, hp1, w1, d)
        end
    | CountedClone r s =>
        match regs v r with
        | Counted l => match pcounted_clone l hp with
                       | (Ret _, hp1) => passign v s (Counted l) hp1 w []
                       | (o, hp1) => (pfail o, v, hp1, w, [])
                       end
        | _ => pnone v hp w
        end
    | Release r => passign v r Void hp w []
    end.

  (** every step with its result, the variables, the memory and what happened to values *)
  Fixpoint prun (l : list (pop T)) (v : vars) (hp : heap) (w : W) : list (outcome reserve_error (pobs T) * vars * heap * list (pevent T)) :=
    match l with
    | [] => []
    | c :: l' =>
        let '(o, v', hp', w', d) := pstep c v hp w in
        (o, v', hp', d) :: match o with Abort | UB => [] | _ => prun l' v' hp' w' end
    end.
End Ptr.
Definition pstart (T : Type) : pvars T := PVars (fun _ => Void) [].
