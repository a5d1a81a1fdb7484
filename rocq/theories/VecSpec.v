(** * VecSpec: what a vector holds (specification vocabulary for VecModel). *)
From Coq Require Import List Arith Lia Bool.
Import ListNotations.
From Verif Require Import Base VecModel.
Set Implicit Arguments.

Section Spec.
  Variables (isize_max : nat) (T : Type) (sz : nat).

  (** [holds v l]: the vector [v] is valid and its elements are exactly [l]:
      the length is right, every slot below the length is initialised with
      the element at that place, the elements fit in the capacity, and the
      block is not larger than the machine allows. *)
  Definition holds (v : rvec T) (l : list T) : Prop :=
    vlen v = length l /\
    (forall i, i < length l -> vslots v i = nth_error l i) /\
    length l <= capacity isize_max sz v /\
    (sz <> 0 -> vcap v * sz <= isize_max).

  (** spare capacity *)
  Definition room (v : rvec T) : nat := capacity isize_max sz v - vlen v.
End Spec.

(** [l] with [x] put at position [i] (i <= length l). *)
Definition list_insert {T} (i : nat) (x : T) (l : list T) : list T :=
  firstn i l ++ x :: skipn i l.

(** [l] cut or filled to exactly [n] elements. *)
Definition list_resize {T} (n : nat) (x : T) (l : list T) : list T :=
  if length l <? n then l ++ repeat x (n - length l) else firstn n l.

(** The clones of [xs] taken in order starting in world [w]: the list of
    clones produced before the first failure (all of them if none fails),
    how it ended, and the final world. *)
Fixpoint clones {W T E} (tclone : T -> W -> outcome E T * W) (xs : list T) (w : W)
  : list T * outcome E unit * W :=
  match xs with
  | [] => ([], Ret tt, w)
  | x :: xs' =>
      match tclone x w with
      | (Ret y, w') => let '(ys, o, w'') := clones tclone xs' w' in (y :: ys, o, w'')
      | (Err e, w') => ([], Err e, w')
      | (Panic, w') => ([], Panic, w')
      | (Abort, w') => ([], Abort, w')
      | (UB, w') => ([], UB, w')
      end
  end.

(** The destructors of [xs] run in order from world [w], stopping at the
    first that does not return. *)
Fixpoint drops {W T E} (tdrop : T -> W -> outcome E unit * W) (xs : list T) (w : W)
  : outcome E unit * W :=
  match xs with
  | [] => (Ret tt, w)
  | x :: xs' => match tdrop x w with
                | (Ret _, w') => drops tdrop xs' w'
                | r => r
                end
  end.

(** The destructors of [xs] run in order from world [w] as std drops a slice:
    after a panic the others still run, a second panic aborts. *)
Fixpoint drop_glue {W T E} (tdrop : T -> W -> outcome E unit * W) (unwinding : bool) (xs : list T) (w : W)
  : outcome E unit * W :=
  match xs with
  | [] => (if unwinding then Panic else Ret tt, w)
  | x :: xs' => match tdrop x w with
                | (Ret _, w') => drop_glue tdrop unwinding xs' w'
                | (Panic, w') => if unwinding then (Abort, w') else drop_glue tdrop true xs' w'
                | r => r
                end
  end.

(** The items an iterator produces until it reports the end: [l], called in
    the world [w] and leaving the world [w'], if between two of its items the
    world moves by [between], which may depend on how many there were. *)
Inductive produces {W E T I} (next : I -> W -> outcome E (option (T * I)) * W) (between : nat -> W -> W -> Prop)
  : nat -> I -> W -> list T -> W -> Prop :=
| produces_nil n it w w' : next it w = (Ret None, w') -> produces next between n it w [] w'
| produces_cons n it w x it' w1 w2 l w' :
    next it w = (Ret (Some (x, it')), w1) -> between n w1 w2 ->
    produces next between (S n) it' w2 l w' -> produces next between n it w (x :: l) w'.
(** pushing the element number [n]: the allocator is not asked, or asked once
    and grants room for [n + 1] elements *)
Definition push_granted {W} (alloc : nat -> W -> answer * W) (sz n : nat) (w w' : W) : Prop :=
  w' = w \/ exists extra, alloc ((n + 1) * sz) w = (Grant extra, w').
(** The iterator ends after at most [n] items, whatever happens in between. *)
Fixpoint ends_within {W E T I} (next : I -> W -> outcome E (option (T * I)) * W) (n : nat) (it : I) : Prop :=
  forall w, match fst (next it w) with
            | Ret None | Panic => True
            | Ret (Some (_, it')) => match n with 0 => False | S n' => ends_within next n' it' end
            | _ => False
            end.

(** destructors that always return; destructors that return or panic *)
Definition drop_returns {W T E} (tdrop : T -> W -> outcome E unit * W) :=
  forall x w, fst (tdrop x w) = Ret tt.
Definition drop_returns_or_panics {W T E} (tdrop : T -> W -> outcome E unit * W) :=
  forall x w, fst (tdrop x w) = Ret tt \/ fst (tdrop x w) = Panic.

(** a closure [FnMut() -> T] returns or panics (it has no error branch) *)
Definition closure_ok {W T E} (f : W -> outcome E T * W) :=
  forall w, (exists x, fst (f w) = Ret x) \/ fst (f w) = Panic.

(** a [try_clone] implementation may succeed, fail or panic, but does not
    itself abort or run into undefined behaviour *)
Definition clone_ok {W T E} (tclone : T -> W -> outcome E T * W) :=
  forall x w, fst (tclone x w) <> Abort /\ fst (tclone x w) <> UB.
Definition clone_settled {W T E} (tclone : T -> W -> outcome E T * W) :=
  forall x w, settled (fst (tclone x w)).

(** the values a closure returns in [n] successive calls *)
Fixpoint calls {W T E} (f : W -> outcome E T * W) (n : nat) (w : W)
  : list T * outcome E unit * W :=
  match n with
  | 0 => ([], Ret tt, w)
  | S n' => match f w with
            | (Ret y, w') => let '(ys, o, w'') := calls f n' w' in (y :: ys, o, w'')
            | (Err e, w') => ([], Err e, w')
            | (Panic, w') => ([], Panic, w')
            | (Abort, w') => ([], Abort, w')
            | (UB, w') => ([], UB, w')
            end
  end.

(** [y] is a clone of [x]: the result of a successful [try_clone] of [x] in
    some world. *)
Definition is_clone {W T E} (tclone : T -> W -> outcome E T * W) (x y : T) : Prop :=
  exists w w', tclone x w = (Ret y, w').
