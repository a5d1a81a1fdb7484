(** * VecHistorySpec: what a program over vectors may do, said about plain lists

    The abstract state is a table of plain lists and the world.  Each
    operation is a relation between the state before, the outcome and the
    state after; the only freedom it leaves is how the allocator is used:
    whether it was asked at all, and how it answered. *)
From Coq Require Import List Arith Lia Bool.
Import ListNotations.
From Verif Require Import Base VecModel VecSpec VecHistoryModel.
Set Implicit Arguments.

Section Spec.
  Variable W : Type.
  Variable alloc : nat -> W -> answer * W.
  Variable isize_max : nat.
  Variable T : Type.
  Variable sz : nat.
  Variable tdrop : T -> W -> outcome reserve_error unit * W.
  Variable tclone : T -> W -> outcome reserve_error T * W.

  (** [k] elements of the type fit into an allocation at all *)
  Definition fits (k : nat) : Prop := k <= usize_max isize_max /\ k * sz <= isize_max.

  (** There is room for [k] elements: nothing was asked for, or the allocator
      granted [k] elements' worth of bytes. *)
  Definition granted (k : nat) (w w' : W) : Prop :=
    fits k /\ (w' = w \/ exists extra, alloc (k * sz) w = (Grant extra, w')).

  (** There is no room for [k] elements, and the reason reported is [e]: they
      do not fit into any allocation, or memory for them was asked for and
      refused with [e] (std's amortised growth may ask for more than the bytes
      shown here, see VecModel.try_reserve). *)
  Definition denied (k : nat) (e : reserve_error) (w w' : W) : Prop :=
    (~ fits k /\ e = CapacityOverflow /\ w' = w) \/
    (fits k /\ alloc (k * sz) w = (Refuse e, w')).

  (** A call has come to the end [o], and the values [xs] go out of scope, in
      this order: their destructors run.  A panic of one of them replaces the
      end, two panics abort. *)
  Definition ending {E A} (o : outcome E A) (xs : list T) (w : W) : outcome E A * W :=
    match o with
    | Ret _ | Err _ => match drop_glue tdrop false xs w with
                       | (Ret _, w') => (o, w')
                       | (Panic, w') => (Panic, w')
                       | (_, w') => (Abort, w')
                       end
    | Panic => match drop_glue tdrop true xs w with
               | (Panic, w') => (Panic, w')
               | (_, w') => (Abort, w')
               end
    | _ => (o, w)
    end.

  (** What happens to one vector: its elements and the world before, how the
      call ended, its elements and the world after. *)
  Definition action := list T -> W -> outcome reserve_error unit -> list T -> W -> Prop.

  Inductive a_reserve (n : nat) : action :=
  | reserve_yes l w w' : granted (length l + n) w w' -> a_reserve n l w (Ret tt) l w'
  | reserve_no l w e w' : denied (length l + n) e w w' -> a_reserve n l w (Err e) l w'.

  (** the argument is dropped when it cannot be pushed *)
  Inductive a_push (x : T) : action :=
  | push_yes l w w' : granted (length l + 1) w w' -> a_push x l w (Ret tt) (l ++ [x]) w'
  | push_no l w e w1 o w' :
      denied (length l + 1) e w w1 -> ending (Err e) [x] w1 = (o, w') -> a_push x l w o l w'.

  (** the new elements are those the closure returned, up to where it panicked *)
  Inductive a_resize_with (n : nat) (f : W -> outcome reserve_error T * W) : action :=
  | resize_with_yes l w w1 ys o w' :
      length l < n -> granted n w w1 -> calls f (n - length l) w1 = (ys, o, w') ->
      a_resize_with n f l w o (l ++ ys) w'
  | resize_with_no l w e w' :
      length l < n -> denied n e w w' -> a_resize_with n f l w (Err e) l w'
  | resize_with_cut l w o w' :
      n <= length l -> ending (Ret tt) (skipn n l) w = (o, w') ->
      a_resize_with n f l w o (firstn n l) w'.

  (** the new elements are clones of [x], the last one [x] itself; when a clone
      fails or panics those made before stay *)
  Inductive a_resize_no_copy (n : nat) (x : T) : action :=
  | resize_no_copy_yes l w w1 ys w' :
      length l < n -> granted n w w1 ->
      clones tclone (repeat x (n - length l - 1)) w1 = (ys, Ret tt, w') ->
      a_resize_no_copy n x l w (Ret tt) (l ++ ys ++ [x]) w'
  | resize_no_copy_stop l w w1 ys o1 w2 o w' :
      length l < n -> granted n w w1 ->
      clones tclone (repeat x (n - length l - 1)) w1 = (ys, o1, w2) -> o1 <> Ret tt ->
      ending o1 [x] w2 = (o, w') ->
      a_resize_no_copy n x l w o (l ++ ys) w'
  | resize_no_copy_no l w e w1 o w' :
      length l < n -> denied n e w w1 -> ending (Err e) [x] w1 = (o, w') ->
      a_resize_no_copy n x l w o l w'
  | resize_no_copy_cut l w w1 o w' :
      n <= length l -> drops tdrop (rev (skipn n l)) w = (Ret tt, w1) ->
      ending (Ret tt) [x] w1 = (o, w') ->
      a_resize_no_copy n x l w o (firstn n l) w'.

  Inductive a_extend_no_copy (xs : list T) : action :=
  | extend_no_copy_yes l w w1 ys o w' :
      granted (length l + length xs) w w1 -> clones tclone xs w1 = (ys, o, w') ->
      a_extend_no_copy xs l w o (l ++ ys) w'
  | extend_no_copy_no l w e w' :
      denied (length l + length xs) e w w' -> a_extend_no_copy xs l w (Err e) l w'.

  (** at most [n] times: the iterator is asked and what it returns is pushed *)
  Inductive a_collect (f : W -> outcome reserve_error (option T) * W) : nat -> action :=
  | collect_done l w : a_collect f 0 l w (Ret tt) l w
  | collect_end n l w w' : f w = (Ret None, w') -> a_collect f (S n) l w (Ret tt) l w'
  | collect_panic n l w w' : f w = (Panic, w') -> a_collect f (S n) l w Panic l w'
  | collect_next n l w x w1 l1 w2 o l' w' :
      f w = (Ret (Some x), w1) -> a_push x l w1 (Ret tt) l1 w2 -> a_collect f n l1 w2 o l' w' ->
      a_collect f (S n) l w o l' w'
  | collect_stop n l w x w1 o l' w' :
      f w = (Ret (Some x), w1) -> a_push x l w1 o l' w' -> o <> Ret tt ->
      a_collect f (S n) l w o l' w'.

  (** one list after the other is cloned to the end *)
  Inductive a_extends : list (list T) -> action :=
  | extends_done l w : a_extends [] l w (Ret tt) l w
  | extends_next xs ls l w l1 w1 o l' w' :
      a_extend_no_copy xs l w (Ret tt) l1 w1 -> a_extends ls l1 w1 o l' w' -> a_extends (xs :: ls) l w o l' w'
  | extends_stop xs ls l w o l' w' :
      a_extend_no_copy xs l w o l' w' -> o <> Ret tt -> a_extends (xs :: ls) l w o l' w'.

  (** Room for everything is made first (only when the total length does not
      fit into usize - possible for zero-sized elements alone - it is not
      the total; a debug build panics then). *)
  Inductive a_concat (checked : bool) (ls : list (list T)) : action :=
  | concat_yes n l w l1 w1 o l' w' :
      (length (List.concat ls) <= usize_max isize_max -> n = length (List.concat ls)) ->
      (checked = true -> length (List.concat ls) <= usize_max isize_max) ->
      a_reserve n l w (Ret tt) l1 w1 -> a_extends ls l1 w1 o l' w' -> a_concat checked ls l w o l' w'
  | concat_no n l w e l' w' :
      (length (List.concat ls) <= usize_max isize_max -> n = length (List.concat ls)) ->
      a_reserve n l w (Err e) l' w' -> a_concat checked ls l w (Err e) l' w'
  | concat_overflow l w :
      checked = true -> usize_max isize_max < length (List.concat ls) -> a_concat checked ls l w Panic l w.

  Inductive a_clear : action :=
  | clear_all l w o w' : ending (Ret tt) l w = (o, w') -> a_clear l w o [] w'.

  Inductive a_set (i : nat) (x : T) : action :=
  | set_in l1 y l2 w o w' :
      length l1 = i -> ending (Ret tt) [y] w = (o, w') ->
      a_set i x (l1 ++ y :: l2) w o (l1 ++ x :: l2) w'
  | set_out l w o w' :
      length l <= i -> ending Panic [x] w = (o, w') -> a_set i x l w o l w'.

  Inductive a_resize (n : nat) (x : T) : action :=
  | resize_grow l w w' :
      length l < n -> granted n w w' -> a_resize n x l w (Ret tt) (l ++ repeat x (n - length l)) w'
  | resize_no l w e w' :
      length l < n -> denied n e w w' -> a_resize n x l w (Err e) l w'
  | resize_cut l w o w' :
      n <= length l -> ending (Ret tt) (skipn n l) w = (o, w') ->
      a_resize n x l w o (firstn n l) w'.

  Inductive a_extend (xs : list T) : action :=
  | extend_yes l w w' :
      granted (length l + length xs) w w' -> a_extend xs l w (Ret tt) (l ++ xs) w'
  | extend_no l w e w' :
      denied (length l + length xs) e w w' -> a_extend xs l w (Err e) l w'.

  (** how the caller sees the end of a call *)
  Definition told (o : outcome reserve_error unit) : outcome (verr T) (vres T) :=
    match o with
    | Ret _ => Ret RUnit
    | Err e => Err (None, e)
    | Panic => Panic
    | Abort => Abort
    | UB => UB
    end.

  (** The action a call has on its vector *)
  Definition acts (c : vop W T) : option (nat * action) :=
    match c with
    | VReserve r n => Some (r, a_reserve n)
    | VPush r x => Some (r, a_push x)
    | VResizeWith r n f => Some (r, a_resize_with n f)
    | VResizeNoCopy r n x => Some (r, a_resize_no_copy n x)
    | VExtendNoCopy r xs => Some (r, a_extend_no_copy xs)
    | VClear r => Some (r, a_clear)
    | VSet r i x => Some (r, a_set i x)
    | VResize r n x => Some (r, a_resize n x)
    | VExtend r xs => Some (r, a_extend xs)
    | _ => None
    end.

  (** The calls that make a new vector and put it in place of an old one: the
      action by which the new one comes about, starting from the empty list *)
  Definition makes (c : vop W T) (S : nat -> list T) : option (nat * action) :=
    match c with
    | VNew r => Some (r, fun l w o l' w' => o = Ret tt /\ l' = l /\ w' = w)
    | VWithCapacity r n => Some (r, a_reserve n)
    | VFromElem r x n => Some (r, a_resize_no_copy n x)
    | VTryClone r t => Some (r, a_extend_no_copy (S t))
    | VCollect r n f => Some (r, a_collect f n)
    | VConcat r checked ts => Some (r, a_concat checked (map S ts))
    | _ => None
    end.

  (** One call: state and world before, outcome, state and world after. *)
  Inductive vspec : vop W T -> (nat -> list T) -> W ->
                    outcome (verr T) (vres T) -> (nat -> list T) -> W -> Prop :=
  | on_vector c r (a : action) S w o l' w' :
      acts c = Some (r, a) -> a (S r) w o l' w' ->
      vspec c S w (told o) (upd S r l') w'
  (** the new vector is complete: it replaces the old one, which is dropped *)
  | made c r (a : action) S w l' w1 o w' :
      makes c S = Some (r, a) -> a [] w (Ret tt) l' w1 ->
      ending (Ret RUnit) (S r) w1 = (o, w') ->
      vspec c S w o (upd S r l') w'
  (** it is not: what there is of it is dropped *)
  | not_made c r (a : action) S w o1 l' w1 o w' :
      makes c S = Some (r, a) -> a [] w o1 l' w1 -> o1 <> Ret tt ->
      ending (told o1) l' w1 = (o, w') ->
      vspec c S w o S w'
  | give_back_yes r x S w w' :
      granted (length (S r) + 1) w w' ->
      vspec (VPushGiveBack r x) S w (Ret RUnit) (upd S r (S r ++ [x])) w'
  | give_back_no r x S w e w' :
      denied (length (S r) + 1) e w w' ->
      vspec (VPushGiveBack r x) S w (Err (Some x, e)) S w'
  | insert_yes r i x S w w' :
      i <= length (S r) -> granted (length (S r) + 1) w w' ->
      vspec (VInsert r i x) S w (Ret RUnit) (upd S r (list_insert i x (S r))) w'
  | insert_no r i x S w e w' :
      denied (length (S r) + 1) e w w' ->
      vspec (VInsert r i x) S w (Err (Some x, e)) S w'
  | insert_out r i x S w w1 o w' :
      length (S r) < i -> granted (length (S r) + 1) w w1 -> ending Panic [x] w1 = (o, w') ->
      vspec (VInsert r i x) S w o S w'
  | append_yes r t S w w' :
      r <> t -> granted (length (S r) + length (S t)) w w' ->
      vspec (VAppend r t) S w (Ret RUnit) (upd (upd S r (S r ++ S t)) t []) w'
  | append_no r t S w e w' :
      r <> t -> denied (length (S r) + length (S t)) e w w' ->
      vspec (VAppend r t) S w (Err (None, e)) S w'
  | append_self r S w : vspec (VAppend r r) S w (Ret RUnit) S w
  | pop_none r S w : S r = [] -> vspec (VPop r) S w (Ret (ROpt None)) S w
  | pop_some r S w l x : S r = l ++ [x] -> vspec (VPop r) S w (Ret (ROpt (Some x))) (upd S r l) w
  | slice r S w : vspec (VSlice r) S w (Ret (RList (S r))) S w.

  (** The one call after which nothing is promised: shrinking with
      try_resize_no_copy while a destructor of a removed element panics (what
      goes wrong then is the subject of C06). *)
  Definition breaks (c : vop W T) (S : nat -> list T) (w : W) : Prop :=
    match c with
    | VResizeNoCopy r n x => n <= length (S r) /\ fst (drops tdrop (rev (skipn n (S r))) w) = Panic
    | _ => False
    end.

  (** A program: the outcomes of its calls, and at the end the lists in the
      table ([None] if it ended early, by an abort, or broke). *)
  Inductive vhistory : list (vop W T) -> (nat -> list T) -> W ->
                       list (outcome (verr T) (vres T)) -> option (nat -> list T) -> W -> Prop :=
  | v_done S w : vhistory [] S w [] (Some S) w
  | v_step c cs S w o S1 w1 os R w' :
      vspec c S w o S1 w1 -> o <> Abort -> vhistory cs S1 w1 os R w' ->
      vhistory (c :: cs) S w (o :: os) R w'
  | v_abort c cs S w S1 w' : vspec c S w Abort S1 w' -> vhistory (c :: cs) S w [Abort] None w'
  | v_break c cs S w os w' : breaks c S w -> vhistory (c :: cs) S w os None w'.

  (** closures return or panic *)
  Definition vop_ok (c : vop W T) : Prop :=
    match c with
    | VResizeWith r n f => closure_ok f
    | VCollect r n f => closure_ok f
    | _ => True
    end.
End Spec.
