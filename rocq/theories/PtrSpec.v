(** * PtrSpec: what programs over boxes and counted pointers may observe.

    A variable holds nothing, a box with a value, or a reference to a shared
    value; [id] tells shared values apart.  Raw pointers are the values behind
    them. *)
From Coq Require Import List Arith Lia Bool.
Import ListNotations.
From Verif Require Import Base VecModel PtrModel.
Set Implicit Arguments.

Inductive handle (T : Type) := HNone | HBox (x : T) | HShared (id : nat) (x : T).
Arguments HNone {T}. Arguments HBox {T} x. Arguments HShared {T} id x.
Record owns (T : Type) := Owns { vars : nat -> handle T; raw_values : list T }.

Section Spec.
  Variables (T W : Type) (alloc : nat -> W -> answer * W) (isize_max usize_bytes sz : nat) (tclone : T -> W -> outcome reserve_error T * W).
  Notation state := (owns T).
  Notation result := (outcome reserve_error (pobs T)).

  (** ** Failures *)
  (** the one allocation of Box::try_new is refused, or no allocation can be that large *)
  Definition box_refused (e : reserve_error) : Prop :=
    sz <> 0 /\ ((isize_max < sz /\ e = CapacityOverflow) \/ exists w, fst (alloc sz w) = Refuse e).
  (** the reservation of one element gave room for more, and the allocator refused to shrink it *)
  Definition shrink_refused : Prop :=
    sz <> 0 /\ (exists w extra w', alloc sz w = (Grant (S extra), w')) /\ exists w e, fst (alloc sz w) = Refuse e.
  (** the allocation of a counted block is refused *)
  Definition counted_refused : Prop := exists w e, fst (alloc (sz + 2 * usize_bytes) w) = Refuse e.

  (** the call ends as the clone of the value did *)
  Definition ends_as (u : outcome reserve_error T) : result :=
    match u with Ret _ => Ret PUnit | Err e => Err e | Panic => Panic | Abort => Abort | UB => UB end.

  (** ** Effects *)
  Definition same (S S' : state) : Prop := (forall r, vars S' r = vars S r) /\ raw_values S' = raw_values S.
  (** variable [r] now holds [h] *)
  Definition becomes (S : state) (r : nat) (h : handle T) (S' : state) : Prop :=
    vars S' r = h /\ (forall r', r' <> r -> vars S' r' = vars S r') /\ raw_values S' = raw_values S.
  (** what is dropped when variable [r] is: the value in the box; the shared value if this is the last reference *)
  Definition drops_with (S : state) (r : nat) (d : list (pevent T)) : Prop :=
    match vars S r with
    | HNone => d = []
    | HBox x => d = [PDrop x]
    | HShared id x =>
        ((forall r' x', r' <> r -> vars S r' <> HShared id x') /\ d = [PDrop x]) \/
        ((exists r' x', r' <> r /\ vars S r' = HShared id x') /\ d = [])
    end.
  (** a new box with [t] in variable [r]; without memory [t] is dropped and nothing changes.  [before]: what happened earlier in the call *)
  Definition new_box (before : list (pevent T)) (t : T) (r : nat) (S : state) (o : result) (S' : state) (d : list (pevent T)) : Prop :=
    (o = Ret PUnit /\ becomes S r (HBox t) S' /\ exists d1, drops_with S r d1 /\ d = before ++ d1) \/
    (exists e, o = Err e /\ box_refused e /\ same S S' /\ d = before ++ [PDrop t]) \/
    (o = Abort /\ shrink_refused).
  (** a new shared value in variable [r] *)
  Definition new_shared (t : T) (r : nat) (S : state) (o : result) (S' : state) (d : list (pevent T)) : Prop :=
    o = Ret PUnit /\ drops_with S r d /\
    exists id, (forall r' x', vars S r' <> HShared id x') /\ becomes S r (HShared id t) S'.

  Definition pspec (c : pop T) (S : state) (o : result) (S' : state) (d : list (pevent T)) : Prop :=
    match c with
    | BoxNew r t => new_box [] t r S o S' d
    | BoxClone r s =>
        match vars S r with
        | HBox x =>
            (exists w y w', tclone x w = (Ret y, w') /\ new_box [PMade y] y s S o S' d) \/
            (exists w u w', tclone x w = (u, w') /\ (forall y, u <> Ret y) /\ o = ends_as u /\ same S S' /\ d = [])
        | _ => o = Ret PUnit /\ same S S' /\ d = []
        end
    | Deref_ r =>
        o = Ret (PSeen match vars S r with HNone => None | HBox x | HShared _ x => Some x end) /\ same S S' /\ d = []
    | BoxSet r t =>
        match vars S r with
        | HBox x => o = Ret PUnit /\ becomes S r (HBox t) S' /\ d = [PDrop x]
        | _ => o = Ret PUnit /\ same S S' /\ d = [PDrop t]
        end
    | Unbox r =>
        match vars S r with
        | HBox x => o = Ret (PMoved (Some x)) /\ becomes S r HNone S' /\ d = []
        | _ => o = Ret (PMoved None) /\ same S S' /\ d = []
        end
    | IntoRaw r =>
        match vars S r with
        | HBox x => o = Ret PUnit /\ vars S' r = HNone /\ (forall r', r' <> r -> vars S' r' = vars S r') /\
                    raw_values S' = raw_values S ++ [x] /\ d = []
        | _ => o = Ret PUnit /\ same S S' /\ d = []
        end
    | RawRead i => o = Ret (PSeen (nth_error (raw_values S) i)) /\ same S S' /\ d = []
    | FromRaw i r =>
        match nth_error (raw_values S) i with
        | Some x => o = Ret PUnit /\ drops_with S r d /\ vars S' r = HBox x /\ (forall r', r' <> r -> vars S' r' = vars S r') /\
                    raw_values S' = firstn i (raw_values S) ++ skipn (Datatypes.S i) (raw_values S)
        | None => o = Ret PUnit /\ same S S' /\ d = []
        end
    | RcNew r t =>
        new_shared t r S o S' d \/
        (exists e, o = Err e /\ box_refused e /\ same S S' /\ d = [PDrop t]) \/
        (o = Abort /\ (shrink_refused \/ counted_refused))
    | ArcNew r t =>
        new_shared t r S o S' d \/
        (o = Err AllocError /\ counted_refused /\ same S S' /\ d = [PDrop t])
    | CountedClone r s =>
        match vars S r with
        | HShared id x =>
            (o = Ret PUnit /\ drops_with S s d /\ becomes S s (HShared id x) S' /\ r <> s) \/
            (r = s /\ o = Ret PUnit /\ d = [] /\ same S S') \/
            (* isize::MAX + 1 references *)
            (o = Abort /\ exists l, NoDup l /\ isize_max < length l /\ forall r', In r' l -> exists x', vars S r' = HShared id x')
        | _ => o = Ret PUnit /\ same S S' /\ d = []
        end
    | Release r => o = Ret PUnit /\ drops_with S r d /\ becomes S r HNone S'
    end.

  (** ** Memory: the variables and blocks are those of the state, and no others *)
  (** how many of the variables below [n], and of the raw pointers, refer to address [l] *)
  Definition refs (f : slot T -> bool) (g : nat -> slot T) (n : nat) : nat := length (filter (fun r => f (g r)) (seq 0 n)).
  Definition is_box (l : nat) (a : slot T) : bool := match a with Boxed (At l') => l =? l' | _ => false end.
  Definition is_counted (l : nat) (a : slot T) : bool := match a with Counted l' => l =? l' | _ => false end.
  Definition is_raw (l : nat) (p : ptr T) : bool := match p with At l' => l =? l' | Dangling _ => false end.
  (** pointer [p] owns [x]: in a block of the size of the type, unless it has none *)
  Definition stores (hp : pheap T) (p : ptr T) (x : T) : Prop :=
    match p with
    | Dangling y => sz = 0 /\ y = x
    | At l => sz <> 0 /\ pget hp l = Some (Block sz (Some x) 0)
    end.
  Definition holds_ (hp : pheap T) (a : slot T) (h : handle T) : Prop :=
    match h, a with
    | HNone, Void => True
    | HBox x, Boxed p => stores hp p x
    | HShared id x, Counted l => id = l /\ exists c, pget hp l = Some (Block (sz + 2 * usize_bytes) (Some x) c)
    | _, _ => False
    end.
  Definition pmemory (S : state) (v : pvars T) (hp : pheap T) : Prop :=
    (forall r, holds_ hp (regs v r) (vars S r)) /\ Forall2 (stores hp) (raws v) (raw_values S) /\ NoDup (map fst hp) /\
    exists n, (forall r, n <= r -> regs v r = Void) /\
      forall l, let boxes := refs (is_box l) (regs v) n + length (filter (is_raw l) (raws v)) in
                let counted := refs (is_counted l) (regs v) n in
        match pget hp l with
        | None => boxes = 0 /\ counted = 0
        | Some b => (boxes = 1 /\ counted = 0) \/ (boxes = 0 /\ 1 <= counted /\ pcount b = counted)
        end.

  Inductive pagrees : state -> list (pop T) -> list (result * pvars T * pheap T * list (pevent T)) -> Prop :=
  | PA_end S : pagrees S [] []
  | PA_step S c l o v hp d S' rest :
      pspec c S o S' d -> pmemory S' v hp -> o <> Abort -> o <> UB -> pagrees S' l rest -> pagrees S (c :: l) ((o, v, hp, d) :: rest)
  | PA_dead S c l o v hp d S' :   (* the process ended; UB only through the clone of a value *)
      pspec c S o S' d -> o = Abort \/ o = UB -> pagrees S (c :: l) [(o, v, hp, d)].
End Spec.
