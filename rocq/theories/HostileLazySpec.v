(** * HostileLazySpec: the lazy set iterators when comparisons answer anything (C56)

    An iterator walks the two sets; [(P, Q)] is what it has not passed of either.  What it may still deliver is whatever a
    combination of [P] and [Q] may be for some answers; a clone is at the same place.  A panic in next() is caught, and the iterators
    are used on. *)
From Coq Require Import List Arith Lia Bool.
From Verif Require Import Base IterSpec SetSpec BTreeModel BTreeIterModel HeapModel HeapMapModel HistoryModel HeapSpec HostileSetModel HostileSetSpec LazyModel LazySpec.
Import ListNotations.
Set Implicit Arguments.

Section Sessions.
  Variable T : Type.
  Variables (scared : Prop) (k : algebra) (us vs : list T).
  (** [c] may be still to come from [P] and [Q] *)
  Definition to_come (P Q c : list T) : Prop :=
    match k with
    | Difference => subseq c P /\ length P <= length c + length Q
    | SymmetricDifference => cancelled P Q c
    | Intersection => subseq c P /\ length c <= length Q
    | Union => united P Q c
    end.
  (** next() moves from [(P, Q)] to [(P', Q')] and returns [o] *)
  Definition moves (P Q : list T) (o : option T) (P' Q' : list T) : Prop :=
    (exists i, P' = skipn i P) /\ (exists j, Q' = skipn j Q) /\
    match o with
    | Some y => forall c, to_come P' Q' c -> to_come P Q (y :: c)
    | None => to_come P Q [] /\ forall c, to_come P' Q' c -> c = []
    end.
  (** the answers [outs] to the commands [cs], when the iterators are at [pool] *)
  Inductive zwalks : list zcmd -> list (list T * list T) -> list (zobs T) -> Prop :=
  | ZW_end pool : zwalks [] pool []
  | ZW_next i cs pool P Q o P' Q' outs :
      nth_error pool i = Some (P, Q) -> moves P Q o P' Q' -> zwalks cs (firstn i pool ++ (P', Q') :: skipn (S i) pool) outs ->
      zwalks (ZNext i :: cs) pool (ZItem o :: outs)
  | ZW_panic i cs pool P Q a b outs :   (* a comparison has panicked: the iterator may have passed some elements, and goes on from there *)
      scared -> nth_error pool i = Some (P, Q) -> zwalks cs (firstn i pool ++ (skipn a P, skipn b Q) :: skipn (S i) pool) outs ->
      zwalks (ZNext i :: cs) pool (ZPanicked :: outs)
  | ZW_hint i cs pool P Q lo hi outs :
      nth_error pool i = Some (P, Q) -> (forall c, to_come P Q c -> lo <= length c <= hi) -> zwalks cs pool outs ->
      zwalks (ZHint i :: cs) pool (ZSize lo hi :: outs)
  | ZW_clone i cs pool p outs :
      nth_error pool i = Some p -> zwalks cs (pool ++ [p]) outs ->
      zwalks (ZClone i :: cs) pool (ZDone :: outs)
  | ZW_debug i cs pool P Q fields outs :
      nth_error pool i = Some (P, Q) -> map (@field_elements T) fields = (if searched k us vs then [P] else [P; Q]) -> zwalks cs pool outs ->
      zwalks (ZDebug i :: cs) pool (ZShown fields :: outs)
  | ZW_none c i cs pool outs :      (* no such iterator in the session *)
      c = ZNext i \/ c = ZHint i \/ c = ZClone i \/ c = ZDebug i ->
      nth_error pool i = None -> zwalks cs pool outs -> zwalks (c :: cs) pool (ZDone :: outs).
End Sessions.

Section Spec.
  Variables (T Q : Type).
  Notation state := (nat -> list (T * unit)).
  Notation result := (outcome reserve_error (zres T)).
  Variables (no_memory : reserve_error -> Prop) (copy : T -> T -> Prop) (clone_ends : outcome Empty_set unit -> Prop)
            (clone_fails : outcome reserve_error unit -> Prop) (scared : Prop).
  Notation xloose := (xloose (T := T) (Q := Q) no_memory copy clone_ends clone_fails scared).
  Notation xgave_up := (xgave_up (T := T) (Q := Q) no_memory scared).

  Definition zloose (c : zop T Q) (S : state) (o : result) (S' : state) : Prop :=
    match c with
    | ZSet c => exists o', xloose c S o' S' /\ o = omap ZPlain o'
    | ZLook k r t cs =>
        (exists outs, zwalks scared k (elements S r) (elements S t) cs [sides k (elements S r) (elements S t)] outs /\ o = Ret (ZSession outs)) /\
        forall i, S' i = S i
    end.
  Definition zgave_up (c : zop T Q) (S : state) (o : result) (s : hregs) (hp : heap T unit) : Prop :=
    match c with ZSet c => exists o', xgave_up c S o' s hp /\ o = omap ZPlain o' | _ => False end.

  (** a run from the lists [S], the variables [s] and the memory [hp]; a session leaves the very same memory, also when comparisons panic *)
  Inductive zruns : state -> hregs -> heap T unit -> list (zop T Q) -> list (result * hregs * heap T unit) -> Prop :=
  | ZR_end S s hp : zruns S s hp [] []
  | ZR_step S s hp c l o s' hp' S' rest :
      zloose c S o S' -> memory (fun _ _ => Lt) s' hp' S' -> (forall k r t cs, c = ZLook k r t cs -> s' = s /\ hp' = hp) -> o <> Abort -> o <> UB ->
      zruns S' s' hp' l rest -> zruns S s hp (c :: l) ((o, s', hp') :: rest)
  | ZR_dead S s hp c l o s' hp' S' :   (* only through an element's clone *)
      zloose c S o S' -> o = Abort \/ o = UB -> zruns S s hp (c :: l) [(o, s', hp')]
  | ZR_gave_up S s hp c l o s' hp' rest : zgave_up c S o s' hp' -> zruns S s hp (c :: l) ((o, s', hp') :: rest).
End Spec.
