(** * LazySpec: the lazy set iterators as lists of what they have left (C55)

    For a total order.  An iterator is the ascending list of the elements it has not delivered; a clone is the same list again;
    next() takes the first (and None, again and again, from an empty list); size_hint() bounds its length; printing changes nothing
    and shows, of each of the two sets, the elements behind those already passed, among them every element that is still to come. *)
From Coq Require Import List Arith Lia Bool.
From Verif Require Import Base IterSpec SetSpec BTreeModel BTreeIterModel HeapModel HeapMapModel HistoryModel HistorySpec SetHistorySpec HeapSpec HostileSetModel HostileSetSpec LawfulSetSpec LazyModel.
Import ListNotations.
Set Implicit Arguments.

Section Sessions.
  Variable T : Type.

  (** the elements in a printed field *)
  Definition field_elements (f : zfield T) : list T :=
    match zpeeked f with Some (Some x) => x :: zrest f | _ => zrest f end.
  (** the operation, and the elements of the two sets *)
  Variables (k : algebra) (us vs : list T).
  (** an intersection begins with the smaller set *)
  Definition sides : list T * list T :=
    match k with Intersection => if length us <=? length vs then (us, vs) else (vs, us) | _ => (us, vs) end.
  (** a set that is at least 16 times as large is searched instead, and not printed *)
  Definition searched : bool :=
    match k with Difference | Intersection => 16 * length (fst sides) <=? length (snd sides) | _ => false end.
  (** {:?} of an iterator that has [l] left *)
  Definition printed (l : list T) (fields : list (zfield T)) : Prop :=
    (exists i j, map field_elements fields = if searched then [skipn i (fst sides)] else [skipn i (fst sides); skipn j (snd sides)]) /\
    (forall x, In x l -> exists f, In f fields /\ In x (field_elements f)).
  (** the answers [outs] to the commands [cs], when the iterators have [pool] left *)
  Inductive zsees : list zcmd -> list (list T) -> list (zobs T) -> Prop :=
  | ZS_end pool : zsees [] pool []
  | ZS_next i cs pool l outs :
      nth_error pool i = Some l -> zsees cs (firstn i pool ++ tl l :: skipn (S i) pool) outs ->
      zsees (ZNext i :: cs) pool (ZItem (hd_error l) :: outs)
  | ZS_hint i cs pool l lo hi outs :
      nth_error pool i = Some l -> lo <= length l <= hi -> zsees cs pool outs ->
      zsees (ZHint i :: cs) pool (ZSize lo hi :: outs)
  | ZS_clone i cs pool l outs :
      nth_error pool i = Some l -> zsees cs (pool ++ [l]) outs ->
      zsees (ZClone i :: cs) pool (ZDone :: outs)
  | ZS_debug i cs pool l fields outs :
      nth_error pool i = Some l -> printed l fields -> zsees cs pool outs ->
      zsees (ZDebug i :: cs) pool (ZShown fields :: outs)
  | ZS_none c i cs pool outs :      (* no such iterator in the session *)
      c = ZNext i \/ c = ZHint i \/ c = ZClone i \/ c = ZDebug i ->
      nth_error pool i = None -> zsees cs pool outs -> zsees (c :: cs) pool (ZDone :: outs).
End Sessions.

Section Spec.
  Variables (T Q : Type).

  Variables (cmp : T -> T -> comparison) (qcmp : Q -> Q -> comparison) (borrow : T -> Q).
  Notation state := (nat -> list (T * unit)).
  Notation result := (outcome reserve_error (zres T)).
  Variables (eqb : T * unit -> T * unit -> bool) (pcmp : T * unit -> T * unit -> option comparison).
  Variables (no_memory : reserve_error -> Prop) (copy : T -> T -> Prop) (clone_ends : outcome Empty_set unit -> Prop)
            (clone_fails : outcome reserve_error unit -> Prop).
  Notation xspec := (xspec cmp qcmp borrow eqb pcmp no_memory copy clone_ends clone_fails).
  Notation xquits := (xquits (Q := Q) cmp no_memory).

  Definition zspec (c : zop T Q) (S : state) (o : result) (S' : state) : Prop :=
    match c with
    | ZSet c => exists o', xspec c S o' S' /\ o = omap ZPlain o'
    | ZLook k r t cs =>
        exists l outs, all_with cmp (belongs cmp k (elements S r) (elements S t)) l /\ zsees k (elements S r) (elements S t) cs [l] outs /\
          o = Ret (ZSession outs) /\ forall i, S' i = S i
    end.
  Definition zquits (c : zop T Q) (S : state) (o : result) (s : hregs) (hp : heap T unit) : Prop :=
    match c with ZSet c => exists o', xquits c S o' s hp /\ o = omap ZPlain o' | _ => False end.

  (** a run from the lists [S], the variables [s] and the memory [hp]; a session leaves the very same memory *)
  Inductive zagrees : state -> hregs -> heap T unit -> list (zop T Q) -> list (result * hregs * heap T unit) -> Prop :=
  | ZA_end S s hp : zagrees S s hp [] []
  | ZA_step S s hp c l o s' hp' S' rest :
      zspec c S o S' -> memory cmp s' hp' S' -> (forall k r t cs, c = ZLook k r t cs -> s' = s /\ hp' = hp) -> o <> Abort -> o <> UB ->
      zagrees S' s' hp' l rest -> zagrees S s hp (c :: l) ((o, s', hp') :: rest)
  | ZA_dead S s hp c l o s' hp' S' :   (* only through an element's clone *)
      zspec c S o S' -> o = Abort \/ o = UB -> zagrees S s hp (c :: l) [(o, s', hp')]
  | ZA_gave_up S s hp c l o s' hp' rest : zquits c S o s' hp' -> zagrees S s hp (c :: l) ((o, s', hp') :: rest).
End Spec.
