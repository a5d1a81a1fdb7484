(** * SetHistorySpec: what programs over BTreeSets may observe, said about
    strictly ascending lists.  [sspec c S o S']: operation [c], started when
    variable [r] holds the list [S r], may end with outcome [o] and the lists [S']. *)
From Coq Require Import List Arith Lia Bool Sorted.
From Verif Require Import Base MapSpec IterSpec SetSpec BTreeModel BTreeInv BTreeIterModel BTreeRange HistorySpec BTreeSetModel BTreeSets SetHistoryModel.
Import ListNotations.
Set Implicit Arguments.

Section Spec.
  Variables (T Q : Type) (cmp : T -> T -> comparison) (qcmp : Q -> Q -> comparison) (borrow : T -> Q).
  Variables (teq : T -> T -> bool) (tpcmp : T -> T -> option comparison).
  Notation state := (nat -> list T).
  Notation result := (outcome reserve_error (sobs T)).
  (** [no_memory e]: the allocator refuses with [e]; [copy x y]: Clone::clone
      makes [y] of [x]; [clone_ends o]: it ends with [o] *)
  Variables (no_memory : reserve_error -> Prop) (copy : T -> T -> Prop) (clone_ends : outcome Empty_set unit -> Prop).

  Definition eqc (c : comparison) : bool := match c with Eq => true | _ => false end.
  Definition ltc (c : comparison) : bool := match c with Lt => true | _ => false end.
  Definition gtc (c : comparison) : bool := match c with Gt => true | _ => false end.
  (** the queried element; whether an equal one is there *)
  Definition found (x : Q) (l : list T) : option T := find (fun y => eqc (qcmp x (borrow y))) l.
  Definition is_some {A} (o : option A) : bool := match o with Some _ => true | None => false end.
  Definition inb (x : T) (l : list T) : bool := existsb (fun y => eqc (cmp x y)) l.

  Definition inserted (x : T) (l : list T) : list T :=
    if inb x l then l else filter (fun y => gtc (cmp x y)) l ++ x :: filter (fun y => ltc (cmp x y)) l.
  Definition replaced (x : T) (l : list T) : list T :=
    if inb x l then map (fun y => if eqc (cmp x y) then x else y) l else inserted x l.
  Definition without (x : Q) (l : list T) : list T := filter (fun y => negb (eqc (qcmp x (borrow y)))) l.
  Definition between_ (lo hi : bound_ Q) (l : list T) : list T :=
    filter (fun y => (match lo with
                      | Included q => negb (gtc (qcmp q (borrow y)))      (* q <= y *)
                      | Excluded q => ltc (qcmp q (borrow y))             (* q < y *)
                      | Unbounded => true
                      end) &&
                     (match hi with
                      | Included q => negb (ltc (qcmp q (borrow y)))      (* y <= q *)
                      | Excluded q => gtc (qcmp q (borrow y))             (* y < q *)
                      | Unbounded => true
                      end)) l.
  (** the ascending list of the elements with [P] *)
  Definition all_with (P : T -> Prop) (l : list T) : Prop := ascending cmp l /\ forall x, In x l <-> P x.

  Fixpoint lexi (l r : list T) : option comparison :=
    match l, r with
    | [], [] => Some Eq
    | [], _ :: _ => Some Lt
    | _ :: _, [] => Some Gt
    | x :: l', y :: r' => match tpcmp x y with Some Eq => lexi l' r' | o => o end
    end.

  Definition unchanged (S S' : state) : Prop := forall i, S' i = S i.

  (** the four combinations *)
  Definition minus (a b : list T) (x : T) : Prop := In x a /\ ~ member cmp x b.
  Definition exclusive (a b : list T) (x : T) : Prop := minus a b x \/ minus b a x.
  Definition either (a b : list T) (x : T) : Prop := In x a \/ minus b a x.
  Definition common (a b : list T) (x : T) : Prop :=            (* the objects of the smaller set *)
    if length a <=? length b then In x a /\ member cmp x b else In x b /\ member cmp x a.

  (** a lazy combination: [n] items of the list, then a size hint that brackets what is left *)
  Definition lazy_ (P : T -> Prop) (n : nat) (S : state) (o : result) (S' : state) : Prop :=
    exists R lo hi, all_with P R /\ o = Ret (SLazy (delivered n R) lo (Some hi)) /\ lo <= length (skipn n R) <= hi /\ unchanged S S'.
  (** a new set of copies; or a panic for lack of memory, or what a clone did, and nothing changed *)
  Definition built_ (P : T -> Prop) (u : nat) (S : state) (o : result) (S' : state) : Prop :=
    (exists R l, all_with P R /\ Forall2 copy R l /\ o = Ret SUnit /\ unchanged (upd S u l) S') \/
    (o = Panic /\ (exists e, no_memory e) /\ unchanged S S') \/
    (exists u, clone_ends u /\ (forall a, u <> Ret a) /\ o = omap (fun _ => SUnit) (HistoryModel.cast u) /\ unchanged S S').

  Definition sspec (c : sop T Q) (S : state) (o : result) (S' : state) : Prop :=
    match c with
    | SNew r | SClear r => o = Ret SUnit /\ unchanged (upd S r []) S'
    | SInsert r x =>
        (o = Ret (SBool (negb (inb x (S r)))) /\ unchanged (upd S r (inserted x (S r))) S') \/
        (exists e, o = Err e /\ no_memory e /\ inb x (S r) = false /\ unchanged S S')
    | SReplace r x =>
        (o = Ret (SElem (find (fun y => eqc (cmp x y)) (S r))) /\ unchanged (upd S r (replaced x (S r))) S') \/
        (exists e, o = Err e /\ no_memory e /\ inb x (S r) = false /\ unchanged S S')
    | SRemove r x => o = Ret (SBool (is_some (found x (S r)))) /\ unchanged (upd S r (without x (S r))) S'
    | STake r x => o = Ret (SElem (found x (S r))) /\ unchanged (upd S r (without x (S r))) S'
    | SGet r x => o = Ret (SElem (found x (S r))) /\ unchanged S S'
    | SContains r x => o = Ret (SBool (is_some (found x (S r)))) /\ unchanged S S'
    | SLen r => o = Ret (SNat (length (S r))) /\ unchanged S S'
    | SIsEmpty r => o = Ret (SBool (match S r with [] => true | _ => false end)) /\ unchanged S S'
    | SAppend r t =>                                  (* of two equal elements the one of [t] stays *)
        exists l, all_with (fun x => minus (S r) (S t) x \/ In x (S t)) l /\
          o = Ret SUnit /\ unchanged (upd (upd S r l) t []) S'
    | SSplitOff r x t =>
        (o = Ret SUnit /\ unchanged (upd (upd S r (between_ Unbounded (Excluded x) (S r))) t (between_ (Included x) Unbounded (S r))) S') \/
        (exists e, o = Err e /\ no_memory e /\ unchanged S S')
    | SClone r t => built_ (fun x => In x (S r)) t S o S'
    | SExtend r l => o = Ret SUnit /\ unchanged (upd S r (fold_left (fun s x => inserted x s) l (S r))) S'
    | SCollect r l =>
        (o = Ret SUnit /\ unchanged (upd S r (fold_left (fun s x => inserted x s) l [])) S') \/
        (o = Panic /\ (exists e, no_memory e) /\ unchanged S S')
    | SIterate r cs => let '(outs, rest) := dq_run cs (S r) in o = Ret (SSized outs (length rest)) /\ unchanged S S'
    | SRange r lo hi cs =>
        (s_bad qcmp lo hi /\ o = Panic /\ unchanged S S') \/
        (~ s_bad qcmp lo hi /\ o = Ret (SItems (fst (dq_run cs (between_ lo hi (S r))))) /\ unchanged S S')
    | SIntoIter r cs => let '(outs, rest) := dq_run cs (S r) in o = Ret (SDropped outs rest) /\ unchanged (upd S r []) S'
    | SEqual r t => exists b, o = Ret (SBool b) /\ (b = true <-> Forall2 (fun x y => teq x y = true) (S r) (S t)) /\ unchanged S S'
    | SCompare r t => o = Ret (SCmp (lexi (S r) (S t))) /\ unchanged S S'
    | SDifference r t n => lazy_ (minus (S r) (S t)) n S o S'
    | SSymmetricDifference r t n => lazy_ (exclusive (S r) (S t)) n S o S'
    | SIntersection r t n => lazy_ (common (S r) (S t)) n S o S'
    | SUnion r t n => lazy_ (either (S r) (S t)) n S o S'
    | SIsSubset r t => exists b, o = Ret (SBool b) /\ (b = true <-> forall x, In x (S r) -> member cmp x (S t)) /\ unchanged S S'
    | SIsSuperset r t => exists b, o = Ret (SBool b) /\ (b = true <-> forall x, In x (S t) -> member cmp x (S r)) /\ unchanged S S'
    | SIsDisjoint r t => exists b, o = Ret (SBool b) /\ (b = true <-> forall x, In x (S r) -> ~ member cmp x (S t)) /\ unchanged S S'
    | SSub r t u => built_ (minus (S r) (S t)) u S o S'
    | SXor r t u => built_ (exclusive (S r) (S t)) u S o S'
    | SAnd r t u => built_ (common (S r) (S t)) u S o S'
    | SOr r t u => built_ (either (S r) (S t)) u S o S'
    end.

  (** after these nothing is claimed: an insertion of a new element into a set
      of 11 or more was refused memory (C24); extend or append panicked
      because of that; or collecting did, and the broken set was dropped *)
  Definition sgave_up (c : sop T Q) (S : state) (o : result) : Prop :=
    match c with
    | SInsert r x | SReplace r x => exists e, o = Err e /\ no_memory e /\ inb x (S r) = false /\ 11 <= length (S r)
    | SExtend _ _ | SAppend _ _ => o = Panic /\ exists e, no_memory e
    | SCollect _ _ | SSub _ _ _ | SXor _ _ _ | SAnd _ _ _ | SOr _ _ _ => o = UB /\ exists e, no_memory e
    | _ => False
    end.

  (** a run that behaves as specified, with every set well built after every step *)
  Inductive sagrees : state -> list (sop T Q) -> list (result * sregs T) -> Prop :=
  | SA_end S : sagrees S [] []
  | SA_step S c l o s S' rest : sspec c S o S' -> (forall r, well_built cmp (s r) (map (fun x => (x, tt)) (S' r))) ->
      o <> Abort -> o <> UB -> sagrees S' l rest -> sagrees S (c :: l) ((o, s) :: rest)
  | SA_dead S c l o s S' : sspec c S o S' -> o = Abort \/ o = UB -> sagrees S (c :: l) [(o, s)]   (* only through an element's clone *)
  | SA_gave_up S c l o s rest : sgave_up c S o -> sagrees S (c :: l) ((o, s) :: rest).
End Spec.
