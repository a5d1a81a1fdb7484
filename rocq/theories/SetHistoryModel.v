(** * SetHistoryModel: programs that use any number of BTreeSets (src/btree/set.rs)

    A program is a list of operations on numbered variables, each holding a
    set.  The semantics calls the functions of BTreeSetModel and
    BTreeViewModel; where set.rs only forwards to the map, the operation of
    HistoryModel on maps to the unit value is used.  Sets that go out of scope
    are dropped by [drop_map]. *)
From Coq Require Import List Arith Lia Bool.
From Verif Require Import Base IterSpec SetSpec BTreeModel BTreeIterModel BTreeBulkModel BTreeSetModel BTreeViewModel HistoryModel.
Import ListNotations.
Set Implicit Arguments.

Section SetPrograms.
  Variables (T Q : Type).

  Inductive sop :=
  | SNew (r : nat)                                   (* r = BTreeSet::new() *)
  | SInsert (r : nat) (x : T)                        (* r.try_insert(x) *)
  | SReplace (r : nat) (x : T)                       (* r.replace(x) *)
  | SRemove (r : nat) (x : Q) | STake (r : nat) (x : Q) | SGet (r : nat) (x : Q) | SContains (r : nat) (x : Q)
  | SLen (r : nat) | SIsEmpty (r : nat) | SClear (r : nat)
  | SAppend (r t : nat)                              (* r.append(&mut t) *)
  | SSplitOff (r : nat) (x : Q) (t : nat)            (* t = r.split_off(&x)? *)
  | SClone (r t : nat)                               (* t = r.clone() *)
  | SExtend (r : nat) (l : list T)                   (* r.extend(l) *)
  | SCollect (r : nat) (l : list T)                  (* r = l.into_iter().collect() *)
  | SIterate (r : nat) (calls : list end_)           (* r.iter(), these calls, then len() *)
  | SRange (r : nat) (lo hi : bound_ Q) (calls : list end_)
  | SIntoIter (r : nat) (calls : list end_)          (* mem::take(r).into_iter(), these calls, drop *)
  | SEqual (r t : nat) | SCompare (r t : nat)        (* r == t, r.partial_cmp(&t) *)
  | SDifference (r t n : nat) | SSymmetricDifference (r t n : nat)
  | SIntersection (r t n : nat) | SUnion (r t n : nat)  (* the lazy iterator, n calls of next(), then size_hint() *)
  | SIsSubset (r t : nat) | SIsSuperset (r t : nat) | SIsDisjoint (r t : nat)
  | SSub (r t u : nat) | SXor (r t u : nat) | SAnd (r t u : nat) | SOr (r t u : nat).   (* u = &r - &t, ^, &, | *)

  Inductive sobs :=
  | SUnit | SBool (b : bool) | SNat (n : nat) | SElem (x : option T)
  | SItems (l : list (option T))                     (* results of the calls of an iterator *)
  | SSized (l : list (option T)) (n : nat)           (* and its len() afterwards *)
  | SDropped (l : list (option T)) (d : list T)      (* and the elements dropped with it *)
  | SLazy (l : list (option T)) (lo : nat) (hi : option nat)  (* and its size_hint() afterwards *)
  | SCmp (c : option comparison).

  Definition sregs := nat -> bset T.

  Variables (W : Type) (nalloc : bool -> W -> option reserve_error * W).
  Variables (cmp : T -> T -> comparison) (qcmp : Q -> Q -> comparison) (borrow : T -> Q).
  (** Clone::clone of the elements, their == and partial_cmp *)
  Variables (tclone : T -> W -> outcome Empty_set T * W) (teq : T -> T -> bool) (tpcmp : T -> T -> option comparison).
  Notation look x := (fun k => qcmp x (borrow k)).

  (** the same as functions on the map's entries (x, ()) *)
  Definition kclone_ (x : T) (w : W) : outcome reserve_error T * W := let '(o, w') := tclone x w in (cast o, w').
  Definition vclone_ (u : unit) (w : W) : outcome reserve_error unit * W := (Ret u, w).
  Definition eqb_ (a b : T * unit) : bool := teq (fst a) (fst b).
  Definition pcmp_ (a b : T * unit) : option comparison := tpcmp (fst a) (fst b).
  Notation mstep := (step nalloc cmp qcmp borrow kclone_ vclone_ eqb_ pcmp_).

  (** the observations of forwarded calls *)
  Definition plain_obs (o : obs T unit) : sobs :=
    match o with
    | OBool b => SBool b | ONat n => SNat n | OCmp c => SCmp c
    | OUnit | OVal _ _ | OKey _ _ | OEntry _ | OItems _ | OSized _ _ | ODropped _ _ => SUnit
    end.
  Definition forward (c : op T unit Q) (s : sregs) (w : W) : outcome reserve_error sobs * sregs * W :=
    let '(o, s', w') := mstep c s w in (omap plain_obs o, s', w').

  (** [n] calls of [next], then the size hint *)
  Definition lazily {St} (o : outcome Empty_set St) (next : St -> outcome Empty_set (option T * St)) (hint : St -> nat * option nat) (n : nat)
    : outcome reserve_error sobs :=
    match cast o with
    | Ret it => match cast (steps next n it) with
                | Ret (l, it') => Ret (SLazy l (fst (hint it')) (snd (hint it')))
                | o => omap (fun _ => SUnit) o
                end
    | o => omap (fun _ => SUnit) o
    end.

  (** [u = built set]: the old set is dropped; a set that could not be completed is dropped *)
  Definition assign_set (u : nat) (r : outcome Empty_set unit * bset T * W) (s : sregs) : outcome reserve_error sobs * sregs * W :=
    let '(o, m, w') := r in
    match o with
    | Ret _ => (after (drop_all [s u]) (Ret SUnit), upd s u m, w')
    | o => (after (drop_all [m]) (omap (fun _ => SUnit) (cast o)), s, w')
    end.

  Definition sstep (c : sop) (s : sregs) (w : W) : outcome reserve_error sobs * sregs * W :=
    match c with
    | SNew r => forward (New r) s w                  (* set.rs 257-261 *)
    | SInsert r x => let '(o, m, w') := set_try_insert cmp nalloc x (s r) w in (omap SBool o, upd s r m, w')
    | SReplace r x => let '(o, m, w') := set_replace cmp nalloc x (s r) w in (omap SElem o, upd s r m, w')
    | SRemove r x => let '(o, m) := set_remove (look x) (s r) in (omap SBool (cast o), upd s r m, w)
    | STake r x => let '(o, m) := set_take (look x) (s r) in (omap SElem (cast o), upd s r m, w)
    | SGet r x => (omap SElem (cast (set_get (look x) (s r))), s, w)
    | SContains r x => (omap SBool (cast (set_contains (look x) (s r))), s, w)
    | SLen r => forward (Len r) s w                  (* set.rs 849-851 *)
    | SIsEmpty r => forward (IsEmpty r) s w          (* set.rs 867-869 *)
    | SClear r => forward (Clear r) s w              (* set.rs 462-464 *)
    | SAppend r t => forward (Append r t) s w        (* set.rs 754-756 *)
    | SSplitOff r x t => forward (SplitOff r x t) s w (* set.rs 789-796 *)
    | SClone r t => forward (Clone r t) s w          (* set.rs 60: derive(Clone) *)
    | SEqual r t => forward (Equal r t) s w          (* set.rs 60: derive(PartialEq) *)
    | SCompare r t => forward (Compare r t) s w      (* set.rs 60: derive(PartialOrd) *)
    | SExtend r l => let '(o, m, w') := set_extend cmp nalloc l (s r) w in (omap (fun _ => SUnit) (cast o), upd s r m, w')
    | SCollect r l => assign_set r (set_from_iter cmp nalloc l w) s
    | SIterate r cs =>
        (match cast (set_iter (s r)) with
         | Ret it => match cast (calls (@set_next T) (@set_next_back T) cs it) with
                     | Ret (outs, it') => Ret (SSized outs (siter_len it'))
                     | o => omap (fun _ => SUnit) o
                     end
         | o => omap (fun _ => SUnit) o
         end, s, w)
    | SRange r lo hi cs =>
        (match cast (set_range qcmp borrow lo hi (s r)) with
         | Ret it => match cast (calls (@set_range_next T) (@set_range_next_back T) cs it) with
                     | Ret (outs, _) => Ret (SItems outs)
                     | o => omap (fun _ => SUnit) o
                     end
         | o => omap (fun _ => SUnit) o
         end, s, w)
    | SIntoIter r cs =>
        (match cast (set_into_iter (s r)) with
         | Ret it => match cast (calls (@set_into_next T) (@set_into_next_back T) cs it) with
                     | Ret (outs, it') => omap (fun d => SDropped outs (map fst (fst d))) (cast (drop_into_iter it'))
                     | o => omap (fun _ => SUnit) o
                     end
         | o => omap (fun _ => SUnit) o
         end, upd s r (set_new T), w)
    | SDifference r t n => (lazily (set_difference (s r) (s t)) (diff_next cmp) (@diff_size_hint T) n, s, w)
    | SSymmetricDifference r t n => (lazily (set_two (s r) (s t)) (sym_next cmp) (@sym_size_hint T) n, s, w)
    | SIntersection r t n => (lazily (set_intersection (s r) (s t)) (inter_next cmp) (@inter_size_hint T) n, s, w)
    | SUnion r t n => (lazily (set_two (s r) (s t)) (union_next cmp) (@union_size_hint T) n, s, w)
    | SIsSubset r t => (omap SBool (cast (is_subset cmp (s r) (s t))), s, w)
    | SIsSuperset r t => (omap SBool (cast (is_superset cmp (s r) (s t))), s, w)
    | SIsDisjoint r t => (omap SBool (cast (is_disjoint cmp (s r) (s t))), s, w)
    | SSub r t u => assign_set u (set_sub cmp nalloc tclone (s r) (s t) w) s
    | SXor r t u => assign_set u (set_bitxor cmp nalloc tclone (s r) (s t) w) s
    | SAnd r t u => assign_set u (set_bitand cmp nalloc tclone (s r) (s t) w) s
    | SOr r t u => assign_set u (set_bitor cmp nalloc tclone (s r) (s t) w) s
    end.

  (** the borrow checker: no operation gets the same set mutably and otherwise *)
  Definition slegal (c : sop) : Prop :=
    match c with SAppend r t | SSplitOff r _ t | SClone r t => r <> t | _ => True end.

  (** as [HistoryModel.run] *)
  Fixpoint srun (l : list sop) (s : sregs) (w : W) : list (outcome reserve_error sobs * sregs) :=
    match l with
    | [] => []
    | c :: l' =>
        let '(o, s', w') := sstep c s w in
        (o, s') :: match o with Abort | UB => [] | _ => srun l' s' w' end
    end.
End SetPrograms.

Arguments SNew {T Q}. Arguments SInsert {T Q}. Arguments SReplace {T Q}. Arguments SRemove {T Q}. Arguments STake {T Q}.
Arguments SGet {T Q}. Arguments SContains {T Q}. Arguments SLen {T Q}. Arguments SIsEmpty {T Q}. Arguments SClear {T Q}.
Arguments SAppend {T Q}. Arguments SSplitOff {T Q}. Arguments SClone {T Q}. Arguments SExtend {T Q}. Arguments SCollect {T Q}.
Arguments SIterate {T Q}. Arguments SRange {T Q}. Arguments SIntoIter {T Q}. Arguments SEqual {T Q}. Arguments SCompare {T Q}.
Arguments SDifference {T Q}. Arguments SSymmetricDifference {T Q}. Arguments SIntersection {T Q}. Arguments SUnion {T Q}.
Arguments SIsSubset {T Q}. Arguments SIsSuperset {T Q}. Arguments SIsDisjoint {T Q}.
Arguments SSub {T Q}. Arguments SXor {T Q}. Arguments SAnd {T Q}. Arguments SOr {T Q}.
Arguments SUnit {T}. Arguments SBool {T}. Arguments SNat {T}. Arguments SElem {T}. Arguments SItems {T}. Arguments SSized {T}.
Arguments SDropped {T}. Arguments SLazy {T}. Arguments SCmp {T}.
