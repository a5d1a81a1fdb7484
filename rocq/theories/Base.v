(** * Base: outcomes of model functions and the failing state monad.

    This file models no code of /repo: it fixes the vocabulary in which the
    model is written.  Every model function maps a state to an outcome and
    the state reached when that outcome was produced.  The state is kept on
    failing outcomes too, because that is what the owner of a [&mut self]
    observes after an [Err] or after a caught panic. *)
From Coq Require Import List Arith Lia Bool.
Import ListNotations.
Set Implicit Arguments.

(** The two kinds of [TryReserveError] (alloc::collections::TryReserveErrorKind). *)
Inductive reserve_error := CapacityOverflow | AllocError.

(** What a call can end in.
    - [Ret]   : a normal return;
    - [Err]   : the Rust [Err] branch;
    - [Panic] : an unwinding panic;
    - [Abort] : the process dies because an *infallible* allocation was refused;
    - [UB]    : undefined behaviour: a slot out of bounds or uninitialised was
                used, something was dropped twice, an [unwrap_unchecked] /
                [unreachable_unchecked] was reached. *)
Inductive outcome (E A : Type) : Type :=
| Ret (a : A)
| Err (e : E)
| Panic
| Abort
| UB.
Arguments Ret {E A} a.
Arguments Err {E A} e.
Arguments Panic {E A}.
Arguments Abort {E A}.
Arguments UB {E A}.

Definition M (S E A : Type) : Type := S -> outcome E A * S.

Definition ret {S E A} (a : A) : M S E A := fun s => (Ret a, s).

Definition bind {S E A B} (m : M S E A) (k : A -> M S E B) : M S E B :=
  fun s => match m s with
           | (Ret a, s') => k a s'
           | (Err e, s') => (Err e, s')
           | (Panic, s') => (Panic, s')
           | (Abort, s') => (Abort, s')
           | (UB, s') => (UB, s')
           end.

(** [map_err f m]: Rust's [m.map_err(f)]. *)
Definition map_err {S E F A} (f : E -> F) (m : M S E A) : M S F A :=
  fun s => match m s with
           | (Ret a, s') => (Ret a, s')
           | (Err e, s') => (Err (f e), s')
           | (Panic, s') => (Panic, s')
           | (Abort, s') => (Abort, s')
           | (UB, s') => (UB, s')
           end.

Definition get_st {S E} : M S E S := fun s => (Ret s, s).
Definition put_st {S E} (s' : S) : M S E unit := fun _ => (Ret tt, s').
Definition fail {S E A} (e : E) : M S E A := fun s => (Err e, s).
Definition panic {S E A} : M S E A := fun s => (Panic, s).
Definition ub {S E A} : M S E A := fun s => (UB, s).

Notation "x <- m ;; k" := (bind m (fun x => k))
  (at level 80, m at level 79, right associativity).
Notation "m ;;; k" := (bind m (fun _ => k))
  (at level 80, right associativity).

(** Functional update of a slot table. *)
Definition upd {A} (f : nat -> A) (i : nat) (x : A) : nat -> A :=
  fun j => if j =? i then x else f j.

Lemma upd_same A (f : nat -> A) i x : upd f i x i = x.
Proof. unfold upd. now rewrite Nat.eqb_refl. Qed.

Lemma upd_other A (f : nat -> A) i x j : j <> i -> upd f i x j = f j.
Proof. intro H. unfold upd. destruct (Nat.eqb_spec j i); congruence. Qed.

(** An outcome a caller can handle: a value or an error. *)
Definition settled {E A} (o : outcome E A) : Prop :=
  match o with Ret _ | Err _ => True | _ => False end.

Definition is_ret {E A} (o : outcome E A) : Prop :=
  match o with Ret _ => True | _ => False end.

Definition is_err {E A} (o : outcome E A) : Prop :=
  match o with Err _ => True | _ => False end.
