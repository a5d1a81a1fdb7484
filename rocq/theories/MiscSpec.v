(** * MiscSpec: specification vocabulary for MiscModel. *)
From Coq Require Import List Arith Lia Bool.
Import ListNotations.
From Verif Require Import Base VecModel VecSpec MiscModel.
Set Implicit Arguments.

(** an allocator that grants exactly what was asked for *)
Definition exact_alloc {W} (alloc : nat -> W -> answer * W) : Prop :=
  forall n w extra w', alloc n w = (Grant extra, w') -> extra = 0.

(** ** Clonable values: the mathematical value a run-time value stands for *)
Fixpoint pure (P : Type) (t : ty) : Type :=
  match t with
  | TPrim => P
  | TOpt t => option (pure P t)
  | TBox t => pure P t
  | TVec t => list (pure P t)
  end.

(** [stands isize_max szof t x p]: the run-time value [x] is valid at every
    level and denotes the mathematical value [p]. *)
Section Stands.
Variables (isize_max : nat) (P : Type) (szof : ty -> nat).
Fixpoint stands (t : ty) : val P t -> pure P t -> Prop :=
  match t return val P t -> pure P t -> Prop with
  | TPrim => fun x p => x = p
  | TOpt t => fun x p => match x, p with
                         | Some x, Some p => stands t x p
                         | None, None => True
                         | _, _ => False
                         end
  | TBox t => fun x p => stands t x p
  | TVec t => fun x p => exists l, holds isize_max (szof t) x l /\ Forall2 (stands t) l p
  end.
End Stands.

(** ** Formatting: the text produced by fragments, if none fails *)
Fixpoint format_text {B} (fs : list (fragment B)) : option (list B) :=
  match fs with
  | [] => Some []
  | FStr bs :: fs' => match format_text fs' with
                      | Some t => Some (bs ++ t)
                      | None => None
                      end
  | _ => None
  end.

(** ** Readers *)
Section IO.
  Variables (B R : Type).
  Variable read : R -> nat -> read_result B * R.
  (** a reader never returns more than it was asked for *)
  Definition read_bounded : Prop :=
    forall r n bs r', read r n = (RData bs, r') -> length bs <= n.
  (** [delivers r bs r']: some sequence of non-empty reads from [r]
      (interrupted ones are repeated) delivers exactly the bytes [bs]. *)
  Inductive delivers : R -> list B -> R -> Prop :=
  | del_nil r : delivers r [] r
  | del_int r n r1 bs r' :
      0 < n -> read r n = (RInterrupted, r1) -> delivers r1 bs r' -> delivers r bs r'
  | del_data r n b r1 bs r' :
      0 < n -> b <> [] -> read r n = (RData b, r1) -> delivers r1 bs r' -> delivers r (b ++ bs) r'.
  (** the read made at [r] reports the end of the input, leaving [r'] *)
  Definition at_eof (r r' : R) : Prop := exists n, 0 < n /\ read r n = (RData [], r').
  Definition read_fails (r r' : R) : Prop := exists n, 0 < n /\ read r n = (RError, r').
End IO.

(** ** Finite maps *)
Section FMap.
  Variables K V : Type.
  Variable keq : K -> K -> bool.
  Record key_eq_laws : Prop := {
    keq_refl : forall a, keq a a = true;
    keq_sym : forall a b, keq a b = keq b a;
    keq_trans : forall a b c, keq a b = true -> keq b c = true -> keq a c = true }.

  (** a finite map: a partial function and its number of entries *)
  Definition fmap : Type := (K -> option V) * nat.
  Definition fget (f : fmap) (k : K) : option V := fst f k.
  Definition fempty : fmap := (fun _ => None, 0).
  Definition fset (f : fmap) (k : K) (v : V) : fmap :=
    (fun k' => if keq k' k then Some v else fst f k',
     match fst f k with Some _ => snd f | None => S (snd f) end).
  Definition fdel (f : fmap) (k : K) : fmap :=
    (fun k' => if keq k' k then None else fst f k',
     match fst f k with Some _ => snd f - 1 | None => snd f end).
  (** a listing of the map: every entry once *)
  Definition flisting (f : fmap) (l : list (K * V)) : Prop :=
    length l = snd f /\
    (forall k v, fst f k = Some v <-> exists k', keq k k' = true /\ In (k', v) l) /\
    (forall i j ki vi kj vj, nth_error l i = Some (ki, vi) -> nth_error l j = Some (kj, vj) ->
        keq ki kj = true -> i = j).

  (** operations of a history, and what they may answer *)
  Inductive hop := HInsert (k : K) (v : V) | HRemove (k : K) | HGet (k : K) | HLen | HIter.
  Inductive hres := HVal (o : option V) | HNum (n : nat) | HList (l : list (K * V)).
  Inductive hspec_step (f : fmap) : hop -> outcome reserve_error hres -> fmap -> Prop :=
  | hs_insert k v : hspec_step f (HInsert k v) (Ret (HVal (fget f k))) (fset f k v)
  | hs_refused k v e : hspec_step f (HInsert k v) (Err e) f
  | hs_remove k : hspec_step f (HRemove k) (Ret (HVal (fget f k))) (fdel f k)
  | hs_get k : hspec_step f (HGet k) (Ret (HVal (fget f k))) f
  | hs_len : hspec_step f HLen (Ret (HNum (snd f))) f
  | hs_iter l : flisting f l -> hspec_step f HIter (Ret (HList l)) f.
  (** a trace of calls and answers is one a finite map could give *)
  Fixpoint hspec_trace (f : fmap) (tr : list (hop * outcome reserve_error hres)) : Prop :=
    match tr with
    | [] => True
    | (op, r) :: tr' => exists f', hspec_step f op r f' /\ hspec_trace f' tr'
    end.
End FMap.
Arguments stands isize_max {P} szof t _ _.
