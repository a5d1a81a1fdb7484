(** * BTreeViewModel: the projecting iterators of map.rs and set.rs *)
From Coq Require Import List Arith Lia Bool.
From Verif Require Import Base BTreeModel BTreeIterModel BTreeSetModel.
Import ListNotations.
Set Implicit Arguments.

(** [self.inner.next().map(f)] *)
Definition project {S A B} (f : A -> B) (o : outcome Empty_set (option A * S)) : outcome Empty_set (option B * S) :=
  do! (x, s) := o in Ret (option_map f x, s).

Section Views.
  Variables (K V : Type).
  Notation it := (iter K V).
  (** map.rs 1479-1504: Keys *)
  Definition keys_next (i : it) : outcome Empty_set (option K * it) := project (fun x => fst (fst x)) (iter_next i).
  Definition keys_next_back (i : it) : outcome Empty_set (option K * it) := project (fun x => fst (fst x)) (iter_next_back i).
  (** map.rs 1518-1543: Values *)
  Definition values_next (i : it) : outcome Empty_set (option V * it) := project (fun x => snd (fst x)) (iter_next i).
  Definition values_next_back (i : it) : outcome Empty_set (option V * it) := project (fun x => snd (fst x)) (iter_next_back i).
  (** map.rs 1570-1595: ValuesMut: the reference is the address; the value it
      has when it is delivered is kept beside it *)
  Definition values_mut_next (i : it) : outcome Empty_set (option (V * addr) * it) := project (fun x => (snd (fst x), snd x)) (iter_next i).
  Definition values_mut_next_back (i : it) : outcome Empty_set (option (V * addr) * it) := project (fun x => (snd (fst x), snd x)) (iter_next_back i).
End Views.

Section OccupiedViews.
  Variables (K V : Type).
  (** map.rs 2470-2472: OccupiedEntry::get *)
  Definition occupied_get (hd : handle K V) : outcome Empty_set V := match into_kv hd with Some x => Ret (snd x) | None => UB end.
  (** map.rs 2501-2503, 2527-2529: get_mut and into_mut deliver the address of the value *)
  Definition occupied_get_mut (hd : handle K V) : outcome Empty_set addr := match into_kv hd with Some _ => Ret (haddr hd) | None => UB end.
  (** map.rs 2571-2573 *)
  Definition occupied_remove (m : bmap K V) (hd : handle K V) : outcome Empty_set V * bmap K V :=
    let '(o, m') := remove_entry_at m hd in (omap snd o, m').
End OccupiedViews.

Section SetViews.
  Variable T : Type.
  (** set.rs 897-902, 1072-1090: IntoIter of a set *)
  Definition set_into_iter (s : bset T) : outcome Empty_set (into_iter T unit) := map_into_iter s.
  Definition set_into_next (i : into_iter T unit) : outcome Empty_set (option T * into_iter T unit) := project fst (into_next i).
  Definition set_into_next_back (i : into_iter T unit) : outcome Empty_set (option T * into_iter T unit) := project fst (into_next_back i).
  (** set.rs 287-296, 1111-1125: Range of a set *)
  Definition set_range {Q} (qcmp : Q -> Q -> comparison) (borrow : T -> Q) (lo hi : bound_ Q) (s : bset T) : outcome Empty_set (range T unit) :=
    map_range qcmp borrow lo hi s.
  Definition set_range_next (r : range T unit) : outcome Empty_set (option T * range T unit) := project (fun x => fst (fst x)) (range_next r).
  Definition set_range_next_back (r : range T unit) : outcome Empty_set (option T * range T unit) := project (fun x => fst (fst x)) (range_next_back r).
End SetViews.
