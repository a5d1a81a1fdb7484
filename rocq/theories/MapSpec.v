(** * MapSpec: sorted association lists, the independent specification of
    BTreeMap and BTreeSet.  Nothing here refers to trees. *)
From Coq Require Import List Arith Lia Bool Sorted.
Import ListNotations.
Set Implicit Arguments.

(** A lawful [Ord]: a total preorder given by three-way comparison.  [Eq] does
    not mean identity: two keys that compare equal may be different objects. *)
Record ord_laws {K : Type} (cmp : K -> K -> comparison) : Prop := {
  cmp_refl : forall a, cmp a a = Eq;
  cmp_antisym : forall a b, cmp b a = CompOpp (cmp a b);
  cmp_lt_trans : forall a b c, cmp a b = Lt -> cmp b c = Lt -> cmp a c = Lt;
  cmp_eq_l : forall a b c, cmp a b = Eq -> cmp a c = cmp b c
}.

(** A lawful [Borrow<Q>]: the borrowed form is ordered like the key. *)
Record borrow_laws {K Q : Type} (cmp : K -> K -> comparison)
  (qcmp : Q -> Q -> comparison) (borrow : K -> Q) : Prop := {
  q_laws : ord_laws qcmp;
  b_same : forall a b, qcmp (borrow a) (borrow b) = cmp a b
}.

Section Spec.
  Variables (K V : Type) (cmp : K -> K -> comparison).

  (** keys strictly increasing *)
  Definition sorted (l : list (K * V)) : Prop :=
    StronglySorted (fun a b => cmp (fst a) (fst b) = Lt) l.

  (** a query is [q.cmp(k)] as a function of the stored key [k] *)
  Definition query := K -> comparison.
  Definition key_query (k : K) : query := cmp k.

  Definition hit (q : query) (e : K * V) : bool :=
    match q (fst e) with Eq => true | _ => false end.
  Definition smaller (q : query) (e : K * V) : bool :=   (* stored key < query *)
    match q (fst e) with Gt => true | _ => false end.

  Definition s_get (q : query) (l : list (K * V)) : option (K * V) := find (hit q) l.
  Definition s_remove (q : query) (l : list (K * V)) : list (K * V) :=
    filter (fun e => negb (hit q e)) l.

  (** insertion: an equal key keeps its stored key object *)
  Fixpoint s_insert (k : K) (v : V) (l : list (K * V)) : list (K * V) :=
    match l with
    | [] => [(k, v)]
    | (k0, v0) :: l' =>
        match cmp k k0 with
        | Lt => (k, v) :: l
        | Eq => (k0, v) :: l'
        | Gt => (k0, v0) :: s_insert k v l'
        end
    end.

  (** change of the value of the entry the query hits *)
  Definition s_update (q : query) (f : V -> V) (l : list (K * V)) : list (K * V) :=
    map (fun e => if hit q e then (fst e, f (snd e)) else e) l.

  (** replacement of the key object the query hits *)
  Definition s_rekey (q : query) (k : K) (l : list (K * V)) : list (K * V) :=
    map (fun e => if hit q e then (k, snd e) else e) l.

  (** split_off(q): entries below the query / the others *)
  Definition s_below (q : query) (l : list (K * V)) := filter (smaller q) l.
  Definition s_from (q : query) (l : list (K * V)) := filter (fun e => negb (smaller q e)) l.

  (** append: for equal keys the right entry (key and value) wins *)
  Definition has (l : list (K * V)) (k : K) : bool :=
    existsb (fun e => match cmp k (fst e) with Eq => true | _ => false end) l.
  Fixpoint place (e : K * V) (l : list (K * V)) : list (K * V) :=
    match l with
    | [] => [e]
    | e0 :: l' => match cmp (fst e) (fst e0) with
                  | Lt => e :: l
                  | _ => e0 :: place e l'
                  end
    end.
  Definition s_append (l r : list (K * V)) : list (K * V) :=
    fold_right place r (filter (fun e => negb (has r (fst e))) l).
End Spec.

(** list update at a position *)
Fixpoint set_nth {A} (n : nat) (x : A) (l : list A) : list A :=
  match l with
  | [] => []
  | y :: l' => match n with 0 => x :: l' | S n' => y :: set_nth n' x l' end
  end.
