(** * HashHistorySpec: what a program over hash maps may do

    (No code of /repo is modelled here.)  A map is a plain list of entries whose
    order means nothing.  Each call is a relation between the lists and the
    world before, the outcome, and the lists and the world after. *)
From Coq Require Import List Arith Bool Permutation.
Import ListNotations.
From Verif Require Import Base VecModel MiscModel HashHistoryModel.
Set Implicit Arguments.

Section Spec.
  Variable W : Type.
  Variable alloc : nat -> W -> answer * W.
  Variables K V : Type.
  Variable keq : K -> K -> bool.
  Variable esz : nat.
  Variable kclone : K -> W -> outcome reserve_error K * W.
  Variable vclone : V -> W -> outcome reserve_error V * W.
  Variable kdrop : K -> W -> W.
  Variable vdrop : V -> W -> W.
  Notation kv := (K * V)%type.
  Notation table := (nat -> list kv).

  (** iterating visits every entry once *)
  Definition order_ok (order : nat -> list kv -> list kv) : Prop := forall n l, Permutation (order n l) l.

  Definition missing (k : K) (l : list kv) : Prop := Forall (fun x => keq k (fst x) = false) l.

  (** what a lookup of [k] finds, the entry [x] and the others, or nothing *)
  Inductive finds (k : K) (l : list kv) : option kv -> list kv -> Prop :=
  | found x rest : Permutation l (x :: rest) -> keq k (fst x) = true -> finds k l (Some x) rest
  | not_found : missing k l -> finds k l None l.

  (** [k] and [v] are put into a map: the entry with an equal key keeps its key
      and gets the new value *)
  Definition put (k : K) (v : V) (x : option kv) (rest : list kv) : list kv :=
    match x with Some (k0, _) => (k0, v) :: rest | None => (k, v) :: rest end.
  Definition value_of (x : option kv) : option V := option_map snd x.

  (** the values and keys that die, in this order *)
  Inductive corpse := DeadK (k : K) | DeadV (v : V).
  Definition bury (w : W) (d : corpse) : W := match d with DeadK k => kdrop k w | DeadV v => vdrop v w end.
  Definition buries (ds : list corpse) (w w' : W) : Prop := w' = fold_left bury ds w.
  (** a whole map dies: each entry's key and value, the entries in some order *)
  Definition remains (l : list kv) : list corpse := flat_map (fun x => [DeadK (fst x); DeadV (snd x)]) l.
  Definition dies (l : list kv) (w w' : W) : Prop := exists ord, Permutation ord l /\ buries (remains ord) w w'.

  (** there is room for [n] more entries: the allocator was not asked, or
      granted them *)
  Definition room (n : nat) (l : list kv) (w w' : W) : Prop :=
    w' = w \/ exists extra, alloc ((length l + n) * esz) w = (Grant extra, w').
  (** the allocator was asked for room for [n] more entries and refused; all
      errors are reported as a capacity overflow *)
  Definition no_room (n : nat) (l : list kv) (w w' : W) : Prop :=
    0 < n /\ exists e, alloc ((length l + n) * esz) w = (Refuse e, w').

  (** entries are cloned one by one into the map [c]; [o] says how it ended *)
  Inductive copies : list kv -> list kv -> W -> outcome reserve_error unit -> list kv -> W -> Prop :=
  | copies_all c w : copies [] c w (Ret tt) c w
  | copies_next k v l c w k' w1 v' w2 x rest w3 o c' w' :
      kclone k w = (Ret k', w1) -> vclone v w1 = (Ret v', w2) ->
      finds k' c x rest ->
      buries (match x with Some (_, v0) => [DeadK k'; DeadV v0] | None => [] end) w2 w3 ->
      copies l (put k' v' x rest) w3 o c' w' -> copies ((k, v) :: l) c w o c' w'
  | copies_key_err k v l c w e w1 : kclone k w = (Err e, w1) -> copies ((k, v) :: l) c w (Err e) c w1
  | copies_key_panic k v l c w w1 : kclone k w = (Panic, w1) -> copies ((k, v) :: l) c w Panic c w1
  | copies_val_err k v l c w k' w1 e w2 : kclone k w = (Ret k', w1) -> vclone v w1 = (Err e, w2) ->
      copies ((k, v) :: l) c w (Err e) c (kdrop k' w2)
  | copies_val_panic k v l c w k' w1 w2 : kclone k w = (Ret k', w1) -> vclone v w1 = (Panic, w2) ->
      copies ((k, v) :: l) c w Panic c (kdrop k' w2).

  (** One call on the maps [S]. *)
  Inductive tspec (S : table) (w : W) : top K V -> outcome reserve_error (tres K V) -> table -> W -> Prop :=
  | t_new r w' : dies (S r) w w' -> tspec S w (TNew r) (Ret TUnit) (upd S r []) w'
  | t_with r n w1 w' : room n [] w w1 -> dies (S r) w1 w' -> tspec S w (TWithCapacity r n) (Ret TUnit) (upd S r []) w'
  | t_with_no r n w' : no_room n [] w w' -> tspec S w (TWithCapacity r n) (Err CapacityOverflow) S w'
  | t_put r k v n w1 x rest w' :
      n = 1 \/ n = 4 -> room n (S r) w w1 -> finds k (S r) x rest ->
      buries (match x with Some _ => [DeadK k] | None => [] end) w1 w' ->
      tspec S w (TInsert r k v) (Ret (TOpt (value_of x))) (upd S r (put k v x rest)) w'
  | t_put_no r k v n w1 w' :
      n = 1 \/ n = 4 -> no_room n (S r) w w1 -> buries [DeadV v; DeadK k] w1 w' ->
      tspec S w (TInsert r k v) (Err CapacityOverflow) S w'
  | t_del r k x rest w' :
      finds k (S r) x rest -> buries (match x with Some (k0, _) => [DeadK k0] | None => [] end) w w' ->
      tspec S w (TRemove V r k) (Ret (TOpt (value_of x))) (upd S r rest) w'
  | t_look r k x rest : finds k (S r) x rest -> tspec S w (TGet V r k) (Ret (TRef (value_of x))) S w
  | t_count r : tspec S w (TLen r) (Ret (TNum (length (S r)))) S w
  | t_list r l : Permutation l (S r) -> tspec S w (TIter r) (Ret (TEntries l)) S w
  | t_take r n l rest w' :
      Permutation (l ++ rest) (S r) -> length l = min n (length (S r)) -> buries (remains rest) w w' ->
      tspec S w (TInto r n) (Ret (TTaken l)) (upd S r []) w'
  | t_copy r t ord w1 c w2 w' :
      room (length (S t)) [] w w1 -> Permutation ord (S t) -> copies ord [] w1 (Ret tt) c w2 -> dies (S r) w2 w' ->
      tspec S w (TTryClone r t) (Ret TUnit) (upd S r c) w'
  | t_copy_no_room r t w' : no_room (length (S t)) [] w w' -> tspec S w (TTryClone r t) (Err CapacityOverflow) S w'
  | t_copy_err r t ord w1 c e w2 w' :
      room (length (S t)) [] w w1 -> Permutation ord (S t) -> copies ord [] w1 (Err e) c w2 -> dies c w2 w' ->
      tspec S w (TTryClone r t) (Err e) S w'
  | t_copy_panic r t ord w1 c w2 w' :
      room (length (S t)) [] w w1 -> Permutation ord (S t) -> copies ord [] w1 Panic c w2 -> dies c w2 w' ->
      tspec S w (TTryClone r t) Panic S w'.

  (** a program from the maps [S] *)
  Inductive thistory : list (top K V) -> table -> W -> list (outcome reserve_error (tres K V)) -> table -> W -> Prop :=
  | th_end S w : thistory [] S w [] S w
  | th_step c cs S w o S1 w1 os S' w' :
      tspec S w c o S1 w1 -> thistory cs S1 w1 os S' w' -> thistory (c :: cs) S w (o :: os) S' w'.

  (** clones return, fail or panic *)
  Definition ends_well {A} (o : outcome reserve_error A) : Prop := o <> Abort /\ o <> UB.
  Definition clones_ok : Prop := (forall k w, ends_well (fst (kclone k w))) /\ (forall v w, ends_well (fst (vclone v w))).

  (** no two keys of a map are equal *)
  Definition distinct_keys (l : list kv) : Prop := ForallOrdPairs (fun x y => keq (fst x) (fst y) = false) l.

  (** ** The books *)
  Definition taken_k (c : top K V) : list K := match c with TInsert _ k _ => [k] | _ => [] end.
  Definition taken_v (c : top K V) : list V := match c with TInsert _ _ v => [v] | _ => [] end.
  Definition given_k (o : outcome reserve_error (tres K V)) : list K := match o with Ret (TTaken l) => map fst l | _ => [] end.
  Definition given_v (o : outcome reserve_error (tres K V)) : list V :=
    match o with Ret (TTaken l) => map snd l | Ret (TOpt (Some v)) => [v] | _ => [] end.
  Definition below (N : nat) (c : top K V) : Prop :=
    match c with
    | TNew r | TWithCapacity r _ | TInsert r _ _ | TRemove _ r _ | TGet _ r _ | TLen r | TIter r | TInto r _ => r < N
    | TTryClone r t => r < N /\ t < N
    end.
  Definition live (N : nat) (S : table) : list kv := List.concat (map S (seq 0 N)).

  (** A ledger kept in the world: the keys and values that clones made, and
      those whose destructor has run. *)
  Record ledger := { k_made : W -> list K; k_gone : W -> list K; v_made : W -> list V; v_gone : W -> list V }.
  Definition same_ledger (L : ledger) (w w' : W) : Prop :=
    k_made L w' = k_made L w /\ k_gone L w' = k_gone L w /\ v_made L w' = v_made L w /\ v_gone L w' = v_gone L w.
  (** the destructors and clones write into the ledger, the allocator does not *)
  Record keeps (L : ledger) : Prop := {
    on_alloc : forall n w, same_ledger L w (snd (alloc n w));
    on_kdrop : forall k w, k_made L (kdrop k w) = k_made L w /\ k_gone L (kdrop k w) = k :: k_gone L w /\
                           v_made L (kdrop k w) = v_made L w /\ v_gone L (kdrop k w) = v_gone L w;
    on_vdrop : forall v w, k_made L (vdrop v w) = k_made L w /\ k_gone L (vdrop v w) = k_gone L w /\
                           v_made L (vdrop v w) = v_made L w /\ v_gone L (vdrop v w) = v :: v_gone L w;
    on_kclone : forall k w, let '(o, w') := kclone k w in
        k_made L w' = match o with Ret k' => k' :: k_made L w | _ => k_made L w end /\
        k_gone L w' = k_gone L w /\ v_made L w' = v_made L w /\ v_gone L w' = v_gone L w;
    on_vclone : forall v w, let '(o, w') := vclone v w in
        v_made L w' = match o with Ret v' => v' :: v_made L w | _ => v_made L w end /\
        v_gone L w' = v_gone L w /\ k_made L w' = k_made L w /\ k_gone L w' = k_gone L w }.
  Definition blank (L : ledger) (w : W) : Prop :=
    k_made L w = [] /\ k_gone L w = [] /\ v_made L w = [] /\ v_gone L w = [].
End Spec.
