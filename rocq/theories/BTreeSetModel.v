(** * BTreeSetModel: src/btree/set.rs.  A set is a map to the unit value
    (set.rs 60-64). *)
From Coq Require Import List Arith Lia Bool.
From Verif Require Import Base BTreeModel BTreeIterModel BTreeBulkModel.
Import ListNotations.
Set Implicit Arguments.

(** sequencing of outcomes (no code of /repo) *)
Definition obind {E A B} (o : outcome E A) (k : A -> outcome E B) : outcome E B :=
  match o with Ret a => k a | Err e => Err e | Panic => Panic | Abort => Abort | UB => UB end.
Notation "'do!' p := e 'in' k" := (obind e (fun p => k)) (at level 200, p strict pattern, e at level 100, k at level 200).

Section Sets.
  Variables (T : Type) (cmp : T -> T -> comparison).
  Definition bset := bmap T unit.

  (** set.rs 242 *)
  Definition ITER_PERFORMANCE_TIPPING_SIZE_DIFF : nat := 16.

  (** ** Thin wrappers *)
  (** set.rs 257-261 *)
  Definition set_new : bset := new.
  (** set.rs 462-464 *)
  Definition set_clear (s : bset) : bset := clear s.
  (** set.rs 849-851, 867-869 *)
  Definition set_len (s : bset) : nat := len s.
  Definition set_is_empty (s : bset) : bool := set_len s =? 0.
  (** set.rs 483-489 *)
  Definition set_contains (q : T -> comparison) (s : bset) : outcome Empty_set bool := contains_key q s.
  (** set.rs 508-514, map.rs 306-311 *)
  Definition set_get (q : T -> comparison) (s : bset) : outcome Empty_set (option T) :=
    match search q s with
    | Some (Found hd) => match into_kv hd with Some x => Ret (Some (fst x)) | None => UB end
    | Some (GoDown _) => Ret None
    | None => UB
    end.
  (** set.rs 691-697 *)
  Definition set_remove (q : T -> comparison) (s : bset) : outcome Empty_set bool * bset :=
    let '(o, s') := remove q s in
    (omap (fun r => match r with Some _ => true | None => false end) o, s').
  (** set.rs 716-722, map.rs 313-326 *)
  Definition set_take (q : T -> comparison) (s : bset) : outcome Empty_set (option T) * bset :=
    match search q s with
    | Some (Found hd) => let '(o, s') := remove_entry_at s hd in (omap (fun x => Some (fst x)) o, s')
    | Some (GoDown _) => (Ret None, s)
    | None => (UB, s)
    end.

  (** ** Iter (set.rs 1042-1070): the keys of the map's iterator *)
  Definition siter := iter T unit.
  (** set.rs 829-833 *)
  Definition set_iter (s : bset) : outcome Empty_set siter := map_iter s.
  (** set.rs 1046-1048; Keys::next map.rs 1483-1485 *)
  Definition set_next (it : siter) : outcome Empty_set (option T * siter) :=
    do! (o, it') := iter_next it in Ret (option_map (fun x => fst (fst x)) o, it').
  (** set.rs 1058-1060 *)
  Definition set_next_back (it : siter) : outcome Empty_set (option T * siter) :=
    do! (o, it') := iter_next_back it in Ret (option_map (fun x => fst (fst x)) o, it').
  (** set.rs 1065-1067 *)
  Definition siter_len (it : siter) : nat := ilen it.

  (** core::iter::Peekable<Iter>: the peeked item (if peek was called) *)
  Record speek := SPeek { sp : option (option T); sinner : siter }.
  Definition speekable (it : siter) : speek := SPeek None it.
  Definition sp_peek (p : speek) : outcome Empty_set (option T * speek) :=
    match sp p with
    | Some o => Ret (o, p)
    | None => do! (o, it) := set_next (sinner p) in Ret (o, SPeek (Some o) it)
    end.
  Definition sp_next (p : speek) : outcome Empty_set (option T * speek) :=
    match sp p with
    | Some o => Ret (o, SPeek None (sinner p))
    | None => do! (o, it) := set_next (sinner p) in Ret (o, SPeek None it)
    end.
  (** Peekable::size_hint, which ExactSizeIterator::len reads *)
  Definition sp_len (p : speek) : nat :=
    match sp p with
    | Some None => 0
    | Some (Some _) => siter_len (sinner p) + 1
    | None => siter_len (sinner p)
    end.

  (** set.rs 1130-1136 *)
  Definition cmp_opt (x y : option T) (short long : comparison) : comparison :=
    match x, y with
    | None, _ => short
    | _, None => long
    | Some a, Some b => cmp a b
    end.

  (** ** Difference *)
  (** set.rs 118-130 *)
  Inductive difference := DStitch (a : siter) (b : speek) | DSearch (a : siter) (b : bset).

  (** set.rs 319-339 *)
  Definition set_difference (s o : bset) : outcome Empty_set difference :=
    do! a := set_iter s in
    if set_len o / ITER_PERFORMANCE_TIPPING_SIZE_DIFF <? set_len s then
      do! b := set_iter o in Ret (DStitch a (speekable b))
    else Ret (DSearch a o).

  (** set.rs 1171-1185; [fuel]: what the two iterators still hold *)
  Fixpoint diff_stitch (fuel : nat) (self_next : T) (a : siter) (b : speek)
    : outcome Empty_set (option T * difference) :=
    match fuel with
    | 0 => UB                                        (* not reached *)
    | S fuel' =>
        do! (o, b1) := sp_peek b in
        match (match o with None => Lt | Some other_next => cmp self_next other_next end) with
        | Lt => Ret (Some self_next, DStitch a b1)
        | Eq =>
            do! (n, a') := set_next a in
            match n with
            | None => Ret (None, DStitch a' b1)
            | Some self_next' => do! (_, b2) := sp_next b1 in diff_stitch fuel' self_next' a' b2
            end
        | Gt => do! (_, b2) := sp_next b1 in diff_stitch fuel' self_next a b2
        end
    end.
  (** set.rs 1190-1195 *)
  Fixpoint diff_search (fuel : nat) (a : siter) (b : bset) : outcome Empty_set (option T * difference) :=
    match fuel with
    | 0 => UB                                        (* not reached *)
    | S fuel' =>
        do! (n, a') := set_next a in
        match n with
        | None => Ret (None, DSearch a' b)
        | Some self_next =>
            do! c := set_contains (cmp self_next) b in
            if c then diff_search fuel' a' b else Ret (Some self_next, DSearch a' b)
        end
    end.
  (** set.rs 1164-1197 *)
  Definition diff_next (d : difference) : outcome Empty_set (option T * difference) :=
    match d with
    | DStitch a b =>
        do! (n, a') := set_next a in
        match n with
        | None => Ret (None, DStitch a' b)
        | Some self_next => diff_stitch (siter_len a' + sp_len b + 1) self_next a' b
        end
    | DSearch a b => diff_search (siter_len a + 1) a b
    end.
  (** set.rs 1199-1211 *)
  Definition diff_size_hint (d : difference) : nat * option nat :=
    let '(self_len, other_len) :=
      match d with DStitch a b => (siter_len a, sp_len b) | DSearch a b => (siter_len a, set_len b) end in
    (self_len - other_len, Some self_len).

  (** ** SymmetricDifference and Union: the state is the two Peekables *)
  (** set.rs 363-371, 441-446 *)
  Definition set_two (s o : bset) : outcome Empty_set (speek * speek) :=
    do! a := set_iter s in do! b := set_iter o in Ret (speekable a, speekable b).

  (** set.rs 1228-1239 *)
  Fixpoint sym_loop (fuel : nat) (a b : speek) : outcome Empty_set (option T * (speek * speek)) :=
    match fuel with
    | 0 => UB                                        (* not reached *)
    | S fuel' =>
        do! (x, a1) := sp_peek a in
        do! (y, b1) := sp_peek b in
        match cmp_opt x y Gt Lt with
        | Lt => do! (o, a2) := sp_next a1 in Ret (o, (a2, b1))
        | Eq => do! (_, a2) := sp_next a1 in do! (_, b2) := sp_next b1 in sym_loop fuel' a2 b2
        | Gt => do! (o, b2) := sp_next b1 in Ret (o, (a1, b2))
        end
    end.
  Definition sym_next (st : speek * speek) : outcome Empty_set (option T * (speek * speek)) :=
    sym_loop (sp_len (fst st) + sp_len (snd st) + 1) (fst st) (snd st).
  (** set.rs 1242-1244 *)
  Definition sym_size_hint (st : speek * speek) : nat * option nat :=
    (0, Some (sp_len (fst st) + sp_len (snd st))).

  (** set.rs 1328-1337 *)
  Definition union_next (st : speek * speek) : outcome Empty_set (option T * (speek * speek)) :=
    let '(a, b) := st in
    do! (x, a1) := sp_peek a in
    do! (y, b1) := sp_peek b in
    match cmp_opt x y Gt Lt with
    | Lt => do! (o, a2) := sp_next a1 in Ret (o, (a2, b1))
    | Eq => do! (_, b2) := sp_next b1 in do! (o, a2) := sp_next a1 in Ret (o, (a2, b2))
    | Gt => do! (o, b2) := sp_next b1 in Ret (o, (a1, b2))
    end.
  (** set.rs 1339-1343 *)
  Definition union_size_hint (st : speek * speek) : nat * option nat :=
    let a_len := sp_len (fst st) in let b_len := sp_len (snd st) in
    (max a_len b_len, Some (a_len + b_len)).

  (** ** Intersection *)
  (** set.rs 181-193 *)
  Inductive intersection := IStitch (a b : siter) | ISearch (a : siter) (b : bset).

  (** set.rs 394-419 *)
  Definition set_intersection (s o : bset) : outcome Empty_set intersection :=
    let '(small, other) := if set_len s <=? set_len o then (s, o) else (o, s) in
    do! a := set_iter small in
    if set_len other / ITER_PERFORMANCE_TIPPING_SIZE_DIFF <? set_len small then
      do! b := set_iter other in Ret (IStitch a b)
    else Ret (ISearch a other).

  (** set.rs 1283-1289 *)
  Fixpoint inter_stitch (fuel : nat) (x y : T) (a b : siter) : outcome Empty_set (option T * intersection) :=
    match fuel with
    | 0 => UB                                        (* not reached *)
    | S fuel' =>
        match cmp x y with
        | Lt => do! (n, a') := set_next a in
                match n with None => Ret (None, IStitch a' b) | Some x' => inter_stitch fuel' x' y a' b end
        | Gt => do! (n, b') := set_next b in
                match n with None => Ret (None, IStitch a b') | Some y' => inter_stitch fuel' x y' a b' end
        | Eq => Ret (Some x, IStitch a b)
        end
    end.
  (** set.rs 1294-1299 *)
  Fixpoint inter_search (fuel : nat) (a : siter) (b : bset) : outcome Empty_set (option T * intersection) :=
    match fuel with
    | 0 => UB                                        (* not reached *)
    | S fuel' =>
        do! (n, a') := set_next a in
        match n with
        | None => Ret (None, ISearch a' b)
        | Some x =>
            do! c := set_contains (cmp x) b in
            if c then Ret (Some x, ISearch a' b) else inter_search fuel' a' b
        end
    end.
  (** set.rs 1275-1301 *)
  Definition inter_next (d : intersection) : outcome Empty_set (option T * intersection) :=
    match d with
    | IStitch a b =>
        do! (n, a') := set_next a in
        match n with
        | None => Ret (None, IStitch a' b)
        | Some x =>
            do! (n2, b') := set_next b in
            match n2 with
            | None => Ret (None, IStitch a' b')
            | Some y => inter_stitch (siter_len a' + siter_len b' + 1) x y a' b'
            end
        end
    | ISearch a b => inter_search (siter_len a + 1) a b
    end.
  (** set.rs 1304-1310 *)
  Definition inter_size_hint (d : intersection) : nat * option nat :=
    (0, Some (match d with IStitch a _ => siter_len a | ISearch a _ => siter_len a end)).

  (** ** Relations *)
  (** set.rs 535-537 *)
  Definition is_disjoint (s o : bset) : outcome Empty_set bool :=
    do! d := set_intersection s o in
    do! (n, _) := inter_next d in
    Ret (match n with None => true | Some _ => false end).

  (** set.rs 569-585 *)
  Fixpoint subset_stitch (fuel : nat) (a b : option T) (x y : siter) : outcome Empty_set bool :=
    match fuel with
    | 0 => UB                                        (* not reached *)
    | S fuel' =>
        match a with
        | None => Ret true
        | Some a1 =>
            match b with
            | None => Ret false
            | Some b1 =>
                match cmp b1 a1 with
                | Lt => do! (b', y') := set_next y in subset_stitch fuel' a b' x y'
                | Gt => Ret false
                | Eq => do! (a', x') := set_next x in
                        do! (b', y') := set_next y in subset_stitch fuel' a' b' x' y'
                end
            end
        end
    end.
  (** set.rs 589-595 *)
  Fixpoint subset_search (fuel : nat) (x : siter) (o : bset) : outcome Empty_set bool :=
    match fuel with
    | 0 => UB                                        (* not reached *)
    | S fuel' =>
        do! (n, x') := set_next x in
        match n with
        | None => Ret true
        | Some a => do! c := set_contains (cmp a) o in if c then subset_search fuel' x' o else Ret false
        end
    end.
  (** set.rs 557-596 *)
  Definition is_subset (s o : bset) : outcome Empty_set bool :=
    if set_len o <? set_len s then Ret false
    else if set_len o / ITER_PERFORMANCE_TIPPING_SIZE_DIFF <? set_len s then
      do! x := set_iter s in
      do! y := set_iter o in
      do! (a, x') := set_next x in
      do! (b, y') := set_next y in
      subset_stitch (siter_len x' + siter_len y' + 3) a b x' y'
    else do! x := set_iter s in subset_search (siter_len x + 1) x o.
  (** set.rs 620-622 *)
  Definition is_superset (s o : bset) : outcome Empty_set bool := is_subset o s.

  (** ** Allocating operations *)
  Section Alloc.
    Variable W : Type.
    Variable nalloc : bool -> W -> option reserve_error * W.

    (** set.rs 646-648 *)
    Definition set_try_insert (x : T) (s : bset) (w : W) : outcome reserve_error bool * bset * W :=
      let '(o, s', w') := try_insert nalloc cmp x tt s w in
      (omap (fun r => match r with None => true | Some _ => false end) o, s', w').
    (** set.rs 667-669 *)
    Definition set_replace (x : T) (s : bset) (w : W) : outcome reserve_error (option T) * bset * W :=
      replace_key nalloc cmp x tt s w.
    (** set.rs 754-756 *)
    Definition set_append (s o : bset) (w : W) := append nalloc cmp s o w.
    (** set.rs 789-796 *)
    Definition set_split_off (q : T -> comparison) (s : bset) (w : W) := split_off nalloc q s w.

    (** set.rs 874-878, 917-921, 926-928; the source iterator is its list of items *)
    Fixpoint set_extend (l : list T) (s : bset) (w : W) : outcome Empty_set unit * bset * W :=
      match l with
      | [] => (Ret tt, s, w)
      | x :: l' =>
          let '(o, s1, w1) := set_try_insert x s w in
          match o with
          | Ret _ => set_extend l' s1 w1
          | Err _ => (Panic, s1, w1)
          | Panic => (Panic, s1, w1) | Abort => (Abort, s1, w1) | UB => (UB, s1, w1)
          end
      end.
    Definition set_from_iter (l : list T) (w : W) : outcome Empty_set unit * bset * W := set_extend l set_new w.

    (** set.rs 956-1024: [iterator.cloned().collect()]: every item is fetched,
        cloned and inserted before the next is fetched.  [fuel]: at least the
        number of items plus one. *)
    Variable tclone : T -> W -> outcome Empty_set T * W.
    Section Collect.
      Variables (St : Type) (next : St -> outcome Empty_set (option T * St)).
      Fixpoint collect_cloned (fuel : nat) (st : St) (s : bset) (w : W) : outcome Empty_set unit * bset * W :=
        match fuel with
        | 0 => (UB, s, w)                            (* not reached *)
        | S fuel' =>
            match next st with
            | Ret (None, _) => (Ret tt, s, w)
            | Ret (Some x, st') =>
                match tclone x w with
                | (Ret y, w1) =>
                    let '(o, s2, w2) := set_try_insert y s w1 in
                    match o with
                    | Ret _ => collect_cloned fuel' st' s2 w2
                    | Err _ => (Panic, s2, w2)
                    | Panic => (Panic, s2, w2) | Abort => (Abort, s2, w2) | UB => (UB, s2, w2)
                    end
                | (Err e, w1) => (Err e, s, w1)
                | (Panic, w1) => (Panic, s, w1) | (Abort, w1) => (Abort, s, w1) | (UB, w1) => (UB, s, w1)
                end
            | Err e => (Err e, s, w) | Panic => (Panic, s, w) | Abort => (Abort, s, w) | UB => (UB, s, w)
            end
        end.
    End Collect.
    Definition started {St} (o : outcome Empty_set St) (next : St -> outcome Empty_set (option T * St))
        (fuel : nat) (w : W) : outcome Empty_set unit * bset * W :=
      match o with
      | Ret st => collect_cloned next fuel st set_new w
      | Err e => (Err e, set_new, w) | Panic => (Panic, set_new, w) | Abort => (Abort, set_new, w) | UB => (UB, set_new, w)
      end.
    (** set.rs 956-958 *)
    Definition set_sub (s o : bset) (w : W) := started (set_difference s o) diff_next (set_len s + 1) w.
    (** set.rs 978-980 *)
    Definition set_bitxor (s o : bset) (w : W) := started (set_two s o) sym_next (set_len s + set_len o + 1) w.
    (** set.rs 1000-1002 *)
    Definition set_bitand (s o : bset) (w : W) := started (set_intersection s o) inter_next (set_len s + set_len o + 1) w.
    (** set.rs 1022-1024 *)
    Definition set_bitor (s o : bset) (w : W) := started (set_two s o) union_next (set_len s + set_len o + 1) w.
  End Alloc.
End Sets.
