(** * BTreeIterModel: the iterators and the destructor of src/btree/map.rs on
    functional trees (layer 1).  The identity of a node is its path from the
    root; a freed node is a path in the list of freed paths. *)
From Coq Require Import List Arith Lia Bool.
From Verif Require Import Base BTreeModel.
Import ListNotations.
Set Implicit Arguments.

Definition path := list nat.
Definition path_eqb (p q : path) : bool := if list_eq_dec Nat.eq_dec p q then true else false.
Definition freed_mem (p : path) (freed : list path) : bool := existsb (path_eqb p) freed.

Section Iter.
  Variables (K V : Type).
  Notation kv := (K * V)%type.
  Notation node := (node K V).
  Notation ctx := (ctx K V).
  Notation handle := (handle K V).
  Notation bmap := (bmap K V).

  (** what one step of an iterator yields: the pair, its address, the new leaf
      edge and the nodes that were left behind (IntoIter deallocates them) *)
  Record step := Step { s_kv : kv; s_addr : addr; s_edge : handle; s_left : list path }.

  (** map.rs 1616-1628 (Range), 1719-1732 (RangeMut), 1411-1423 (IntoIter): the
      loop that ascends from the exhausted node [n].  [None]: the root has no
      parent, i.e. unwrap_unchecked(None). *)
  Fixpoint climb_right (h : nat) (n : node) (c : ctx) (left : list path) : option step :=
    match c with
    | [] => None
    | f :: c' =>
        let p := fill f n in
        let left' := left ++ [cpath c] in
        if fidx f <? nlen p then
          match nth_error (kvs p) (fidx f), descend p (fidx f + 1) with
          | Some x, Some (e, f') =>
              match first_leaf_edge h e (f' :: c') with
              | Some hd => Some (Step x (cpath c', fidx f) hd left')
              | None => None
              end
          | _, _ => None
          end
        else climb_right (S h) p c' left'
    end.

  (** map.rs 1601-1629 (Range), 1701-1733 (RangeMut), 1397-1424 (IntoIter, after the length guard) *)
  Definition next_unchecked (hd : handle) : option step :=
    if hi hd <? nlen (hn hd) then
      match nth_error (kvs (hn hd)) (hi hd) with
      | Some x => Some (Step x (haddr hd) (Handle (hn hd) (hh hd) (hc hd) (hi hd + 1)) [])
      | None => None
      end
    else climb_right 0 (hn hd) (hc hd) [].

  (** map.rs 1659-1671, 1768-1781, 1454-1466 *)
  Fixpoint climb_left (h : nat) (n : node) (c : ctx) (left : list path) : option step :=
    match c with
    | [] => None
    | f :: c' =>
        let p := fill f n in
        let left' := left ++ [cpath c] in
        if 0 <? fidx f then
          match nth_error (kvs p) (fidx f - 1), descend p (fidx f - 1) with
          | Some x, Some (e, f') =>
              match last_leaf_edge h e (f' :: c') with
              | Some hd => Some (Step x (cpath c', fidx f - 1) hd left')
              | None => None
              end
          | _, _ => None
          end
        else climb_left (S h) p c' left'
    end.

  (** map.rs 1644-1672, 1750-1782, 1440-1467 *)
  Definition next_back_unchecked (hd : handle) : option step :=
    if 0 <? hi hd then
      match nth_error (kvs (hn hd)) (hi hd - 1) with
      | Some x => Some (Step x (hpath hd, hi hd - 1) (Handle (hn hd) (hh hd) (hc hd) (hi hd - 1)) [])
      | None => None
      end
    else climb_left 0 (hn hd) (hc hd) [].

  (** node.rs 915-921: same node pointer, same index *)
  Definition handle_eqb (a b : handle) : bool := path_eqb (hpath a) (hpath b) && (hi a =? hi b).

  (** ** Range and RangeMut (map.rs 460-485).  An item of RangeMut is the key
      and the address of the value; both are kept in [item]. *)
  Definition item := (kv * addr)%type.
  Record range := Range { rfront : handle; rback : handle }.

  (** map.rs 1561-1567, 1691-1697; [UB] = the unchecked step failed *)
  Definition range_next (r : range) : outcome Empty_set (option item * range) :=
    if handle_eqb (rfront r) (rback r) then Ret (None, r)
    else match next_unchecked (rfront r) with
         | Some s => Ret (Some (s_kv s, s_addr s), Range (s_edge s) (rback r))
         | None => UB
         end.
  (** map.rs 1634-1640, 1738-1744 *)
  Definition range_next_back (r : range) : outcome Empty_set (option item * range) :=
    if handle_eqb (rfront r) (rback r) then Ret (None, r)
    else match next_back_unchecked (rback r) with
         | Some s => Ret (Some (s_kv s, s_addr s), Range (rfront r) (s_edge s))
         | None => UB
         end.

  (** ** Iter and IterMut (map.rs 354-357, 374-377); Keys, Values and ValuesMut
      are projections of them (map.rs 1479-1598) *)
  Record iter := Iter { irange : range; ilen : nat }.

  (** map.rs 2030-2038, 2062-2073 *)
  Definition map_iter (m : bmap) : outcome Empty_set iter :=
    match first_leaf_edge (bheight m) (bnode m) [], last_leaf_edge (bheight m) (bnode m) [] with
    | Some f, Some b => Ret (Iter (Range f b) (blen m))
    | _, _ => UB
    end.
  (** map.rs 1257-1264, 1315-1322 *)
  Definition iter_next (it : iter) : outcome Empty_set (option item * iter) :=
    if ilen it =? 0 then Ret (None, it)
    else match next_unchecked (rfront (irange it)) with
         | Some s => Ret (Some (s_kv s, s_addr s), Iter (Range (s_edge s) (rback (irange it))) (ilen it - 1))
         | None => UB
         end.
  (** map.rs 1275-1282, 1331-1338 *)
  Definition iter_next_back (it : iter) : outcome Empty_set (option item * iter) :=
    if ilen it =? 0 then Ret (None, it)
    else match next_back_unchecked (rback (irange it)) with
         | Some s => Ret (Some (s_kv s, s_addr s), Iter (Range (rfront (irange it)) (s_edge s)) (ilen it - 1))
         | None => UB
         end.
  (** map.rs 1267-1269, 1325-1327, 1427-1429 and the ExactSizeIterator impls *)
  Definition iter_size_hint (it : iter) : nat * option nat := (ilen it, Some (ilen it)).

  (** ** IntoIter (map.rs 387-391): consuming iteration with deallocation *)
  Record into_iter := IntoIter {
    nfront : handle; nback : handle; nleft_ : nat;
    nshared : bool;              (* the tree is the static shared root *)
    nfreed : list path           (* deallocated so far, latest first *)
  }.

  (** the node of a handle and all its ancestors are still allocated.  The code
      reads some of them only; requiring all is stricter. *)
  Fixpoint spine_alive (freed : list path) (c : ctx) : bool :=
    negb (freed_mem (cpath c) freed) &&
    match c with [] => true | _ :: c' => spine_alive freed c' end.

  (** node.rs 481-508: deallocation of nodes, one after the other; freeing the
      static root or a freed node is undefined *)
  Fixpoint dealloc_all (shared : bool) (l : list path) (freed : list path) : option (list path) :=
    match l with
    | [] => Some freed
    | p :: l' => if shared || freed_mem p freed then None else dealloc_all shared l' (p :: freed)
    end.

  (** map.rs 1354-1365 *)
  Definition map_into_iter (m : bmap) : outcome Empty_set into_iter :=
    match first_leaf_edge (bheight m) (bnode m) [], last_leaf_edge (bheight m) (bnode m) [] with
    | Some f, Some b => Ret (IntoIter f b (blen m) (bshared m) [])
    | _, _ => UB
    end.

  (** map.rs 1390-1424 *)
  Definition into_next (it : into_iter) : outcome Empty_set (option kv * into_iter) :=
    if nleft_ it =? 0 then Ret (None, it)
    else if negb (spine_alive (nfreed it) (hc (nfront it))) then UB
    else match next_unchecked (nfront it) with
         | Some s =>
             match dealloc_all (nshared it) (s_left s) (nfreed it) with
             | Some fr =>
                 if spine_alive fr (hc (s_edge s))
                 then Ret (Some (s_kv s), IntoIter (s_edge s) (nback it) (nleft_ it - 1) (nshared it) fr)
                 else UB
             | None => UB
             end
         | None => UB
         end.
  (** map.rs 1433-1467 *)
  Definition into_next_back (it : into_iter) : outcome Empty_set (option kv * into_iter) :=
    if nleft_ it =? 0 then Ret (None, it)
    else if negb (spine_alive (nfreed it) (hc (nback it))) then UB
    else match next_back_unchecked (nback it) with
         | Some s =>
             match dealloc_all (nshared it) (s_left s) (nfreed it) with
             | Some fr =>
                 if spine_alive fr (hc (s_edge s))
                 then Ret (Some (s_kv s), IntoIter (nfront it) (s_edge s) (nleft_ it - 1) (nshared it) fr)
                 else UB
             | None => UB
             end
         | None => UB
         end.

  (** [self.for_each(drop)]: the remaining items, in the order they are
      dropped.  [n]: the length, which every step decrements. *)
  Fixpoint drain (n : nat) (it : into_iter) : outcome Empty_set (list kv * into_iter) :=
    match into_next it with
    | Ret (None, it') => Ret ([], it')
    | Ret (Some x, it') =>
        match n with
        | 0 => UB                                   (* not reached: the length was 0 *)
        | S n' => match drain n' it' with
                  | Ret (l, it'') => Ret (x :: l, it'')
                  | Err e => Err e | Panic => Panic | Abort => Abort | UB => UB
                  end
        end
    | Err e => Err e | Panic => Panic | Abort => Abort | UB => UB
    end.

  (** the node of a handle, then its ancestors up to the root *)
  Fixpoint spine (c : ctx) : list path :=
    cpath c :: match c with [] => [] | _ :: c' => spine c' end.

  (** map.rs 1368-1385: Drop for IntoIter: the dropped entries and all the
      nodes deallocated over the life of the iterator *)
  Definition drop_into_iter (it : into_iter) : outcome Empty_set (list kv * list path) :=
    match drain (nleft_ it) it with
    | Ret (l, it') =>
        if nshared it' then Ret (l, nfreed it')
        else match dealloc_all false (spine (hc (nfront it'))) (nfreed it') with
             | Some fr => Ret (l, fr)
             | None => UB
             end
    | Err e => Err e | Panic => Panic | Abort => Abort | UB => UB
    end.

  (** map.rs 129-135: Drop for BTreeMap *)
  Definition drop_map (m : bmap) : outcome Empty_set (list kv * list path) :=
    match map_into_iter m with
    | Ret it => drop_into_iter it
    | Err e => Err e | Panic => Panic | Abort => Abort | UB => UB
    end.

  (** ** range_search (map.rs 1898-1994) *)
  Section RangeSearch.
    Variables (Q : Type) (qcmp : Q -> Q -> comparison) (borrow : K -> Q).
    Inductive bound_ := Included (q : Q) | Excluded (q : Q) | Unbounded.

    (** 1910-1923 *)
    Definition bad_range (lo hi : bound_) : bool :=
      match lo, hi with
      | Excluded s, Excluded e => match qcmp s e with Lt => false | _ => true end
      | Included s, Included e | Included s, Excluded e | Excluded s, Included e =>
          match qcmp s e with Gt => true | _ => false end
      | _, _ => false
      end.

    Definition qof (q : Q) : K -> comparison := fun k => qcmp q (borrow k).

    (** 1932-1950: (edge, min_found afterwards) *)
    Definition min_edge (found : bool) (lo : bound_) (n : node) : nat * bool :=
      match found, lo with
      | false, Included q => search_linear (qof q) (kvs n)
      | false, Excluded q => let '(i, b) := search_linear (qof q) (kvs n) in (if b then i + 1 else i, b)
      | _, Unbounded => (0, found)
      | true, Included _ => (nlen n, true)
      | true, Excluded _ => (0, true)
      end.
    (** 1952-1970 *)
    Definition max_edge (found : bool) (hi : bound_) (n : node) : nat * bool :=
      match found, hi with
      | false, Included q => let '(i, b) := search_linear (qof q) (kvs n) in (if b then i + 1 else i, b)
      | false, Excluded q => search_linear (qof q) (kvs n)
      | _, Unbounded => (nlen n, found)
      | true, Included _ => (0, true)
      | true, Excluded _ => (nlen n, true)
      end.

    (** 1925-1993 *)
    Fixpoint range_loop (lo hi : bound_) (h : nat) (minn : node) (minc : ctx) (maxn : node) (maxc : ctx)
        (minf maxf diverged : bool) : outcome Empty_set (handle * handle) :=
      let '(i, minf') := min_edge minf lo minn in
      let '(j, maxf') := max_edge maxf hi maxn in
      if negb diverged && (j <? i) then Panic
      else
        let diverged' := diverged || negb (i =? j) in
        match h with
        | 0 => Ret (Handle minn 0 minc i, Handle maxn 0 maxc j)
        | S h' =>
            match descend minn i, descend maxn j with
            | Some (e1, f1), Some (e2, f2) =>
                range_loop lo hi h' e1 (f1 :: minc) e2 (f2 :: maxc) minf' maxf' diverged'
            | _, _ => UB
            end
        end.

    (** map.rs 885-896, 929-944: range and range_mut *)
    Definition map_range (lo hi : bound_) (m : bmap) : outcome Empty_set range :=
      if bad_range lo hi then Panic
      else match range_loop lo hi (bheight m) (bnode m) [] (bnode m) [] false false false with
           | Ret (f, b) => Ret (Range f b)
           | Err e => Err e | Panic => Panic | Abort => Abort | UB => UB
           end.
  End RangeSearch.
End Iter.

Arguments Included {Q}.
Arguments Excluded {Q}.
Arguments Unbounded {Q}.
