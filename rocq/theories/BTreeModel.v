(** * BTreeModel: src/btree/{search,node,map}.rs on functional trees.

    Layer 1: a node is the list of its initialised key/value pairs and the
    list of its initialised edges (empty for a leaf).  The height of a node is
    not stored in it: like [force] (node.rs 837-861) the functions get it from
    the reference.  A handle of the code (node pointer + parent pointers + idx)
    is a zipper: the node, the path of frames above it, the index.
    [None] results mean undefined behaviour (an uninitialised slot is used) or
    an index/arithmetic violation; theorems show that they are never produced.
    The raw-memory view of node.rs is layer 2 (Heap*.v). *)
From Coq Require Import List Arith Lia Bool.
From Verif Require Import Base.
Import ListNotations.
Set Implicit Arguments.

(** node.rs 44-46 *)
Definition B_ : nat := 6.
Definition MIN_LEN : nat := B_ - 1.
Definition CAPACITY : nat := 2 * B_ - 1.

(** [pick i l]: element [i] of an array with the parts before and after it;
    [None] = index out of the initialised part *)
Definition pick {A} (i : nat) (l : list A) : option (list A * A * list A) :=
  match nth_error l i with
  | Some x => Some (firstn i l, x, skipn (S i) l)
  | None => None
  end.

(** node.rs 1662-1669 *)
Definition slice_insert {A} (i : nat) (x : A) (l : list A) : list A :=
  firstn i l ++ x :: skipn i l.

(** node.rs 1671-1679 *)
Definition slice_remove {A} (i : nat) (l : list A) : option (A * list A) :=
  match pick i l with Some (a, x, z) => Some (x, a ++ z) | None => None end.

Section Tree.
  Variables (K V : Type).
  Notation kv := (K * V)%type.

  (** node.rs 81-102 (LeafNode), 144-151 (InternalNode): the first [len] keys
      and values, the first [len + 1] edges (none in a leaf) *)
  Inductive node := Node (nkvs : list kv) (nedges : list node).
  Definition kvs (n : node) : list kv := let 'Node k _ := n in k.
  Definition edges (n : node) : list node := let 'Node _ e := n in e.
  (** node.rs 380-382 *)
  Definition nlen (n : node) : nat := length (kvs n).
  (** node.rs 105-117, 228-235: a fresh leaf *)
  Definition empty_leaf : node := Node [] [].

  (** One ancestor: its pairs and its edges left and right of the one taken.
      [fidx] is the child's parent_idx. *)
  Record frame := Frame { fk : list kv; fl : list node; fr : list node }.
  Definition fidx (f : frame) : nat := length (fl f).
  Definition fill (f : frame) (n : node) : node := Node (fk f) (fl f ++ n :: fr f).
  Definition ctx := list frame.
  Fixpoint plug (n : node) (c : ctx) : node :=
    match c with [] => n | f :: c' => plug (fill f n) c' end.

  (** A handle: node, its height, its ancestors, index (node.rs 871-875) *)
  Record handle := Handle { hn : node; hh : nat; hc : ctx; hi : nat }.
  (** the identity of a node inside its tree: child indices from the root *)
  Definition cpath (c : ctx) : list nat := rev (map fidx c).
  Definition hpath (h : handle) : list nat := cpath (hc h).

  (** node.rs 1127-1148 *)
  Definition descend (n : node) (i : nat) : option (node * frame) :=
    match pick i (edges n) with
    | Some (l, e, r) => Some (e, Frame (kvs n) l r)
    | None => None
    end.

  (** ** search.rs *)
  (** search.rs 50-66; [q k] is [key.cmp(k.borrow())] *)
  Fixpoint search_linear (q : K -> comparison) (l : list kv) : nat * bool :=
    match l with
    | [] => (0, false)
    | e :: l' =>
        match q (fst e) with
        | Gt => let '(i, b) := search_linear q l' in (S i, b)
        | Eq => (0, true)
        | Lt => (0, false)
        end
    end.

  Inductive search_result := Found (h : handle) | GoDown (h : handle).

  (** search.rs 14-48 *)
  Fixpoint search_tree (q : K -> comparison) (h : nat) (n : node) (c : ctx) : option search_result :=
    match search_linear q (kvs n) with
    | (i, true) => Some (Found (Handle n h c i))
    | (i, false) =>
        match h with
        | 0 => Some (GoDown (Handle n 0 c i))
        | S h' =>
            match descend n i with
            | Some (e, f) => search_tree q h' e (f :: c)
            | None => None
            end
        end
    end.

  (** ** Leaf edges *)
  (** map.rs 1872-1883: the spine of frames down the first edges *)
  Fixpoint first_leaf_edge (h : nat) (n : node) (c : ctx) : option handle :=
    match h with
    | 0 => Some (Handle n 0 c 0)
    | S h' => match descend n 0 with
              | Some (e, f) => first_leaf_edge h' e (f :: c)
              | None => None
              end
    end.
  (** map.rs 1885-1896 *)
  Fixpoint last_leaf_edge (h : nat) (n : node) (c : ctx) : option handle :=
    match h with
    | 0 => Some (Handle n 0 c (nlen n))
    | S h' => match descend n (nlen n) with
              | Some (e, f) => last_leaf_edge h' e (f :: c)
              | None => None
              end
    end.

  (** ** Node surgery below a parent.  [p] is the parent, [i] the index of the
      pair between children [i] and [i + 1]. *)

  (** node.rs 1317-1322 *)
  Definition can_merge (p : node) (i : nat) : option bool :=
    match nth_error (edges p) i, nth_error (edges p) (S i) with
    | Some l, Some r => Some (nlen l + nlen r + 1 <=? CAPACITY)
    | _, _ => None
    end.

  (** node.rs 1329-1394; edges are copied only when the children are internal:
      a leaf has none *)
  Definition merge (p : node) (i : nat) : option node :=
    match slice_remove i (kvs p), pick i (edges p) with
    | Some (x, pk), Some (a, l, r :: z) =>
        Some (Node pk (a ++ Node (kvs l ++ x :: kvs r) (edges l ++ edges r) :: z))
    | _, _ => None
    end.

  (** node.rs 762-787; [h]: height of [n] *)
  Definition pop (h : nat) (n : node) : option (kv * option node * node) :=
    match rev (kvs n) with
    | [] => None
    | x :: _ =>
        let idx := nlen n - 1 in
        match h with
        | 0 => Some (x, None, Node (firstn idx (kvs n)) (edges n))
        | S _ => match nth_error (edges n) (idx + 1) with
                 | Some e => Some (x, Some e, Node (firstn idx (kvs n)) (firstn (idx + 1) (edges n)))
                 | None => None
                 end
        end
    end.

  (** node.rs 792-830 *)
  Definition pop_front (h : nat) (n : node) : option (kv * option node * node) :=
    match slice_remove 0 (kvs n) with
    | None => None
    | Some (x, k') =>
        match h with
        | 0 => Some (x, None, Node k' (edges n))
        | S _ => match slice_remove 0 (edges n) with
                 | Some (e, e') => Some (x, Some e, Node k' e')
                 | None => None
                 end
        end
    end.

  (** node.rs 681-692 (leaf), 735-757 (internal).  [edge.unwrap()] in
      steal_left panics when a leaf gave no edge: [None] *)
  Definition push_front (h : nat) (x : kv) (e : option node) (n : node) : option node :=
    match h, e with
    | 0, _ => Some (Node (x :: kvs n) (edges n))
    | S _, Some e => Some (Node (x :: kvs n) (e :: edges n))
    | S _, None => None
    end.

  (** node.rs 665-678 (leaf), 698-720 (internal) *)
  Definition push (h : nat) (x : kv) (e : option node) (n : node) : option node :=
    match h, e with
    | 0, _ => Some (Node (kvs n ++ [x]) (edges n))
    | S _, Some e => Some (Node (kvs n ++ [x]) (firstn (nlen n + 1) (edges n) ++ [e]))
    | S _, None => None
    end.

  (** node.rs 1399-1411; [h]: height of the children *)
  Definition steal_left (h : nat) (p : node) (i : nat) : option node :=
    match pick i (kvs p), pick i (edges p) with
    | Some (pa, x, pz), Some (a, l, r :: z) =>
        match pop h l with
        | Some (y, e, l') =>
            match push_front h x e r with
            | Some r' => Some (Node (pa ++ y :: pz) (a ++ l' :: r' :: z))
            | None => None
            end
        | None => None
        end
    | _, _ => None
    end.

  (** node.rs 1416-1428 *)
  Definition steal_right (h : nat) (p : node) (i : nat) : option node :=
    match pick i (kvs p), pick i (edges p) with
    | Some (pa, x, pz), Some (a, l, r :: z) =>
        match pop_front h r with
        | Some (y, e, r') =>
            match push h x e l with
            | Some l' => Some (Node (pa ++ y :: pz) (a ++ l' :: r' :: z))
            | None => None
            end
        | None => None
        end
    | _, _ => None
    end.

  (** node.rs 1431-1485; [count] pairs go from the left child to the right one *)
  Definition bulk_steal_left (h : nat) (p : node) (i count : nat) : option node :=
    match pick i (kvs p), pick i (edges p) with
    | Some (pa, x, pz), Some (a, l, r :: z) =>
        if (count =? 0) || (nlen l <? count) then None else
        let nl := nlen l - count in
        match pick nl (kvs l) with
        | Some (lk, y, moved) =>
            let '(le, re) := match h with
                             | 0 => (edges l, edges r)
                             | S _ => (firstn (nl + 1) (edges l), skipn (nl + 1) (edges l) ++ edges r)
                             end in
            Some (Node (pa ++ y :: pz)
                    (a ++ Node lk le :: Node (moved ++ x :: kvs r) re :: z))
        | None => None
        end
    | _, _ => None
    end.

  (** node.rs 1488-1542 *)
  Definition bulk_steal_right (h : nat) (p : node) (i count : nat) : option node :=
    match pick i (kvs p), pick i (edges p) with
    | Some (pa, x, pz), Some (a, l, r :: z) =>
        if (count =? 0) || (nlen r <? count) then None else
        match pick (count - 1) (kvs r) with
        | Some (moved, y, rk) =>
            let '(le, re) := match h with
                             | 0 => (edges l, edges r)
                             | S _ => (edges l ++ firstn count (edges r), skipn count (edges r))
                             end in
            Some (Node (pa ++ y :: pz)
                    (a ++ Node (kvs l ++ x :: moved) le :: Node rk re :: z))
        | None => None
        end
    | _, _ => None
    end.

  (** ** Insertion into one node *)

  (** node.rs 997-1010 *)
  Definition leaf_insert_fit (i : nat) (x : kv) (n : node) : node :=
    Node (slice_insert i x (kvs n)) (edges n).
  (** node.rs 1067-1089 *)
  Definition internal_insert_fit (i : nat) (x : kv) (e : node) (n : node) : node :=
    Node (slice_insert i x (kvs n)) (slice_insert (i + 1) e (edges n)).

  (** node.rs 1189-1233 (leaf, [edges] = []), 1262-1311 (internal): what the
      successful split at pair [i] makes of the node *)
  Definition split_node (n : node) (i : nat) : option (node * kv * node) :=
    match pick i (kvs n) with
    | Some (a, x, z) => Some (Node a (firstn (i + 1) (edges n)), x, Node z (skipn (i + 1) (edges n)))
    | None => None
    end.

  (** ** Removal *)

  Inductive underflow := AtRoot | EmptyParent | Merged (p : node) (c : ctx) | Stole (p : node) (c : ctx).

  (** map.rs 2631-2660; [h]: height of the underfull node [n] *)
  Definition handle_underfull_node (h : nat) (n : node) (c : ctx) : option underflow :=
    match c with
    | [] => Some AtRoot
    | f :: c' =>
        let p := fill f n in
        let i := fidx f in
        let choice := if 0 <? i then Some (true, i - 1)
                      else if i <? nlen p then Some (false, i) else None in
        match choice with
        | None => Some EmptyParent
        | Some (is_left, j) =>
            match can_merge p j with
            | None => None
            | Some true => match merge p j with Some p' => Some (Merged p' c') | None => None end
            | Some false =>
                match (if is_left then steal_left h p j else steal_right h p j) with
                | Some p' => Some (Stole p' c')
                | None => None
                end
            end
        end
    end.

  (** node.rs 294-319: the root's first child becomes the root *)
  Definition pop_level (n : node) : option node := nth_error (edges n) 0.

  (** map.rs 2602-2618.  Result: the new root and height.  The loop goes up one
      level per turn, so it is a recursion over the ancestors [c]; [H] is the
      height of the whole tree, [h] that of [n]. *)
  Fixpoint fix_underflow (H h : nat) (n : node) (c : ctx) : outcome Empty_set (node * nat) :=
    if nlen n <? CAPACITY / 2 then
      match handle_underfull_node h n c with
      | None => UB
      | Some AtRoot => Ret (plug n c, H)
      | Some EmptyParent => Panic                         (* unreachable!() *)
      | Some (Stole p c') => Ret (plug p c', H)
      | Some (Merged p _) =>
          match c with
          | [] => UB                                       (* not produced: AtRoot *)
          | _ :: c' =>
              if nlen p =? 0 then
                match pop_level (plug p c') with
                | Some r => Ret (r, H - 1)
                | None => UB
                end
              else fix_underflow H (S h) p c'
          end
      end
    else Ret (plug n c, H).

  (** map.rs 2575-2599 + the loop: removal of the pair at a KV handle.
      Result: removed pair, new root, new height. *)
  Definition remove_kv (H : nat) (hd : handle) : outcome Empty_set (kv * (node * nat)) :=
    match hh hd with
    | 0 =>
        match slice_remove (hi hd) (kvs (hn hd)) with
        | Some (x, k') =>
            match fix_underflow H 0 (Node k' (edges (hn hd))) (hc hd) with
            | Ret r => Ret (x, r)
            | Err e => Err e | Panic => Panic | Abort => Abort | UB => UB
            end
        | None => UB
        end
    | S h' =>
        match pick (hi hd) (kvs (hn hd)), descend (hn hd) (hi hd + 1) with
        | Some (ka, old, kz), Some (e, f) =>
            match first_leaf_edge h' e [] with            (* spine relative to [f] *)
            | Some lf =>
                (* first_leaf_edge(..).right_kv() = None is unwrap_unchecked(None) *)
                match slice_remove (hi lf) (kvs (hn lf)) with
                | Some (x, k') =>
                    let f' := Frame (ka ++ x :: kz) (fl f) (fr f) in
                    match fix_underflow H 0 (Node k' (edges (hn lf))) (hc lf ++ f' :: hc hd) with
                    | Ret r => Ret (old, r)
                    | Err e => Err e | Panic => Panic | Abort => Abort | UB => UB
                    end
                | None => UB
                end
            | None => UB
            end
        | _, _ => UB
        end
    end.

  (** ** The map (map.rs 124-127); [bshared]: the root is the static
      EMPTY_ROOT_NODE (node.rs 129-137) *)
  Record bmap := BMap { bshared : bool; bnode : node; bheight : nat; blen : nat }.

  (** map.rs 586-591, node.rs 217-226 *)
  Definition new : bmap := BMap true empty_leaf 0 0.
  (** map.rs 608-610 (the old map is dropped: see [drop_map]) *)
  Definition clear (m : bmap) : bmap := new.
  (** map.rs 2164-2166, 2184-2186 *)
  Definition len (m : bmap) : nat := blen m.
  Definition is_empty (m : bmap) : bool := len m =? 0.

  Definition search (q : K -> comparison) (m : bmap) : option search_result :=
    search_tree q (bheight m) (bnode m) [].

  (** node.rs 1151-1154, 1158-1166: the pair at a KV handle *)
  Definition into_kv (hd : handle) : option kv := nth_error (kvs (hn hd)) (hi hd).

  (** map.rs 657-666; [get] (630-639), Recover::get (306-311) project it *)
  Definition get_key_value (q : K -> comparison) (m : bmap) : outcome Empty_set (option kv) :=
    match search q m with
    | Some (Found hd) => match into_kv hd with Some e => Ret (Some e) | None => UB end
    | Some (GoDown _) => Ret None
    | None => UB
    end.
  Definition omap {E A C} (f : A -> C) (o : outcome E A) : outcome E C :=
    match o with Ret a => Ret (f a) | Err e => Err e | Panic => Panic | Abort => Abort | UB => UB end.
  Definition get (q : K -> comparison) (m : bmap) : outcome Empty_set (option V) :=
    omap (option_map snd) (get_key_value q m).
  (** map.rs 687-693 *)
  Definition contains_key (q : K -> comparison) (m : bmap) : outcome Empty_set bool :=
    omap (fun o => match o with Some _ => true | None => false end) (get q m).
  (** map.rs 1867-1869: Index *)
  Definition index (q : K -> comparison) (m : bmap) : outcome Empty_set V :=
    match get q m with
    | Ret (Some v) => Ret v
    | Ret None => Panic
    | Err e => Err e | Panic => Panic | Abort => Abort | UB => UB
    end.

  (** map.rs 783-799 (remove), 313-326 (take), 2449-2451 (remove_entry) *)
  Definition remove_entry_at (m : bmap) (hd : handle) : outcome Empty_set kv * bmap :=
    let m1 := BMap (bshared m) (bnode m) (bheight m) (blen m - 1) in   (* length -= 1 first *)
    match remove_kv (bheight m) hd with
    | Ret (x, (n, h)) => (Ret x, BMap (bshared m) n h (blen m - 1))
    | Err e => (Err e, m1) | Panic => (Panic, m1) | Abort => (Abort, m1) | UB => (UB, m1)
    end.
  Definition remove_entry (q : K -> comparison) (m : bmap) : outcome Empty_set (option kv) * bmap :=
    match search q m with
    | Some (Found hd) => let '(o, m') := remove_entry_at m hd in (omap Some o, m')
    | Some (GoDown _) => (Ret None, m)
    | None => (UB, m)
    end.
  Definition remove (q : K -> comparison) (m : bmap) : outcome Empty_set (option V) * bmap :=
    let '(o, m') := remove_entry q m in (omap (option_map snd) o, m').

  (** ** Addresses of values.  A [&mut V] given out by the map is modelled by
      the path of its node and its index there. *)
  Definition addr := (list nat * nat)%type.
  Definition haddr (hd : handle) : addr := (hpath hd, hi hd).

  Fixpoint update_node (p : list nat) (i : nat) (g : kv -> kv) (n : node) : option node :=
    match p with
    | [] => match pick i (kvs n) with
            | Some (a, x, z) => Some (Node (a ++ g x :: z) (edges n))
            | None => None
            end
    | j :: p' => match pick j (edges n) with
                 | Some (a, e, z) =>
                     match update_node p' i g e with
                     | Some e' => Some (Node (kvs n) (a ++ e' :: z))
                     | None => None
                     end
                 | None => None
                 end
    end.
  (** a write through a [&mut V] (or, for [replace], [&mut K]) *)
  Definition update_at (a : addr) (g : kv -> kv) (m : bmap) : option bmap :=
    match update_node (fst a) (snd a) g (bnode m) with
    | Some n => Some (BMap (bshared m) n (bheight m) (blen m))
    | None => None
    end.
  Definition write_val (f : V -> V) (e : kv) : kv := (fst e, f (snd e)).

  (** map.rs 716-725: get_mut returns the address *)
  Definition get_mut (q : K -> comparison) (m : bmap) : outcome Empty_set (option addr) :=
    match search q m with
    | Some (Found hd) => match into_kv hd with Some _ => Ret (Some (haddr hd)) | None => UB end
    | Some (GoDown _) => Ret None
    | None => UB
    end.

  (** ** Allocating operations *)
  Section Alloc.
    Variable W : Type.
    (** Box::try_new of a node (true: internal node).  [None] = Ok.
        Modelled by its contract, property C11. *)
    Variable nalloc : bool -> W -> option reserve_error * W.

    (** node.rs 228-235 *)
    Definition new_leaf (w : W) : outcome reserve_error node * W :=
      match nalloc false w with
      | (None, w') => (Ret empty_leaf, w')
      | (Some e, w') => (Err e, w')
      end.
    (** node.rs 266-288 *)
    Definition push_level (n : node) (w : W) : outcome reserve_error node * W :=
      match nalloc true w with
      | (None, w') => (Ret (Node [] [n]), w')
      | (Some e, w') => (Err e, w')
      end.

    (** map.rs 1236-1241 *)
    Definition ensure_root_is_owned (m : bmap) (w : W) : outcome reserve_error unit * bmap * W :=
      if bshared m then
        match new_leaf w with
        | (Ret n, w') => (Ret tt, BMap false n 0 (blen m), w')
        | (Err e, w') => (Err e, m, w')
        | (Panic, w') => (Panic, m, w') | (Abort, w') => (Abort, m, w') | (UB, w') => (UB, m, w')
        end
      else (Ret tt, m, w).

    Inductive ins := Fit (n : node) | Split (l : node) (x : kv) (r : node).

    (** node.rs 1016-1040.  The address is relative: (true, i) = index [i] in
        the right node, (false, i) = in the left (or only) node. *)
    Definition leaf_insert (i : nat) (x : kv) (n : node) (w : W)
      : outcome reserve_error (ins * (bool * nat)) * W :=
      if nlen n <? CAPACITY then (Ret (Fit (leaf_insert_fit i x n), (false, i)), w)
      else match nalloc false w with
           | (Some e, w') => (Err e, w')
           | (None, w') =>
               match split_node n B_ with
               | None => (UB, w')
               | Some (l, y, r) =>
                   if i <=? B_ then (Ret (Split (leaf_insert_fit i x l) y r, (false, i)), w')
                   else (Ret (Split l y (leaf_insert_fit (i - (B_ + 1)) x r), (true, i - (B_ + 1))), w')
               end
           end.

    (** node.rs 1094-1124.  [right] says whether the tracked value is below the
        new edge [e] (child [i + 1]) or below child [i]. *)
    Definition internal_insert (i : nat) (x : kv) (e : node) (right : bool) (n : node) (w : W)
      : outcome reserve_error (ins * (bool * nat)) * W :=
      let j := if right then i + 1 else i in
      if nlen n <? CAPACITY then (Ret (Fit (internal_insert_fit i x e n), (false, j)), w)
      else match nalloc true w with
           | (Some er, w') => (Err er, w')
           | (None, w') =>
               match split_node n B_ with
               | None => (UB, w')
               | Some (l, y, r) =>
                   if i <=? B_ then (Ret (Split (internal_insert_fit i x e l) y r, (false, j)), w')
                   else (Ret (Split l y (internal_insert_fit (i - (B_ + 1)) x e r), (true, j - (B_ + 1))), w')
               end
           end.

    (** map.rs 2390-2406: the loop over the ancestors.  [l] is the node that
        was split, [x], [r] what has to be inserted above it.  Result: outcome
        with the address of the inserted value, the tree as it is afterwards
        and its height [H].  On [Err] the code returns with [x] and [r] not in
        the tree (they are dropped resp. leaked). *)
    Fixpoint insert_up (H : nat) (l : node) (x : kv) (r : node) (right : bool) (a : addr)
        (c : ctx) (w : W) : outcome reserve_error addr * (node * nat) * W :=
      match c with
      | [] =>
          match push_level l w with
          | (Ret root, w') =>
              match push 1 x (Some r) root with
              | Some root' => (Ret ((if right then 1 else 0) :: fst a, snd a), (root', H + 1), w')
              | None => (UB, (root, H + 1), w')
              end
          | (Err e, w') => (Err e, (l, H), w')
          | (Panic, w') => (Panic, (l, H), w') | (Abort, w') => (Abort, (l, H), w') | (UB, w') => (UB, (l, H), w')
          end
      | f :: c' =>
          match internal_insert (fidx f) x r right (fill f l) w with
          | (Ret (Fit n, (_, j)), w') =>
              (Ret (cpath c' ++ j :: fst a, snd a), (plug n c', H), w')
          | (Ret (Split l' y r', (right', j)), w') =>
              insert_up H l' y r' right' (j :: fst a, snd a) c' w'
          | (Err e, w') => (Err e, (plug (fill f l) c', H), w')
          | (Panic, w') => (Panic, (plug (fill f l) c', H), w')
          | (Abort, w') => (Abort, (plug (fill f l) c', H), w')
          | (UB, w') => (UB, (plug (fill f l) c', H), w')
          end
      end.

    (** map.rs 526-533, 546-553 *)
    Inductive entry := Occupied (hd : handle) | Vacant (k : K) (hd : handle).

    (** map.rs 2370-2407: VacantEntry::try_insert.  Note that the length is
        incremented before anything that can fail. *)
    Definition vacant_insert (m : bmap) (k : K) (hd : handle) (v : V) (w : W)
      : outcome reserve_error addr * bmap * W :=
      let len' := blen m + 1 in
      match leaf_insert (hi hd) (k, v) (hn hd) w with
      | (Ret (Fit n, (_, i)), w') =>
          (Ret (hpath hd, i), BMap (bshared m) (plug n (hc hd)) (bheight m) len', w')
      | (Ret (Split l y r, (rt, i)), w') =>
          let '(o, (n, h), w'') := insert_up (bheight m) l y r rt ([], i) (hc hd) w' in
          (o, BMap (bshared m) n h len', w'')
      | (Err e, w') => (Err e, BMap (bshared m) (bnode m) (bheight m) len', w')
      | (Panic, w') => (Panic, BMap (bshared m) (bnode m) (bheight m) len', w')
      | (Abort, w') => (Abort, BMap (bshared m) (bnode m) (bheight m) len', w')
      | (UB, w') => (UB, BMap (bshared m) (bnode m) (bheight m) len', w')
      end.

    Variable cmp : K -> K -> comparison.

    (** map.rs 965-981 *)
    Definition try_entry (k : K) (m : bmap) (w : W) : outcome reserve_error entry * bmap * W :=
      let '(o, m1, w1) := ensure_root_is_owned m w in
      match o with
      | Ret _ =>
          match search (cmp k) m1 with
          | Some (Found hd) => (Ret (Occupied hd), m1, w1)
          | Some (GoDown hd) => (Ret (Vacant k hd), m1, w1)
          | None => (UB, m1, w1)
          end
      | Err e => (Err e, m1, w1) | Panic => (Panic, m1, w1) | Abort => (Abort, m1, w1) | UB => (UB, m1, w1)
      end.

    (** map.rs 2549-2551: OccupiedEntry::insert through get_mut (2501-2503) *)
    Definition occupied_insert (m : bmap) (hd : handle) (v : V) : outcome reserve_error V * bmap :=
      match into_kv hd, update_at (haddr hd) (write_val (fun _ => v)) m with
      | Some e, Some m' => (Ret (snd e), m')
      | _, _ => (UB, m)
      end.

    (** map.rs 754-762 *)
    Definition try_insert (k : K) (v : V) (m : bmap) (w : W) : outcome reserve_error (option V) * bmap * W :=
      let '(o, m1, w1) := try_entry k m w in
      match o with
      | Ret (Occupied hd) => let '(o2, m2) := occupied_insert m1 hd v in (omap Some o2, m2, w1)
      | Ret (Vacant k hd) =>
          let '(o2, m2, w2) := vacant_insert m1 k hd v w1 in (omap (fun _ => None) o2, m2, w2)
      | Err e => (Err e, m1, w1) | Panic => (Panic, m1, w1) | Abort => (Abort, m1, w1) | UB => (UB, m1, w1)
      end.

    (** map.rs 328-343: Recover::replace (for sets, [v] is the unit value); the stored
        key is overwritten *)
    Definition replace_key (k : K) (v : V) (m : bmap) (w : W) : outcome reserve_error (option K) * bmap * W :=
      let '(o, m1, w1) := try_entry k m w in
      match o with
      | Ret (Occupied hd) =>
          match into_kv hd, update_at (haddr hd) (fun e => (k, snd e)) m1 with
          | Some e, Some m2 => (Ret (Some (fst e)), m2, w1)
          | _, _ => (UB, m1, w1)
          end
      | Ret (Vacant k hd) =>
          let '(o2, m2, w2) := vacant_insert m1 k hd v w1 in (omap (fun _ => None) o2, m2, w2)
      | Err e => (Err e, m1, w1) | Panic => (Panic, m1, w1) | Abort => (Abort, m1, w1) | UB => (UB, m1, w1)
      end.

    (** map.rs 2204-2235, 2307-2312: or_try_insert, or_try_insert_with,
        or_default: the address of the value.  [default] is only run when the
        entry is vacant. *)
    Definition or_try_insert_with (m : bmap) (en : entry) (default : W -> outcome reserve_error V * W) (w : W)
      : outcome reserve_error addr * bmap * W :=
      match en with
      | Occupied hd => match into_kv hd with Some _ => (Ret (haddr hd), m, w) | None => (UB, m, w) end
      | Vacant k hd =>
          match default w with
          | (Ret v, w') => vacant_insert m k hd v w'
          | (Err e, w') => (Err e, m, w') | (Panic, w') => (Panic, m, w')
          | (Abort, w') => (Abort, m, w') | (UB, w') => (UB, m, w')
          end
      end.

    (** map.rs 2249-2254, 2329-2331, 2424-2426 *)
    Definition entry_key (en : entry) : option K :=
      match en with
      | Occupied hd => option_map fst (into_kv hd)
      | Vacant k _ => Some k
      end.

    (** map.rs 2277-2288; the closure only sees the value *)
    Definition and_modify (m : bmap) (en : entry) (f : V -> V) : outcome reserve_error entry * bmap :=
      match en with
      | Occupied hd =>
          match update_at (haddr hd) (write_val f) m, pick (hi hd) (kvs (hn hd)) with
          | Some m', Some (a, x, z) =>
              (* the handle keeps pointing to the same place of the changed tree *)
              (Ret (Occupied (Handle (Node (a ++ write_val f x :: z) (edges (hn hd))) (hh hd) (hc hd) (hi hd))), m')
          | _, _ => (UB, m)
          end
      | Vacant k hd => (Ret (Vacant k hd), m)
      end.
  End Alloc.
End Tree.

Arguments Node {K V}.
Arguments empty_leaf {K V}.
Arguments AtRoot {K V}.
Arguments EmptyParent {K V}.
Arguments BMap {K V}.
Arguments new {K V}.
