(** * BTreeBulkModel: the bulk operations of src/btree/map.rs on functional
    trees: append, split_off, try_clone/clone, from_iter/extend, comparison
    and hashing (layer 1). *)
From Coq Require Import List Arith Lia Bool.
From Verif Require Import Base BTreeModel BTreeIterModel.
Import ListNotations.
Set Implicit Arguments.

Section Bulk.
  Variables (K V : Type).
  Notation kv := (K * V)%type.
  Notation node := (node K V).
  Notation frame := (frame K V).
  Notation ctx := (ctx K V).
  Notation bmap := (bmap K V).

  (** ** Border repairs *)

  (** map.rs 1032-1052: from the top down the right edge.  [last_edge.left_kv()]
      of a node without pairs is unreachable!() (Panic). *)
  Fixpoint fix_right_edge (h : nat) (n : node) : outcome Empty_set node :=
    match h with
    | 0 => Ret n
    | S h' =>
        match nth_error (edges n) (nlen n) with
        | None => UB
        | Some c0 =>
            let stolen :=
              if nlen c0 <? MIN_LEN then
                if nlen n =? 0 then Panic
                else match bulk_steal_left h' n (nlen n - 1) (MIN_LEN - nlen c0) with
                     | Some n' => Ret n'
                     | None => UB
                     end
              else Ret n in
            match stolen with
            | Ret n' =>
                match descend n' (nlen n') with
                | Some (e, f) => omap (fill f) (fix_right_edge h' e)
                | None => UB
                end
            | Err e => Err e | Panic => Panic | Abort => Abort | UB => UB
            end
        end
    end.

  (** map.rs 1173-1183 *)
  Fixpoint fix_top (h : nat) (n : node) : option (node * nat) :=
    match h with
    | 0 => Some (n, 0)
    | S h' => if 0 <? nlen n then Some (n, h)
              else match pop_level n with
                   | Some e => fix_top h' e
                   | None => None
                   end
    end.

  (** map.rs 1189-1204 (the loop).  [last_kv] of a node without pairs is
      undefined (node.rs 475-479). *)
  Fixpoint fix_right_loop (h : nat) (n : node) : option node :=
    match h with
    | 0 => Some n
    | S h' =>
        if nlen n =? 0 then None else
        let i := nlen n - 1 in
        match can_merge n i with
        | None => None
        | Some true =>
            match merge n i with
            | Some n' =>
                match descend n' i with
                | Some (e, f) => option_map (fill f) (fix_right_loop h' e)
                | None => None
                end
            | None => None
            end
        | Some false =>
            match nth_error (edges n) (i + 1) with
            | None => None
            | Some r =>
                match (if nlen r <? MIN_LEN + 1 then bulk_steal_left h' n i (MIN_LEN + 1 - nlen r) else Some n) with
                | Some n' =>
                    match descend n' (i + 1) with
                    | Some (e, f) => option_map (fill f) (fix_right_loop h' e)
                    | None => None
                    end
                | None => None
                end
            end
        end
    end.

  (** map.rs 1215-1229 (the loop); first_kv: node.rs 469-472 *)
  Fixpoint fix_left_loop (h : nat) (n : node) : option node :=
    match h with
    | 0 => Some n
    | S h' =>
        if nlen n =? 0 then None else
        match can_merge n 0 with
        | None => None
        | Some true =>
            match merge n 0 with
            | Some n' =>
                match descend n' 0 with
                | Some (e, f) => option_map (fill f) (fix_left_loop h' e)
                | None => None
                end
            | None => None
            end
        | Some false =>
            match nth_error (edges n) 0 with
            | None => None
            | Some l =>
                match (if nlen l <? MIN_LEN + 1 then bulk_steal_right h' n 0 (MIN_LEN + 1 - nlen l) else Some n) with
                | Some n' =>
                    match descend n' 0 with
                    | Some (e, f) => option_map (fill f) (fix_left_loop h' e)
                    | None => None
                    end
                | None => None
                end
            end
        end
    end.

  (** map.rs 1185-1208, 1211-1233 *)
  Definition fix_border (loop : nat -> node -> option node) (n : node) (h : nat) : option (node * nat) :=
    match fix_top h n with
    | Some (n1, h1) =>
        match loop h1 n1 with
        | Some n2 => fix_top h1 n2
        | None => None
        end
    | None => None
    end.
  Definition fix_right_border := fix_border fix_right_loop.
  Definition fix_left_border := fix_border fix_left_loop.

  (** map.rs 1143-1170: the dfs of recalc_length *)
  Fixpoint dfs (h : nat) (n : node) : nat :=
    match h with
    | 0 => nlen n
    | S h' => nlen n + list_sum (map (dfs h') (edges n))
    end.

  (** ** split_off *)

  (** node.rs 1602-1633: move_suffix at edge [i] into the empty node [r] of the
      same height (its first edge stays) *)
  Definition move_suffix (i : nat) (l r : node) : option (node * node) :=
    if (nlen l <? i) || negb (nlen r =? 0) then None
    else Some (Node (firstn i (kvs l)) (firstn (i + 1) (edges l)),
               Node (skipn i (kvs l)) (firstn 1 (edges r) ++ skipn (i + 1) (edges l))).

  (** map.rs 1100-1126 *)
  Fixpoint split_loop (q : K -> comparison) (h : nat) (l r : node) : option (node * node) :=
    let i := fst (search_linear q (kvs l)) in
    match move_suffix i l r with
    | None => None
    | Some (l', r') =>
        match h with
        | 0 => Some (l', r')
        | S h' =>
            match descend l' i, descend r' 0 with
            | Some (el, fl), Some (er, fr) =>
                match split_loop q h' el er with
                | Some (el', er') => Some (fill fl el', fill fr er')
                | None => None
                end
            | _, _ => None
            end
        end
    end.

  Section Alloc.
    Variable W : Type.
    Variable nalloc : bool -> W -> option reserve_error * W.

    (** map.rs 1096-1098 (split_off), 1019-1021 (from_sorted_iter): a leaf and [h] levels
        above it.  On a refusal: what was built so far and its height. *)
    Fixpoint push_levels (h : nat) (n : node) (hn : nat) (w : W) : outcome reserve_error node * (node * nat) * W :=
      match h with
      | 0 => (Ret n, (n, hn), w)
      | S h' =>
          match push_level nalloc n w with
          | (Ret n', w') => push_levels h' n' (S hn) w'
          | (Err e, w') => (Err e, (n, hn), w')
          | (Panic, w') => (Panic, (n, hn), w') | (Abort, w') => (Abort, (n, hn), w') | (UB, w') => (UB, (n, hn), w')
          end
      end.

    (** map.rs 1084-1140.  Result: outcome with the right map, self afterwards,
        the map dropped because of a refusal (if any), the world. *)
    Definition split_off (q : K -> comparison) (m : bmap) (w : W)
      : outcome reserve_error bmap * bmap * list bmap * W :=
      if is_empty m then (Ret new, m, [], w)
      else
        let total := blen m in
        match new_leaf K V nalloc w with
        | (Ret leaf, w1) =>
            match push_levels (bheight m) leaf 0 w1 with
            | (Ret chain, _, w2) =>
                match split_loop q (bheight m) (bnode m) chain with
                | Some (l, r) =>
                    match fix_right_border l (bheight m), fix_left_border r (bheight m) with
                    | Some (l', hl), Some (r', hr) =>
                        if hl <? hr then
                          let ll := dfs hl l' in
                          (Ret (BMap false r' hr (total - ll)), BMap (bshared m) l' hl ll, [], w2)
                        else
                          let rl := dfs hr r' in
                          (Ret (BMap false r' hr rl), BMap (bshared m) l' hl (total - rl), [], w2)
                    | _, _ => (UB, m, [], w2)
                    end
                | None => (UB, m, [], w2)
                end
            | (Err e, (n, h), w2) => (Err e, m, [BMap false n h 0], w2)
            | (Panic, _, w2) => (Panic, m, [], w2) | (Abort, _, w2) => (Abort, m, [], w2) | (UB, _, w2) => (UB, m, [], w2)
            end
        | (Err e, w1) => (Err e, m, [new], w1)
        | (Panic, w1) => (Panic, m, [], w1) | (Abort, w1) => (Abort, m, [], w1) | (UB, w1) => (UB, m, [], w1)
        end.

    (** ** append *)
    Variable cmp : K -> K -> comparison.

    (** core::iter::Peekable<IntoIter> *)
    Record peekable := Peekable { pk : option (option kv); pinner : into_iter K V }.
    Definition peek (p : peekable) : outcome Empty_set (option kv * peekable) :=
      match pk p with
      | Some o => Ret (o, p)
      | None => match into_next (pinner p) with
                | Ret (o, it) => Ret (o, Peekable (Some o) it)
                | Err e => Err e | Panic => Panic | Abort => Abort | UB => UB
                end
      end.
    Definition pnext (p : peekable) : outcome Empty_set (option kv * peekable) :=
      match pk p with
      | Some o => Ret (o, Peekable None (pinner p))
      | None => match into_next (pinner p) with
                | Ret (o, it) => Ret (o, Peekable None it)
                | Err e => Err e | Panic => Panic | Abort => Abort | UB => UB
                end
      end.

    (** map.rs 565-568; [mdropped]: the items dropped by [self.left.next();] *)
    Record merge_iter := MergeIter { mleft : peekable; mright : peekable; mdropped : list kv }.

    (** map.rs 2662-2684 *)
    Definition merge_next (mi : merge_iter) : outcome Empty_set (option kv * merge_iter) :=
      match peek (mleft mi) with
      | Ret (a, l1) =>
          match peek (mright mi) with
          | Ret (b, r1) =>
              let left_only := match pnext l1 with
                               | Ret (o, l2) => Ret (o, MergeIter l2 r1 (mdropped mi))
                               | Err e => Err e | Panic => Panic | Abort => Abort | UB => UB
                               end in
              let right_only := match pnext r1 with
                                | Ret (o, r2) => Ret (o, MergeIter l1 r2 (mdropped mi))
                                | Err e => Err e | Panic => Panic | Abort => Abort | UB => UB
                                end in
              match a, b with
              | None, None => Ret (None, MergeIter l1 r1 (mdropped mi))
              | Some _, None => left_only
              | None, Some _ => right_only
              | Some x, Some y =>
                  match cmp (fst x) (fst y) with
                  | Lt => left_only
                  | Gt => right_only
                  | Eq => match pnext l1 with
                          | Ret (o, l2) =>
                              let d := match o with Some z => mdropped mi ++ [z] | None => mdropped mi end in
                              match pnext r1 with
                              | Ret (o2, r2) => Ret (o2, MergeIter l2 r2 d)
                              | Err e => Err e | Panic => Panic | Abort => Abort | UB => UB
                              end
                          | Err e => Err e | Panic => Panic | Abort => Abort | UB => UB
                          end
                  end
              end
          | Err e => Err e | Panic => Panic | Abort => Abort | UB => UB
          end
      | Err e => Err e | Panic => Panic | Abort => Abort | UB => UB
      end.

    (** map.rs 993-1014: the search for a node with space.  [n] at height [h]
        is full.  Result: the open node, its height and ancestors. *)
    Fixpoint find_open (h : nat) (n : node) (c : ctx) (w : W) : outcome reserve_error (node * nat * ctx) * W :=
      match c with
      | [] => match push_level nalloc n w with
              | (Ret root, w') => (Ret (root, S h, []), w')
              | (Err e, w') => (Err e, w')
              | (Panic, w') => (Panic, w') | (Abort, w') => (Abort, w') | (UB, w') => (UB, w')
              end
      | f :: c' =>
          let p := fill f n in
          if nlen p <? CAPACITY then (Ret (p, S h, c'), w)
          else find_open (S h) p c' w
      end.

    (** map.rs 988-1028: one turn of the loop of from_sorted_iter.  State: the rightmost leaf
        and its ancestors.  A refusal panics ([expect]); the tree is then the
        second component. *)
    Definition push_sorted (x : kv) (n : node) (c : ctx) (w : W)
      : outcome Empty_set (node * ctx) * (node * nat) * W :=
      let here := (plug n c, length c) in
      if nlen n <? CAPACITY then
        match push 0 x None n with
        | Some n' => (Ret (n', c), (plug n' c, length c), w)
        | None => (UB, here, w)
        end
      else
        match find_open 0 n c w with
        | (Ret (o, ho, c'), w1) =>
            let opened := (plug o c', ho + length c') in
            match new_leaf K V nalloc w1 with
            | (Ret leaf, w2) =>
                match push_levels (ho - 1) leaf 0 w2 with
                | (Ret chain, _, w3) =>
                    match push ho x (Some chain) o with
                    | Some o' =>
                        match last_leaf_edge ho o' c' with
                        | Some hd => (Ret (hn hd, hc hd), (plug (hn hd) (hc hd), length (hc hd)), w3)
                        | None => (UB, opened, w3)
                        end
                    | None => (UB, opened, w3)
                    end
                | (Err _, _, w3) => (Panic, opened, w3)
                | (Panic, _, w3) => (Panic, opened, w3) | (Abort, _, w3) => (Abort, opened, w3) | (UB, _, w3) => (UB, opened, w3)
                end
            | (Err _, w2) => (Panic, opened, w2)
            | (Panic, w2) => (Panic, opened, w2) | (Abort, w2) => (Abort, opened, w2) | (UB, w2) => (UB, opened, w2)
            end
        | (Err _, w1) => (Panic, here, w1)
        | (Panic, w1) => (Panic, here, w1) | (Abort, w1) => (Abort, here, w1) | (UB, w1) => (UB, here, w1)
        end.

    (** the loop; [fuel]: the number of items the two iterators still hold, plus
        one.  Result: outcome, tree and height, length, the iterator (dropped
        by the caller), the world. *)
    Fixpoint from_sorted_loop (fuel : nat) (mi : merge_iter) (n : node) (c : ctx) (len : nat) (w : W)
      : outcome Empty_set unit * (node * nat) * nat * merge_iter * W :=
      let here := (plug n c, length c) in
      match fuel with
      | 0 => (UB, here, len, mi, w)                   (* not reached *)
      | S fuel' =>
          match merge_next mi with
          | Ret (None, mi') => (Ret tt, here, len, mi', w)
          | Ret (Some x, mi') =>
              match push_sorted x n c w with
              | (Ret (n', c'), _, w') => from_sorted_loop fuel' mi' n' c' (len + 1) w'
              | (Err e, t, w') => (Err e, t, len, mi', w')
              | (Panic, t, w') => (Panic, t, len, mi', w')
              | (Abort, t, w') => (Abort, t, len, mi', w') | (UB, t, w') => (UB, t, len, mi', w')
              end
          | Err e => (Err e, here, len, mi, w) | Panic => (Panic, here, len, mi, w)
          | Abort => (Abort, here, len, mi, w) | UB => (UB, here, len, mi, w)
          end
      end.

    (** the end of the MergeIter: peeked items are dropped, then the two
        IntoIters.  Result: the dropped entries and the freed nodes of each tree. *)
    Definition peeked (p : peekable) : list kv := match pk p with Some (Some x) => [x] | _ => [] end.
    Definition drop_peekable (p : peekable) : outcome Empty_set (list kv * list path) :=
      match drop_into_iter (pinner p) with
      | Ret (l, fr) => Ret (peeked p ++ l, fr)
      | Err e => Err e | Panic => Panic | Abort => Abort | UB => UB
      end.

    (** map.rs 830-853.  Result: outcome, self, other, the used up MergeIter if
        one was made, the world.  On [Ret] and [Panic] it has been dropped. *)
    Definition append (m o : bmap) (w : W)
      : outcome Empty_set unit * bmap * bmap * option merge_iter * W :=
      if len o =? 0 then (Ret tt, m, o, None, w)
      else if len m =? 0 then (Ret tt, o, m, None, w)
      else
        match map_into_iter m, map_into_iter o with
        | Ret li, Ret ri =>
            let mi := MergeIter (Peekable None li) (Peekable None ri) [] in
            (* self is the empty map now; ensure_root_is_owned().expect() *)
            match new_leaf K V nalloc w with
            | (Ret leaf, w1) =>
                let '(r, (n, h), l, mi', w2) := from_sorted_loop (len m + len o + 1) mi leaf [] 0 w1 in
                match r with
                | Ret _ =>
                    match fix_right_edge h n with
                    | Ret n' => (Ret tt, BMap false n' h l, new, Some mi', w2)
                    | Err e => (Err e, BMap false n h l, new, Some mi', w2)
                    | Panic => (Panic, BMap false n h l, new, Some mi', w2)
                    | Abort => (Abort, BMap false n h l, new, Some mi', w2)
                    | UB => (UB, BMap false n h l, new, Some mi', w2)
                    end
                | Err e => (Err e, BMap false n h l, new, Some mi', w2)
                | Panic => (Panic, BMap false n h l, new, Some mi', w2)
                | Abort => (Abort, BMap false n h l, new, Some mi', w2)
                | UB => (UB, BMap false n h l, new, Some mi', w2)
                end
            | (Err _, w1) => (Panic, new, new, Some mi, w1)
            | (Panic, w1) => (Panic, new, new, Some mi, w1)
            | (Abort, w1) => (Abort, new, new, Some mi, w1) | (UB, w1) => (UB, new, new, Some mi, w1)
            end
        | _, _ => (UB, m, o, None, w)
        end.

    (** ** Clone *)
    Section Clone.
      Variables (kclone : K -> W -> outcome reserve_error K * W) (vclone : V -> W -> outcome reserve_error V * W).

      (** [k.try_clone()?] then [v.try_clone()?]; a cloned key is dropped when
          the value fails *)
      Definition kv_clone (x : kv) (w : W) : outcome reserve_error kv * W :=
        match kclone (fst x) w with
        | (Ret k, w1) =>
            match vclone (snd x) w1 with
            | (Ret v, w2) => (Ret (k, v), w2)
            | (Err e, w2) => (Err e, w2)
            | (Panic, w2) => (Panic, w2) | (Abort, w2) => (Abort, w2) | (UB, w2) => (UB, w2)
            end
        | (Err e, w1) => (Err e, w1)
        | (Panic, w1) => (Panic, w1) | (Abort, w1) => (Abort, w1) | (UB, w1) => (UB, w1)
        end.

      (** A partial result of clone_subtree: tree and length.  Outcome, and the
          maps dropped when it is not [Ret]. *)
      Definition cres := (outcome reserve_error (node * nat) * list bmap * W)%type.

      (** map.rs 161-168 (the loop over a leaf); [o], [l]: out_tree so far *)
      Fixpoint clone_leaf (xs : list kv) (o : node) (l : nat) (w : W) : cres :=
        match xs with
        | [] => (Ret (o, l), [], w)
        | x :: xs' =>
            match kv_clone x w with
            | (Ret y, w1) =>
                match push 0 y None o with
                | Some o' => clone_leaf xs' o' (l + 1) w1
                | None => (UB, [], w1)
                end
            | (Err e, w1) => (Err e, [BMap false o 0 l], w1)
            | (Panic, w1) => (Panic, [BMap false o 0 l], w1)
            | (Abort, w1) => (Abort, [], w1) | (UB, w1) => (UB, [], w1)
            end
        end.

      (** map.rs 178-198 (the loop over an internal node at height [S h]);
          [sub]: clone_subtree for its children *)
      Fixpoint clone_internal (sub : node -> W -> cres) (h : nat) (xs : list kv) (es : list node)
          (o : node) (l : nat) (w : W) : cres :=
        match xs, es with
        | [], _ => (Ret (o, l), [], w)
        | x :: xs', e :: es' =>
            match kv_clone x w with
            | (Ret y, w1) =>
                match sub e w1 with
                | (Ret (s, sl), _, w2) =>
                    match push (S h) y (Some s) o with
                    | Some o' => clone_internal sub h xs' es' o' (l + (1 + sl)) w2
                    | None => (UB, [], w2)
                    end
                | (Err er, d, w2) => (Err er, d ++ [BMap false o (S h) l], w2)
                | (Panic, d, w2) => (Panic, d ++ [BMap false o (S h) l], w2)
                | (Abort, _, w2) => (Abort, [], w2) | (UB, _, w2) => (UB, [], w2)
                end
            | (Err er, w1) => (Err er, [BMap false o (S h) l], w1)
            | (Panic, w1) => (Panic, [BMap false o (S h) l], w1)
            | (Abort, w1) => (Abort, [], w1) | (UB, w1) => (UB, [], w1)
            end
        | _ :: _, [] => (UB, [], w)
        end.

      (** map.rs 141-204 *)
      Fixpoint clone_subtree (h : nat) (n : node) (w : W) : cres :=
        match h with
        | 0 =>
            match new_leaf K V nalloc w with
            | (Ret o, w1) => clone_leaf (kvs n) o 0 w1
            | (Err e, w1) => (Err e, [], w1)
            | (Panic, w1) => (Panic, [], w1) | (Abort, w1) => (Abort, [], w1) | (UB, w1) => (UB, [], w1)
            end
        | S h' =>
            match edges n with
            | [] => (UB, [], w)
            | e0 :: es =>
                match clone_subtree h' e0 w with
                | (Ret (o, l), _, w1) =>
                    match push_level nalloc o w1 with
                    | (Ret o1, w2) => clone_internal (clone_subtree h') h' (kvs n) es o1 l w2
                    | (Err e, w2) => (Err e, [BMap false o h' l], w2)
                    | (Panic, w2) => (Panic, [BMap false o h' l], w2)
                    | (Abort, w2) => (Abort, [], w2) | (UB, w2) => (UB, [], w2)
                    end
                | (Err e, d, w1) => (Err e, d, w1)
                | (Panic, d, w1) => (Panic, d, w1) | (Abort, d, w1) => (Abort, d, w1) | (UB, d, w1) => (UB, d, w1)
                end
            end
        end.

      (** map.rs 139-216: outcome, maps dropped on the way, world *)
      Definition try_clone (m : bmap) (w : W) : outcome reserve_error bmap * list bmap * W :=
        if len m =? 0 then (Ret new, [], w)
        else match clone_subtree (bheight m) (bnode m) w with
             | (Ret (n, l), d, w') => (Ret (BMap false n (bheight m) l), d, w')
             | (Err e, d, w') => (Err e, d, w')
             | (Panic, d, w') => (Panic, d, w') | (Abort, d, w') => (Abort, d, w') | (UB, d, w') => (UB, d, w')
             end.

      (** map.rs 219-297: Clone is the same code with [expect] where try_clone
          has [?] (element clones cannot fail there) *)
      Definition clone (m : bmap) (w : W) : outcome Empty_set bmap * list bmap * W :=
        let '(o, d, w') := try_clone m w in
        (match o with Ret m' => Ret m' | Err _ => Panic | Panic => Panic | Abort => Abort | UB => UB end, d, w').
    End Clone.

    (** ** Extend, FromIterator (map.rs 1785-1808); the source iterator is its
        list of items *)
    Fixpoint extend (l : list kv) (m : bmap) (w : W) : outcome Empty_set unit * bmap * W :=
      match l with
      | [] => (Ret tt, m, w)
      | x :: l' =>
          let '(o, m1, w1) := try_insert nalloc cmp (fst x) (snd x) m w in
          match o with
          | Ret _ => extend l' m1 w1
          | Err _ => (Panic, m1, w1)
          | Panic => (Panic, m1, w1) | Abort => (Abort, m1, w1) | UB => (UB, m1, w1)
          end
      end.
    Definition from_iter (l : list kv) (w : W) : outcome Empty_set unit * bmap * W := extend l new w.
  End Alloc.

  (** ** Comparison and hashing *)
  (** map.rs 1826-1830: the [zip(..).all(..)] loop; [fuel] = items left + 1 *)
  Fixpoint zip_all (eqb : kv -> kv -> bool) (fuel : nat) (a b : iter K V) : outcome Empty_set bool :=
    match fuel with
    | 0 => UB
    | S fuel' =>
        match iter_next a with
        | Ret (None, _) => Ret true
        | Ret (Some x, a') =>
            match iter_next b with
            | Ret (None, _) => Ret true
            | Ret (Some y, b') => if eqb (fst x) (fst y) then zip_all eqb fuel' a' b' else Ret false
            | Err e => Err e | Panic => Panic | Abort => Abort | UB => UB
            end
        | Err e => Err e | Panic => Panic | Abort => Abort | UB => UB
        end
    end.
  Definition map_eq (eqb : kv -> kv -> bool) (m1 m2 : bmap) : outcome Empty_set bool :=
    if len m1 =? len m2 then
      match map_iter m1, map_iter m2 with
      | Ret a, Ret b => zip_all eqb (len m1 + 1) a b
      | _, _ => UB
      end
    else Ret false.

  (** map.rs 1834-1846: Iterator::partial_cmp (and cmp, whose comparison always
      is [Some]) of the two iterators *)
  Fixpoint iter_cmp (c : kv -> kv -> option comparison) (fuel : nat) (a b : iter K V)
    : outcome Empty_set (option comparison) :=
    match fuel with
    | 0 => UB
    | S fuel' =>
        match iter_next a with
        | Ret (None, _) =>
            match iter_next b with
            | Ret (None, _) => Ret (Some Eq)
            | Ret (Some _, _) => Ret (Some Lt)
            | Err e => Err e | Panic => Panic | Abort => Abort | UB => UB
            end
        | Ret (Some x, a') =>
            match iter_next b with
            | Ret (None, _) => Ret (Some Gt)
            | Ret (Some y, b') =>
                match c (fst x) (fst y) with
                | Some Eq => iter_cmp c fuel' a' b'
                | o => Ret o
                end
            | Err e => Err e | Panic => Panic | Abort => Abort | UB => UB
            end
        | Err e => Err e | Panic => Panic | Abort => Abort | UB => UB
        end
    end.
  Definition map_partial_cmp (c : kv -> kv -> option comparison) (m1 m2 : bmap) : outcome Empty_set (option comparison) :=
    match map_iter m1, map_iter m2 with
    | Ret a, Ret b => iter_cmp c (len m1 + 1) a b
    | _, _ => UB
    end.

  (** map.rs 1810-1816: Hash: every element in iteration order is fed to the
      hasher, whose state is [St] *)
  Fixpoint hash_loop {St} (feed : kv -> St -> St) (fuel : nat) (a : iter K V) (s : St) : outcome Empty_set St :=
    match fuel with
    | 0 => UB
    | S fuel' =>
        match iter_next a with
        | Ret (None, _) => Ret s
        | Ret (Some x, a') => hash_loop feed fuel' a' (feed (fst x) s)
        | Err e => Err e | Panic => Panic | Abort => Abort | UB => UB
        end
    end.
  Definition map_hash {St} (feed : kv -> St -> St) (m : bmap) (s : St) : outcome Empty_set St :=
    match map_iter m with
    | Ret a => hash_loop feed (len m + 1) a s
    | _ => UB
    end.
End Bulk.
