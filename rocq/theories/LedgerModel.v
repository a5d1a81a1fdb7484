(** * LedgerModel: the programs of HistoryModel with a record of what becomes of
    every key and value

    The functions of BTreeModel and BTreeBulkModel that own keys and values are
    repeated here with a trace ([fate]) of the keys and values that they make (by
    cloning), drop, or leak.  [LedgerProofs.lstep_erase] proves that without the
    trace they are the functions of the model.  Functions that only lend
    references are used as they are.  Simplification: the order within a trace
    is not meant to be that of the destructor calls, and destructors return (for
    panicking ones see DropModel). *)
From Coq Require Import List Arith Lia Bool.
From Verif Require Import Base MapSpec IterSpec BTreeModel BTreeInsert BTreeIterModel BTreeBulkModel BTreeWrites HistoryModel.
Import ListNotations.
Set Implicit Arguments.

Section Ledger.
  Variables (K V : Type).
  Notation kv := (K * V)%type.
  Notation node := (node K V).
  Notation bmap := (bmap K V).
  Notation ctx := (ctx K V).
  Notation handle := (handle K V).

  Inductive fate :=
  | KMade (k : K) | VMade (v : V)      (* came into being: cloned, or written by the caller through a reference *)
  | KDrop (k : K) | VDrop (v : V)      (* dropped, or overwritten by the caller through a reference *)
  | Leak (n : node).                    (* a tree that is neither owned by anything nor dropped *)
  Definition drops (l : list kv) : list fate := flat_map (fun x => [KDrop (fst x); VDrop (snd x)]) l.

  (** a map that goes out of scope (map.rs 129-135) *)
  Definition l_drop (m : bmap) : outcome reserve_error unit * list fate :=
    match drop_map m with
    | Ret (l, _) => (Ret tt, drops l)
    | Err e => match e with end | Panic => (Panic, []) | Abort => (Abort, []) | UB => (UB, [])
    end.
  Fixpoint l_drop_all (l : list bmap) : outcome reserve_error unit * list fate :=
    match l with
    | [] => (Ret tt, [])
    | m :: l' => match l_drop m with
                 | (Ret _, t) => let '(o, t') := l_drop_all l' in (o, t ++ t')
                 | r => r
                 end
    end.

  (** a write through a reference: the old value is overwritten with [f] of it *)
  Definition l_write (n : node) (a : addr) (f : V -> V) : list fate :=
    match kv_at n a with Some x => [VDrop (snd x); VMade (f (snd x))] | None => [] end.
  Fixpoint l_write_all (ws : list (addr * (V -> V))) (m : bmap) : option bmap * list fate :=
    match ws with
    | [] => (Some m, [])
    | (a, f) :: ws' =>
        match update_at a (write_val f) m with
        | Some m' => let '(o, t) := l_write_all ws' m' in (o, l_write (bnode m) a f ++ t)
        | None => (None, [])
        end
    end.

  Section Alloc.
    Variables (W : Type) (nalloc : bool -> W -> option reserve_error * W).

    (** map.rs 2390-2406, BTreeModel.insert_up.  When [?] leaves the loop, [ins_k]
        and [ins_v] are dropped; [ins_edge] is a [Root], which has no destructor *)
    Fixpoint l_insert_up (H : nat) (l : node) (x : kv) (r : node) (right : bool) (a : addr) (c : ctx) (w : W)
      : outcome reserve_error addr * (node * nat) * list fate * W :=
      let lost := [KDrop (fst x); VDrop (snd x); Leak r] in
      match c with
      | [] =>
          match push_level nalloc l w with
          | (Ret root, w') =>
              match push 1 x (Some r) root with
              | Some root' => (Ret ((if right then 1 else 0) :: fst a, snd a), (root', H + 1), [], w')
              | None => (UB, (root, H + 1), [], w')
              end
          | (Err e, w') => (Err e, (l, H), lost, w')
          | (Panic, w') => (Panic, (l, H), [], w') | (Abort, w') => (Abort, (l, H), [], w') | (UB, w') => (UB, (l, H), [], w')
          end
      | f :: c' =>
          match internal_insert nalloc (fidx f) x r right (fill f l) w with
          | (Ret (Fit n, (_, j)), w') => (Ret (cpath c' ++ j :: fst a, snd a), (plug n c', H), [], w')
          | (Ret (Split l' y r', (right', j)), w') => l_insert_up H l' y r' right' (j :: fst a, snd a) c' w'
          | (Err e, w') => (Err e, (plug (fill f l) c', H), lost, w')
          | (Panic, w') => (Panic, (plug (fill f l) c', H), [], w')
          | (Abort, w') => (Abort, (plug (fill f l) c', H), [], w')
          | (UB, w') => (UB, (plug (fill f l) c', H), [], w')
          end
      end.

    (** map.rs 2370-2407: VacantEntry::try_insert *)
    Definition l_vacant_insert (m : bmap) (k : K) (hd : handle) (v : V) (w : W)
      : outcome reserve_error addr * bmap * list fate * W :=
      let len' := blen m + 1 in
      match leaf_insert nalloc (hi hd) (k, v) (hn hd) w with
      | (Ret (Fit n, (_, i)), w') => (Ret (hpath hd, i), BMap (bshared m) (plug n (hc hd)) (bheight m) len', [], w')
      | (Ret (Split l y r, (rt, i)), w') =>
          let '(o, (n, h), t, w'') := l_insert_up (bheight m) l y r rt ([], i) (hc hd) w' in
          (o, BMap (bshared m) n h len', t, w'')
      | (Err e, w') => (Err e, BMap (bshared m) (bnode m) (bheight m) len', [KDrop k; VDrop v], w')
      | (Panic, w') => (Panic, BMap (bshared m) (bnode m) (bheight m) len', [], w')
      | (Abort, w') => (Abort, BMap (bshared m) (bnode m) (bheight m) len', [], w')
      | (UB, w') => (UB, BMap (bshared m) (bnode m) (bheight m) len', [], w')
      end.

    Variable cmp : K -> K -> comparison.

    (** map.rs 965-981: a vacant entry owns the key *)
    Definition l_try_entry (k : K) (m : bmap) (w : W) : outcome reserve_error (entry K V) * bmap * list fate * W :=
      let '(o, m1, w1) := ensure_root_is_owned nalloc m w in
      match o with
      | Ret _ =>
          match search (cmp k) m1 with
          | Some (Found hd) => (Ret (Occupied hd), m1, [KDrop k], w1)
          | Some (GoDown hd) => (Ret (Vacant k hd), m1, [], w1)
          | None => (UB, m1, [], w1)
          end
      | Err e => (Err e, m1, [KDrop k], w1) | Panic => (Panic, m1, [], w1) | Abort => (Abort, m1, [], w1) | UB => (UB, m1, [], w1)
      end.

    (** map.rs 754-762 *)
    Definition l_try_insert (k : K) (v : V) (m : bmap) (w : W) : outcome reserve_error (option V) * bmap * list fate * W :=
      let '(o, m1, t, w1) := l_try_entry k m w in
      match o with
      | Ret (Occupied hd) => let '(o2, m2) := occupied_insert m1 hd v in (omap Some o2, m2, t, w1)
      | Ret (Vacant k hd) =>
          let '(o2, m2, t2, w2) := l_vacant_insert m1 k hd v w1 in (omap (fun _ => None) o2, m2, t ++ t2, w2)
      | Err e => (Err e, m1, t ++ [VDrop v], w1) | Panic => (Panic, m1, t, w1) | Abort => (Abort, m1, t, w1) | UB => (UB, m1, t, w1)
      end.

    (** map.rs 328-343: Recover::replace.  The given key takes the place of the
        stored one; the unit value of a set is dropped when there is one already *)
    Definition l_replace_key (k : K) (v : V) (m : bmap) (w : W) : outcome reserve_error (option K) * bmap * list fate * W :=
      let '(o, m1, w1) := try_entry nalloc cmp k m w in
      match o with
      | Ret (Occupied hd) =>
          match into_kv hd, update_at (haddr hd) (fun e => (k, snd e)) m1 with
          | Some e, Some m2 => (Ret (Some (fst e)), m2, [VDrop v], w1)
          | _, _ => (UB, m1, [], w1)
          end
      | Ret (Vacant k hd) =>
          let '(o2, m2, t2, w2) := l_vacant_insert m1 k hd v w1 in (omap (fun _ => None) o2, m2, t2, w2)
      | Err e => (Err e, m1, [KDrop k; VDrop v], w1) | Panic => (Panic, m1, [], w1) | Abort => (Abort, m1, [], w1) | UB => (UB, m1, [], w1)
      end.

    (** map.rs 783-799, 2571-2573: only the value is returned *)
    Definition l_remove (q : K -> comparison) (m : bmap) : outcome Empty_set (option V) * bmap * list fate :=
      let '(o, m') := remove_entry q m in
      (omap (option_map snd) o, m', match o with Ret (Some x) => [KDrop (fst x)] | _ => [] end).

    (** map.rs 1796-1800: a replaced value is dropped; when an insertion panics the items not yet inserted are dropped with the iterator *)
    Fixpoint l_extend (l : list kv) (m : bmap) (w : W) : outcome Empty_set unit * bmap * list fate * W :=
      match l with
      | [] => (Ret tt, m, [], w)
      | x :: l' =>
          let '(o, m1, t, w1) := l_try_insert (fst x) (snd x) m w in
          match o with
          | Ret old => let '(o2, m2, t2, w2) := l_extend l' m1 w1 in
                       (o2, m2, t ++ match old with Some v => [VDrop v] | None => [] end ++ t2, w2)
          | Err _ => (Panic, m1, t ++ drops l', w1)
          | Panic => (Panic, m1, t, w1) | Abort => (Abort, m1, t, w1) | UB => (UB, m1, t, w1)
          end
      end.

    (** map.rs 983-1030: when push panics, the pair in hand is dropped: the last component of the result *)
    Fixpoint l_from_sorted (fuel : nat) (mi : merge_iter K V) (n : node) (c : ctx) (len : nat) (w : W)
      : outcome Empty_set unit * (node * nat) * nat * merge_iter K V * W * list kv :=
      let here := (plug n c, length c) in
      match fuel with
      | 0 => (UB, here, len, mi, w, [])
      | S fuel' =>
          match merge_next cmp mi with
          | Ret (None, mi') => (Ret tt, here, len, mi', w, [])
          | Ret (Some x, mi') =>
              match push_sorted nalloc x n c w with
              | (Ret (n', c'), _, w') => l_from_sorted fuel' mi' n' c' (len + 1) w'
              | (Err e, t, w') => (Err e, t, len, mi', w', [])
              | (Panic, t, w') => (Panic, t, len, mi', w', [x])
              | (Abort, t, w') => (Abort, t, len, mi', w', []) | (UB, t, w') => (UB, t, len, mi', w', [])
              end
          | Err e => (Err e, here, len, mi, w, []) | Panic => (Panic, here, len, mi, w, [])
          | Abort => (Abort, here, len, mi, w, []) | UB => (UB, here, len, mi, w, [])
          end
      end.
    (** map.rs 830-853 *)
    Definition l_append (m o : bmap) (w : W) : outcome Empty_set unit * bmap * bmap * option (merge_iter K V) * W * list kv :=
      if len o =? 0 then (Ret tt, m, o, None, w, [])
      else if len m =? 0 then (Ret tt, o, m, None, w, [])
      else
        match map_into_iter m, map_into_iter o with
        | Ret li, Ret ri =>
            let mi := MergeIter (Peekable None li) (Peekable None ri) [] in
            match new_leaf K V nalloc w with
            | (Ret leaf, w1) =>
                let '(r, (n, h), l, mi', w2, x) := l_from_sorted (len m + len o + 1) mi leaf [] 0 w1 in
                match r with
                | Ret _ =>
                    match fix_right_edge h n with
                    | Ret n' => (Ret tt, BMap false n' h l, new, Some mi', w2, x)
                    | Err e => (Err e, BMap false n h l, new, Some mi', w2, x)
                    | Panic => (Panic, BMap false n h l, new, Some mi', w2, x)
                    | Abort => (Abort, BMap false n h l, new, Some mi', w2, x)
                    | UB => (UB, BMap false n h l, new, Some mi', w2, x)
                    end
                | Err e => (Err e, BMap false n h l, new, Some mi', w2, x)
                | Panic => (Panic, BMap false n h l, new, Some mi', w2, x)
                | Abort => (Abort, BMap false n h l, new, Some mi', w2, x)
                | UB => (UB, BMap false n h l, new, Some mi', w2, x)
                end
            | (Err _, w1) => (Panic, new, new, Some mi, w1, [])
            | (Panic, w1) => (Panic, new, new, Some mi, w1, [])
            | (Abort, w1) => (Abort, new, new, Some mi, w1, []) | (UB, w1) => (UB, new, new, Some mi, w1, [])
            end
        | _, _ => (UB, m, o, None, w, [])
        end.

    (** ** Clone *)
    Section Clone.
      Variables (kclone : K -> W -> outcome reserve_error K * W) (vclone : V -> W -> outcome reserve_error V * W).

      Definition l_kv_clone (x : kv) (w : W) : outcome reserve_error kv * list fate * W :=
        match kclone (fst x) w with
        | (Ret k, w1) =>
            match vclone (snd x) w1 with
            | (Ret v, w2) => (Ret (k, v), [KMade k; VMade v], w2)
            | (Err e, w2) => (Err e, [KMade k; KDrop k], w2)
            | (Panic, w2) => (Panic, [KMade k; KDrop k], w2) | (Abort, w2) => (Abort, [], w2) | (UB, w2) => (UB, [], w2)
            end
        | (Err e, w1) => (Err e, [], w1)
        | (Panic, w1) => (Panic, [], w1) | (Abort, w1) => (Abort, [], w1) | (UB, w1) => (UB, [], w1)
        end.

      Definition lcres := (outcome reserve_error (node * nat) * list bmap * list fate * W)%type.
      (** map.rs 148-172 *)
      Fixpoint l_clone_leaf (xs : list kv) (o : node) (l : nat) (w : W) : lcres :=
        match xs with
        | [] => (Ret (o, l), [], [], w)
        | x :: xs' =>
            match l_kv_clone x w with
            | (Ret y, t, w1) =>
                match push 0 y None o with
                | Some o' => let '(r, d, t', w') := l_clone_leaf xs' o' (l + 1) w1 in (r, d, t ++ t', w')
                | None => (UB, [], t, w1)
                end
            | (Err e, t, w1) => (Err e, [BMap false o 0 l], t, w1)
            | (Panic, t, w1) => (Panic, [BMap false o 0 l], t, w1)
            | (Abort, t, w1) => (Abort, [], t, w1) | (UB, t, w1) => (UB, [], t, w1)
            end
        end.
      (** map.rs 178-198: when the clone of the child fails, the cloned pair is dropped *)
      Fixpoint l_clone_internal (sub : node -> W -> lcres) (h : nat) (xs : list kv) (es : list node) (o : node) (l : nat) (w : W) : lcres :=
        match xs, es with
        | [], _ => (Ret (o, l), [], [], w)
        | x :: xs', e :: es' =>
            match l_kv_clone x w with
            | (Ret y, t, w1) =>
                match sub e w1 with
                | (Ret (s, sl), _, t2, w2) =>
                    match push (S h) y (Some s) o with
                    | Some o' => let '(r, d, t3, w3) := l_clone_internal sub h xs' es' o' (l + (1 + sl)) w2 in (r, d, t ++ t2 ++ t3, w3)
                    | None => (UB, [], t ++ t2, w2)
                    end
                | (Err er, d, t2, w2) => (Err er, d ++ [BMap false o (S h) l], t ++ t2 ++ [KDrop (fst y); VDrop (snd y)], w2)
                | (Panic, d, t2, w2) => (Panic, d ++ [BMap false o (S h) l], t ++ t2 ++ [KDrop (fst y); VDrop (snd y)], w2)
                | (Abort, _, t2, w2) => (Abort, [], t ++ t2, w2) | (UB, _, t2, w2) => (UB, [], t ++ t2, w2)
                end
            | (Err er, t, w1) => (Err er, [BMap false o (S h) l], t, w1)
            | (Panic, t, w1) => (Panic, [BMap false o (S h) l], t, w1)
            | (Abort, t, w1) => (Abort, [], t, w1) | (UB, t, w1) => (UB, [], t, w1)
            end
        | _ :: _, [] => (UB, [], [], w)
        end.
      (** map.rs 141-204 *)
      Fixpoint l_clone_subtree (h : nat) (n : node) (w : W) : lcres :=
        match h with
        | 0 =>
            match new_leaf K V nalloc w with
            | (Ret o, w1) => l_clone_leaf (kvs n) o 0 w1
            | (Err e, w1) => (Err e, [], [], w1)
            | (Panic, w1) => (Panic, [], [], w1) | (Abort, w1) => (Abort, [], [], w1) | (UB, w1) => (UB, [], [], w1)
            end
        | S h' =>
            match edges n with
            | [] => (UB, [], [], w)
            | e0 :: es =>
                match l_clone_subtree h' e0 w with
                | (Ret (o, l), _, t, w1) =>
                    match push_level nalloc o w1 with
                    | (Ret o1, w2) => let '(r, d, t2, w3) := l_clone_internal (l_clone_subtree h') h' (kvs n) es o1 l w2 in (r, d, t ++ t2, w3)
                    | (Err e, w2) => (Err e, [BMap false o h' l], t, w2)
                    | (Panic, w2) => (Panic, [BMap false o h' l], t, w2)
                    | (Abort, w2) => (Abort, [], t, w2) | (UB, w2) => (UB, [], t, w2)
                    end
                | (Err e, d, t, w1) => (Err e, d, t, w1)
                | (Panic, d, t, w1) => (Panic, d, t, w1) | (Abort, d, t, w1) => (Abort, d, t, w1) | (UB, d, t, w1) => (UB, d, t, w1)
                end
            end
        end.
      (** map.rs 139-216, 219-297 *)
      Definition l_try_clone (m : bmap) (w : W) : outcome reserve_error bmap * list bmap * list fate * W :=
        if len m =? 0 then (Ret new, [], [], w)
        else match l_clone_subtree (bheight m) (bnode m) w with
             | (Ret (n, l), d, t, w') => (Ret (BMap false n (bheight m) l), d, t, w')
             | (Err e, d, t, w') => (Err e, d, t, w')
             | (Panic, d, t, w') => (Panic, d, t, w') | (Abort, d, t, w') => (Abort, d, t, w') | (UB, d, t, w') => (UB, d, t, w')
             end.
      Definition l_clone (m : bmap) (w : W) : outcome Empty_set bmap * list bmap * list fate * W :=
        let '(o, d, t, w') := l_try_clone m w in
        (match o with Ret m' => Ret m' | Err _ => Panic | Panic => Panic | Abort => Abort | UB => UB end, d, t, w').

      (** ** Programs *)
      Variables (Q : Type) (qcmp : Q -> Q -> comparison) (borrow : K -> Q).
      Variables (eqb : kv -> kv -> bool) (pcmp : kv -> kv -> option comparison).
      Notation step := (@HistoryModel.step K V Q W nalloc cmp qcmp borrow kclone vclone eqb pcmp).
      Notation look := (look qcmp borrow).

      (** [t = m]: the old map is dropped *)
      Definition l_assign (s : regs K V) (t : nat) (m : bmap) (tr : list fate) (w : W)
        : outcome reserve_error (obs K V) * regs K V * list fate * W :=
        let '(o, d) := l_drop_all [s t] in (after o (Ret OUnit), upd s t m, tr ++ d, w).

      Definition lstep (c : op K V Q) (s : regs K V) (w : W) : outcome reserve_error (obs K V) * regs K V * list fate * W :=
        match c with
        | New r => l_assign s r new [] w
        | Clear r => l_assign s r (clear (s r)) [] w
        | Insert r k v => let '(o, m, t, w') := l_try_insert k v (s r) w in (fmap (@OVal K V) o, upd s r m, t, w')
        | Replace r k v => let '(o, m, t, w') := l_replace_key k v (s r) w in (fmap (@OKey K V) o, upd s r m, t, w')
        | Remove r x => let '(o, m, t) := l_remove (look x) (s r) in (fmap (@OVal K V) (cast o), upd s r m, t, w)
        | GetMut r x f =>
            match cast (get_mut (look x) (s r)) with
            | Ret (Some a) => match update_at a (write_val f) (s r) with
                              | Some m => (Ret (OBool true), upd s r m, l_write (bnode (s r)) a f, w)
                              | None => (UB, s, [], w)
                              end
            | Ret None => (Ret (OBool false), s, [], w)
            | o => (fmap (fun _ => OUnit) o, s, [], w)
            end
        | Append r t =>
            let '(o, m, m2, mi, w', x) := l_append (s r) (s t) w in
            let s' := upd (upd s r m) t m2 in
            match mi with
            | None => (fmap (fun _ => OUnit) (cast o), s', [], w')
            | Some mi =>
                match drop_peekable (mleft mi), drop_peekable (mright mi) with
                | Ret (l1, _), Ret (l2, _) => (fmap (fun _ => OUnit) (cast o), s', drops (mdropped mi ++ x ++ l1 ++ l2), w')
                | _, _ => (UB, s', [], w')
                end
            end
        | SplitOff r x t =>
            let '(o, m, ds, w') := split_off nalloc (look x) (s r) w in
            match o with
            | Ret m2 => let '(o2, d) := l_drop_all [s t] in (after o2 (Ret OUnit), upd (upd s r m) t m2, d, w')
            | o => let '(o2, d) := l_drop_all ds in (after o2 (fmap (fun _ => OUnit) o), upd s r m, d, w')
            end
        | TryClone r t =>
            let '(o, ds, tr, w') := l_try_clone (s r) w in
            match o with
            | Ret m => l_assign s t m tr w'
            | o => let '(o2, d) := l_drop_all ds in (after o2 (fmap (fun _ => OUnit) o), s, tr ++ d, w')
            end
        | Clone r t =>
            let '(o, ds, tr, w') := l_clone (s r) w in
            match o with
            | Ret m => l_assign s t m tr w'
            | o => let '(o2, d) := l_drop_all ds in (after o2 (fmap (fun _ => OUnit) (cast o)), s, tr ++ d, w')
            end
        | Extend r l => let '(o, m, t, w') := l_extend l (s r) w in (fmap (fun _ => OUnit) (cast o), upd s r m, t, w')
        | IterMut r cs ws =>
            match map_iter (s r) with
            | Ret it => match cast (calls (@iter_next K V) (@iter_next_back K V) cs it) with
                        | Ret (outs, _) =>
                            match l_write_all (chosen outs ws) (s r) with
                            | (Some m, t) => (Ret (OItems (map (option_map fst) outs)), upd s r m, t, w)
                            | (None, _) => (UB, s, [], w)
                            end
                        | o => (fmap (fun _ => OUnit) o, s, [], w)
                        end
            | o => (fmap (fun _ => OUnit) (cast o), s, [], w)
            end
        | RangeMut r lo hi cs ws =>
            match map_range qcmp borrow lo hi (s r) with
            | Ret it => match cast (calls (@range_next K V) (@range_next_back K V) cs it) with
                        | Ret (outs, _) =>
                            match l_write_all (chosen outs ws) (s r) with
                            | (Some m, t) => (Ret (OItems (map (option_map fst) outs)), upd s r m, t, w)
                            | (None, _) => (UB, s, [], w)
                            end
                        | o => (fmap (fun _ => OUnit) o, s, [], w)
                        end
            | o => (fmap (fun _ => OUnit) (cast o), s, [], w)
            end
        | IntoIter_ r cs =>
            match map_into_iter (s r) with
            | Ret it => match cast (calls (@into_next K V) (@into_next_back K V) cs it) with
                        | Ret (outs, it') =>
                            match drop_into_iter it' with
                            | Ret (l, _) => (Ret (ODropped outs l), upd s r new, drops l, w)
                            | o => (fmap (fun _ => OUnit) (cast o), upd s r new, [], w)
                            end
                        | o => (fmap (fun _ => OUnit) o, upd s r new, [], w)
                        end
            | o => (fmap (fun _ => OUnit) (cast o), upd s r new, [], w)
            end
        | EntryOr r k f v =>                                  (* v is dropped unless it is inserted *)
            let '(o, m1, t, w1) := l_try_entry k (s r) w in
            match o with
            | Ret (Occupied hd) =>
                let '(o2, m2) := and_modify m1 (Occupied hd) f in
                match o2 with
                | Ret en' =>
                    let '(o3, m3, w3) := or_try_insert_with nalloc m2 en' (fun w => (Ret v, w)) w1 in
                    (match o3 with
                     | Ret a => match kv_at (bnode m3) a with Some x => Ret (OVal K (Some (snd x))) | None => UB end
                     | o => fmap (fun _ => OUnit) o
                     end, upd s r m3, t ++ l_write (bnode m1) (haddr hd) f ++ [VDrop v], w3)
                | o => (fmap (fun _ => OUnit) o, upd s r m2, t, w1)
                end
            | Ret (Vacant k hd) =>
                let '(o3, m3, t3, w3) := l_vacant_insert m1 k hd v w1 in
                (match o3 with
                 | Ret a => match kv_at (bnode m3) a with Some x => Ret (OVal K (Some (snd x))) | None => UB end
                 | o => fmap (fun _ => OUnit) o
                 end, upd s r m3, t ++ t3, w3)
            | Err e => (Err e, upd s r m1, t ++ [VDrop v], w1)
            | Panic => (Panic, upd s r m1, t, w1) | Abort => (Abort, upd s r m1, t, w1) | UB => (UB, upd s r m1, t, w1)
            end
        | EntryRemove r k =>                                  (* a vacant entry is dropped with its key *)
            let '(o, m1, t, w1) := l_try_entry k (s r) w in
            match o with
            | Ret (Occupied hd) => let '(o2, m2) := remove_entry_at m1 hd in (fmap (fun x => OEntry (Some x)) (cast o2), upd s r m2, t, w1)
            | Ret (Vacant k hd) => (Ret (OEntry None), upd s r m1, t ++ [KDrop k], w1)
            | o => (fmap (fun _ => OUnit) o, upd s r m1, t, w1)
            end
        | c => let '(o, s', w') := step c s w in (o, s', [], w')  (* these only lend references, or hand out the entry *)
        end.

      (** every step with its result, the maps after it, and the fates *)
      Fixpoint lrun (l : list (op K V Q)) (s : regs K V) (w : W) : list (outcome reserve_error (obs K V) * regs K V * list fate) :=
        match l with
        | [] => []
        | c :: l' =>
            let '(o, s', t, w') := lstep c s w in
            (o, s', t) :: match o with Abort | UB => [] | _ => lrun l' s' w' end
        end.
    End Clone.
  End Alloc.
End Ledger.
Arguments KMade {K V}. Arguments VMade {K V}. Arguments KDrop {K V}. Arguments VDrop {K V}.
