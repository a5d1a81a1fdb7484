(** * DropModel: src/btree/map.rs on raw memory with destructors of keys and
    values that are arbitrary user code: they may change the world and panic.

    What a map destroys itself is modelled: the entries of a map that is
    dropped, cleared or overwritten, the rest of an [IntoIter], the entries of
    [self] that [append] replaces, and what these drop while they unwind.
    Everything else is shared with HeapMapModel.  Simplification: the
    destructors of the partial copy that a failing clone discards, and of keys
    and values that are handed in or returned (dropped when the map is not being
    changed), are not run here. *)
From Coq Require Import List Arith Lia Bool.
From Verif Require Import Base IterSpec BTreeModel BTreeIterModel HeapModel HistoryModel HeapMapModel.
Import ListNotations.
Set Implicit Arguments.

Section Drops.
  Variables (K V W : Type).
  Notation kv := (K * V)%type.
  Notation heap := (heap K V).
  Notation HM := (HM K V).
  Notation lift := (@lift K V W _).
  Notation hret := (@hret K V _).
  Notation "x <~ m ;~ k" := (hbind m (fun x => k)) (at level 80, m at level 79, right associativity).

  (** the destructors: [false] is a panic *)
  Variables (kdrop : K -> W -> bool * W) (vdrop : V -> W -> bool * W).

  (** [drop((k, v))]: when the first destructor panics the second still runs; when that panics too the process aborts *)
  Definition kv_drop (x : kv) (w : W) : outcome reserve_error unit * W :=
    let '(a, w1) := kdrop (fst x) w in
    let '(b, w2) := vdrop (snd x) w1 in
    (match a, b with true, true => Ret tt | false, false => Abort | _, _ => Panic end, w2).

  (** a destructor of some part of memory: outcome, the entries destroyed *)
  Definition dropper := heap -> W -> outcome reserve_error unit * list kv * heap * W.
  (** two parts of a value: the second is dropped also when the first panicked *)
  Definition both (d1 d2 : dropper) : dropper := fun hp w =>
    let '(o1, l1, hp1, w1) := d1 hp w in
    match o1 with
    | Ret _ => let '(o2, l2, hp2, w2) := d2 hp1 w1 in (o2, l1 ++ l2, hp2, w2)
    | Panic => let '(o2, l2, hp2, w2) := d2 hp1 w1 in
               (match o2 with Ret _ => Panic | Panic => Abort | o2 => o2 end, l1 ++ l2, hp2, w2)
    | o1 => (o1, l1, hp1, w1)
    end.
  (** dropped while a panic unwinds *)
  Definition unwinding (d : dropper) : dropper := both (fun hp w => (Panic, [], hp, w)) d.
  Definition kv_dropper (x : kv) : dropper := fun hp w => let '(o, w') := kv_drop x w in (o, [x], hp, w').

  (** map.rs 1370: [self.for_each(drop)], with the remaining length as bound *)
  Fixpoint hd_drain (fuel n : nat) (it : hinto) (hp : heap) (w : W) : outcome reserve_error unit * list kv * hinto * heap * W :=
    match h_into_next fuel it hp with
    | None => (UB, [], it, hp, w)
    | Some ((None, it'), hp1) => (Ret tt, [], it', hp1, w)
    | Some ((Some x, it'), hp1) =>
        match n with
        | 0 => (UB, [], it', hp1, w)
        | S n' =>
            match kv_drop x w with
            | (Ret _, w1) => let '(o, l, it2, hp2, w2) := hd_drain fuel n' it' hp1 w1 in (o, x :: l, it2, hp2, w2)
            | (o, w1) => (o, [x], it', hp1, w1)
            end
        end
    end.
  (** map.rs 1368-1385; a panic skips the rest *)
  Definition hd_drop_into_iter (fuel : nat) (it : hinto) : dropper := fun hp w =>
    let '(o, l, it', hp1, w1) := hd_drain fuel (hleft it) it hp w in
    match o with
    | Ret _ =>
        let leaf := fst (hfront it') in
        if rl leaf =? sroot then (Ret tt, l, hp1, w1)
        else let '(o2, hp2, w2) := lift (h_free_spine (S fuel) leaf false) hp1 w1 in (o2, l, hp2, w2)
    | o => (o, l, hp1, w1)
    end.
  (** map.rs 129-135 *)
  Definition hd_drop (m : hmap) : dropper := fun hp w =>
    match h_into_iter m hp with
    | Some (it, hp1) => hd_drop_into_iter (rh (mroot m)) it hp1 w
    | None => (UB, [], hp, w)
    end.

  (** core::iter::Peekable: fields iter, peeked *)
  Definition hd_drop_peekable (p : hpeekable K V) : dropper :=
    both (hd_drop_into_iter (hpfuel p) (hpinner p))
         (match hpk p with Some (Some x) => kv_dropper x | _ => fun hp w => (Ret tt, [], hp, w) end).
  (** MergeIter: fields left, right *)
  Definition hd_drop_merge (mi : hmerge K V) : dropper := both (hd_drop_peekable (hml mi)) (hd_drop_peekable (hmr mi)).

  (** map.rs 2662-2684: for equal keys [self.left.next(); self.right.next()] drops what the left side gives *)
  Definition hd_merge_next (cmp : K -> K -> comparison) (mi : hmerge K V) (hp : heap) (w : W)
    : outcome reserve_error (option kv) * list kv * hmerge K V * heap * W :=
    match (a <~ h_peek (hml mi) ;~ b <~ h_peek (hmr mi) ;~ hret (a, b)) hp with
    | None => (UB, [], mi, hp, w)
    | Some ((a, b), hp1) =>
        let left := r <~ h_pnext (snd a) ;~ hret (fst r, HMerge (snd r) (snd b)) in
        let right (l : hpeekable K V) := r <~ h_pnext (snd b) ;~ hret (fst r, HMerge l (snd r)) in
        let go (m : HM (option kv * hmerge K V)) (l : list kv) (hp : heap) (w : W) :=
          match m hp with
          | Some ((o, mi'), hp') => (Ret o, l, mi', hp', w)
          | None => (UB, l, HMerge (snd a) (snd b), hp, w)
          end in
        match fst a, fst b with
        | None, None => (Ret None, [], HMerge (snd a) (snd b), hp1, w)
        | Some _, None => go left [] hp1 w
        | None, Some _ => go (right (snd a)) [] hp1 w
        | Some x, Some y =>
            match cmp (fst x) (fst y) with
            | Lt => go left [] hp1 w
            | Gt => go (right (snd a)) [] hp1 w
            | Eq =>
                match h_pnext (snd a) hp1 with
                | Some ((Some z, l'), hp2) =>
                    match kv_drop z w with
                    | (Ret _, w2) => go (right l') [z] hp2 w2
                    | (o, w2) => (pass o, [z], HMerge l' (snd b), hp2, w2)
                    end
                | Some ((None, l'), hp2) => go (right l') [] hp2 w
                | None => (UB, [], HMerge (snd a) (snd b), hp1, w)
                end
            end
        end
    end.

  Section Alloc.
    Variable nalloc : bool -> W -> option reserve_error * W.
    Variable place : heap -> W -> loc.
    Variable cmp : K -> K -> comparison.

    (** map.rs 983-1030: the loop.  When push panics (memory), the pair in hand is dropped *)
    Fixpoint hd_from_sorted (fuel : nat) (mi : hmerge K V) (root cur : nref) (len : nat) (hp : heap) (w : W)
      : outcome reserve_error unit * list kv * hmap * hmerge K V * heap * W :=
      match fuel with
      | 0 => (UB, [], HMap root len, mi, hp, w)
      | S fuel' =>
          let '(o, l, mi', hp1, w1) := hd_merge_next cmp mi hp w in
          match o with
          | Ret None => (Ret tt, l, HMap root len, mi', hp1, w1)
          | Ret (Some x) =>
              let '(o2, root', hp2, w2) := h_push_sorted nalloc place x root cur hp1 w1 in
              match o2 with
              | Ret cur' =>
                  let '(o3, l3, m3, mi3, hp3, w3) := hd_from_sorted fuel' mi' root' cur' (len + 1) hp2 w2 in
                  (o3, l ++ l3, m3, mi3, hp3, w3)
              | Panic => let '(o3, l3, hp3, w3) := unwinding (kv_dropper x) hp2 w2 in (o3, l ++ l3, HMap root' len, mi', hp3, w3)
              | o2 => (pass o2, l, HMap root' len, mi', hp2, w2)
              end
          | o => (pass o, l, HMap root len, mi', hp1, w1)
          end
      end.
    (** map.rs 830-853: outcome, destroyed entries, self, other.  from_sorted_iter owns the iterator *)
    Definition hd_append (m o : hmap) (hp : heap) (w : W) : outcome reserve_error unit * list kv * hmap * hmap * heap * W :=
      if mlen o =? 0 then (Ret tt, [], m, o, hp, w)
      else if mlen m =? 0 then (Ret tt, [], o, m, hp, w)
      else
        match (li <~ h_into_iter m ;~ ri <~ h_into_iter o ;~
               hret (HMerge (HPeek None li (rh (mroot m))) (HPeek None ri (rh (mroot o))))) hp with
        | Some (mi, hp1) =>
            match h_ensure_root_is_owned nalloc place h_new hp1 w with
            | (Ret _, m1, hp2, w2) =>
                match (e <~ h_last_leaf_edge (S (rh (mroot m1))) (mroot m1) ;~ hret (fst e)) hp2 with
                | Some (cur, hp3) =>
                    let '(o1, l, m4, mi4, hp4, w4) := hd_from_sorted (mlen m + mlen o + 1) mi (mroot m1) cur 0 hp3 w2 in
                    match o1 with
                    | Ret _ =>
                        let '(o5, l5, hp5, w5) := hd_drop_merge mi4 hp4 w4 in
                        match o5 with
                        | Ret _ => let '(o6, hp6, w6) := lift (h_fix_right_edge (S (rh (mroot m4))) (mroot m4)) hp5 w5 in
                                   (o6, l ++ l5, m4, h_new, hp6, w6)
                        | o5 => (o5, l ++ l5, m4, h_new, hp5, w5)
                        end
                    | Panic => let '(o5, l5, hp5, w5) := unwinding (hd_drop_merge mi4) hp4 w4 in (o5, l ++ l5, m4, h_new, hp5, w5)
                    | o1 => (o1, l, m4, h_new, hp4, w4)
                    end
                | None => (UB, [], m1, h_new, hp2, w2)
                end
            | (Err _, m1, hp2, w2) =>                  (* expect *)
                let '(o5, l5, hp5, w5) := unwinding (hd_drop_merge mi) hp2 w2 in (o5, l5, m1, h_new, hp5, w5)
            | (o2, m1, hp2, w2) => (o2, [], m1, h_new, hp2, w2)
            end
        | None => (UB, [], m, o, hp, w)
        end.

    (** ** Programs (the operations of HistoryModel) *)
    Variables (Q : Type) (qcmp : Q -> Q -> comparison) (borrow : K -> Q).
    Variables (kclone : K -> W -> outcome reserve_error K * W) (vclone : V -> W -> outcome reserve_error V * W).
    Variables (eqb : kv -> kv -> bool) (pcmp : kv -> kv -> option comparison).
    Notation obs := (obs K V).
    Notation ODropped := (@ODropped K V).
    Notation hstep := (hstep nalloc place cmp qcmp borrow kclone vclone eqb pcmp).

    (** the variable [t] is assigned the map [m]: it has the new value also when the destructor of the old one panics *)
    Definition hd_assign (s : hregs) (t : nat) (m : hmap) (hp : heap) (w : W) : outcome reserve_error obs * list kv * hregs * heap * W :=
      let '(o, l, hp', w') := hd_drop (s t) hp w in (fmap (fun _ => OUnit) o, l, hup_ s t m, hp', w').

    Definition hdstep (c : op K V Q) (s : hregs) (hp : heap) (w : W) : outcome reserve_error obs * list kv * hregs * heap * W :=
      match c with
      | New r | Clear r => hd_assign s r h_new hp w
      | Append r t =>
          let '(o, l, m, m2, hp', w') := hd_append (s r) (s t) hp w in
          (fmap (fun _ => OUnit) o, l, hup_ (hup_ s r m) t m2, hp', w')
      | SplitOff r x t =>
          let '(o, m, hp1, w1) := h_split_off nalloc place (look qcmp borrow x) (s r) hp w in
          let s1 := hup_ s r m in
          match o with
          | Ret m2 => hd_assign s1 t m2 hp1 w1
          | o => (pass o, [], s1, hp1, w1)
          end
      | TryClone r t =>
          let '(o, hp1, w1) := h_try_clone nalloc place kclone vclone (s r) hp w in
          match o with
          | Ret m => hd_assign s t m hp1 w1
          | o => (pass o, [], s, hp1, w1)
          end
      | Clone r t =>
          let '(o, hp1, w1) := h_clone nalloc place kclone vclone (s r) hp w in
          match o with
          | Ret m => hd_assign s t m hp1 w1
          | o => (pass o, [], s, hp1, w1)
          end
      | IntoIter_ r cs =>
          match (it <~ h_into_iter (s r) ;~
                 hcalls (h_into_next (rh (mroot (s r)))) (h_into_next_back (rh (mroot (s r)))) cs it) hp with
          | Some ((outs, it), hp1) =>
              let '(o, l, hp2, w2) := hd_drop_into_iter (rh (mroot (s r))) it hp1 w in
              (fmap (fun _ => ODropped outs l) o, l, hup_ s r h_new, hp2, w2)
          | None => (UB, [], s, hp, w)
          end
      | c => let '(o, s', hp', w') := hstep c s hp w in (o, [], s', hp', w')
      end.

    (** every step with its result, the entries it destroyed, the maps and the memory after it *)
    Fixpoint hdrun (l : list (op K V Q)) (s : hregs) (hp : heap) (w : W)
      : list (outcome reserve_error obs * list kv * hregs * heap) :=
      match l with
      | [] => []
      | c :: l' =>
          let '(o, d, s', hp', w') := hdstep c s hp w in
          (o, d, s', hp') :: match o with Abort | UB => [] | _ => hdrun l' s' hp' w' end
      end.
  End Alloc.
End Drops.
