(** * HostileModel: src/btree/{search,map}.rs on raw memory with comparisons
    that are arbitrary user code.

    [Ord], [PartialEq], [PartialOrd], [Borrow] and [RangeBounds] are safe traits: their
    functions may answer anything, answer differently each time, change
    anything they can reach (the world [W]) and panic ([None]).  The functions
    below are those of HeapModel and HeapMapModel that call them, statement by statement,
    with such calls in place of pure ones; everything else is shared with
    those files.  [C42_same_program] (HostilePure.v): with pure answers
    they are the functions of HeapMapModel. *)
From Coq Require Import List Arith Lia Bool.
From Verif Require Import Base IterSpec BTreeModel BTreeIterModel HeapModel HistoryModel HeapMapModel.
Import ListNotations.
Set Implicit Arguments.

Section Hostile.
  Variables (K V W : Type).
  Notation kv := (K * V)%type.
  Notation heap := (heap K V).
  Notation HM := (HM K V).
  Notation AM := (AM K V W).
  Notation lift := (@lift K V W _).
  Notation akeys := (akeys K V).
  Notation avals := (avals K V).
  Notation hret := (@hret K V _).
  Notation aret := (@aret K V W _).
  Notation "x <~ m ;~ k" := (hbind m (fun x => k)) (at level 80, m at level 79, right associativity).
  Notation "x <- m ;- k" := (abind m (fun x => k)) (at level 80, m at level 79, right associativity).

  (** a call of user code: [None] is a panic *)
  Definition asks (A : Type) := W -> option A * W.
  Definition ask {A} (q : asks A) : AM A :=
    fun hp w => match q w with (Some a, w') => (Ret a, hp, w') | (None, w') => (Panic, hp, w') end.
  Definition aub {A} : AM A := fun hp w => (UB, hp, w).

  (** ** search.rs *)
  (** 50-66: key.cmp(k.borrow()) is [q k] *)
  Fixpoint hx_linear (q : K -> asks comparison) (l : list K) : AM (nat * bool) :=
    match l with
    | [] => aret (0, false)
    | k :: l' =>
        c <- ask (q k) ;-
        match c with
        | Gt => r <- hx_linear q l' ;- aret (S (fst r), snd r)
        | Eq => aret (0, true)
        | Lt => aret (0, false)
        end
    end.
  Definition hx_search_linear (q : K -> asks comparison) (r : nref) : AM (nat * bool) :=
    ks <- lift (n_keys r) ;- hx_linear q ks.
  (** 14-48; [fuel]: one more than the height *)
  Fixpoint hx_search_tree (fuel : nat) (q : K -> asks comparison) (r : nref) : AM hsearch :=
    match fuel with
    | 0 => aub
    | S fuel' =>
        s <- hx_search_linear q r ;-
        if snd s then lift (h <~ new_kv r (fst s) ;~ hret (HFound h))
        else e <- lift (new_edge r (fst s)) ;-
             match rh r with
             | 0 => aret (HGoDown e)
             | S _ => c <- lift (h_descend e) ;- hx_search_tree fuel' q c
             end
    end.
  Definition hx_search (q : K -> asks comparison) (m : hmap) : AM hsearch := hx_search_tree (S (rh (mroot m))) q (mroot m).

  (** map.rs 657-666 *)
  Definition hx_get_key_value (q : K -> asks comparison) (m : hmap) : AM (option kv) :=
    s <- hx_search q m ;-
    match s with
    | HFound h => lift (x <~ h_into_kv h ;~ hret (Some x))
    | HGoDown _ => aret None
    end.
  (** map.rs 716-725 *)
  Definition hx_get_mut (q : K -> asks comparison) (m : hmap) : AM (option place_) :=
    s <- hx_search q m ;-
    match s with
    | HFound h => lift (a <~ h_kv_mut h ;~ hret (Some a))
    | HGoDown _ => aret None
    end.
  (** map.rs 783-799, 313-326 *)
  Definition hx_remove_entry (q : K -> asks comparison) (m : hmap) : AM (option kv * hmap) :=
    s <- hx_search q m ;-
    match s with
    | HFound h => lift (r <~ h_remove_entry_at m h ;~ hret (Some (fst r), snd r))
    | HGoDown _ => aret (None, m)
    end.

  (** ** range_search (map.rs 1898-1994) *)
  Section RangeSearch.
    Variable Q : Type.
    (** [Q: Ord] against a key, [==] and [>] between bounds, start_bound()/end_bound() *)
    Variables (qcmp : Q -> K -> asks comparison) (qeq qgt : Q -> Q -> asks bool) (view : bound_ Q -> asks (bound_ Q)).

    (** 1910-1923 *)
    Definition hx_bad (lo hi : bound_ Q) : AM bool :=
      a <- ask (view lo) ;- b <- ask (view hi) ;-
      match a, b with
      | Excluded s, Excluded e =>
          x <- ask (qeq s e) ;- if (x : bool) then aret true else ask (qgt s e)
      | Included s, Included e | Included s, Excluded e | Excluded s, Included e => ask (qgt s e)
      | _, _ => aret false
      end.
    (** 1932-1950 *)
    Definition hx_min_edge (found : bool) (lo : bound_ Q) (r : nref) : AM (nat * bool) :=
      a <- ask (view lo) ;-
      match found, a with
      | false, Included q => hx_search_linear (qcmp q) r
      | false, Excluded q => s <- hx_search_linear (qcmp q) r ;- aret (if snd s then fst s + 1 else fst s, snd s)
      | _, Unbounded => aret (0, found)
      | true, Included _ => lift (ks <~ n_keys r ;~ hret (length ks, true))
      | true, Excluded _ => aret (0, true)
      end.
    (** 1952-1970 *)
    Definition hx_max_edge (found : bool) (hi : bound_ Q) (r : nref) : AM (nat * bool) :=
      a <- ask (view hi) ;-
      match found, a with
      | false, Included q => s <- hx_search_linear (qcmp q) r ;- aret (if snd s then fst s + 1 else fst s, snd s)
      | false, Excluded q => hx_search_linear (qcmp q) r
      | _, Unbounded => lift (ks <~ n_keys r ;~ hret (length ks, found))
      | true, Included _ => aret (0, true)
      | true, Excluded _ => lift (ks <~ n_keys r ;~ hret (length ks, true))
      end.
    (** 1925-1993; [fuel]: one more than the height *)
    Fixpoint hx_range_loop (fuel : nat) (lo hi : bound_ Q) (minr maxr : nref) (minf maxf diverged : bool) : AM hrange :=
      match fuel with
      | 0 => aub
      | S fuel' =>
          a <- hx_min_edge minf lo minr ;-
          b <- hx_max_edge maxf hi maxr ;-
          if negb diverged && (fst b <? fst a) then fun hp w => (Panic, hp, w)
          else
            let diverged' := diverged || negb (fst a =? fst b) in
            f <- lift (new_edge minr (fst a)) ;- g <- lift (new_edge maxr (fst b)) ;-
            match rh minr, rh maxr with
            | 0, 0 => aret (HRange f g)
            | S _, S _ => c <- lift (h_descend f) ;- d <- lift (h_descend g) ;-
                          hx_range_loop fuel' lo hi c d (snd a) (snd b) diverged'
            | _, _ => aub
            end
      end.
    (** map.rs 885-896, 929-944 *)
    Definition hx_range (lo hi : bound_ Q) (m : hmap) : AM hrange :=
      b <- hx_bad lo hi ;-
      if (b : bool) then fun hp w => (Panic, hp, w)
      else hx_range_loop (S (rh (mroot m))) lo hi (mroot m) (mroot m) false false false.
  End RangeSearch.

  (** ** append: MergeIter::next (map.rs 2662-2684).  When the comparison
      panics both sides have been peeked *)
  Definition hx_merge_next (kcmp : K -> K -> asks comparison) (mi : hmerge K V) (hp : heap) (w : W)
    : outcome reserve_error (option kv) * hmerge K V * heap * W :=
    match lift (a <~ h_peek (hml mi) ;~ b <~ h_peek (hmr mi) ;~ hret (a, b)) hp w with
    | (Ret (a, b), hp1, w1) =>
        let go (m : HM (option kv * hmerge K V)) (hp : heap) (w : W) :=
          match lift m hp w with
          | (Ret (o, mi'), hp', w') => (Ret o, mi', hp', w')
          | (o, hp', w') => (pass o, HMerge (snd a) (snd b), hp', w')
          end in
        let left := r <~ h_pnext (snd a) ;~ hret (fst r, HMerge (snd r) (snd b)) in
        let right := r <~ h_pnext (snd b) ;~ hret (fst r, HMerge (snd a) (snd r)) in
        match fst a, fst b with
        | None, None => (Ret None, HMerge (snd a) (snd b), hp1, w1)
        | Some _, None => go left hp1 w1
        | None, Some _ => go right hp1 w1
        | Some x, Some y =>
            match kcmp (fst x) (fst y) w1 with
            | (Some Lt, w2) => go left hp1 w2
            | (Some Gt, w2) => go right hp1 w2
            | (Some Eq, w2) => go (r <~ h_pnext (snd a) ;~ s <~ h_pnext (snd b) ;~ hret (fst s, HMerge (snd r) (snd s))) hp1 w2
            | (None, w2) => (Panic, HMerge (snd a) (snd b), hp1, w2)
            end
        end
    | (o, hp1, w1) => (pass o, mi, hp1, w1)
    end.

  (** ** split_off: the loop (map.rs 1100-1126) *)
  Fixpoint hx_split_loop (fuel : nat) (q : K -> asks comparison) (l r : nref) : AM unit :=
    match fuel with
    | 0 => aub
    | S fuel' =>
        s <- hx_search_linear q l ;-
        e <- lift (if snd s then k <~ new_kv l (fst s) ;~ left_edge k else new_edge l (fst s)) ;-
        x <- lift (h_move_suffix (fst e) (snd e) r) ;-
        match rh l, rh r with
        | S _, S _ => cl <- lift (h_descend e) ;- fe <- lift (first_edge r) ;- cr <- lift (h_descend fe) ;-
                      hx_split_loop fuel' q cl cr
        | 0, 0 => aret tt
        | _, _ => aub
        end
    end.

  (** ** Comparison of maps (map.rs 1826-1846) *)
  Fixpoint hx_zip_all (eqb : kv -> kv -> asks bool) (fa fb : nat) (fuel : nat) (a b : hiter) : AM bool :=
    match fuel with
    | 0 => aub
    | S fuel' =>
        x <- lift (h_iter_next fa a) ;-
        match fst x with
        | None => aret true
        | Some u =>
            y <- lift (h_iter_next fb b) ;-
            match fst y with
            | None => aret true
            | Some v => c <- ask (eqb (fst u) (fst v)) ;-
                        if (c : bool) then hx_zip_all eqb fa fb fuel' (snd x) (snd y) else aret false
            end
        end
    end.
  Definition hx_eq (eqb : kv -> kv -> asks bool) (m1 m2 : hmap) : AM bool :=
    if mlen m1 =? mlen m2 then
      a <- lift (h_iter m1) ;- b <- lift (h_iter m2) ;- hx_zip_all eqb (rh (mroot m1)) (rh (mroot m2)) (mlen m1 + 1) a b
    else aret false.
  Fixpoint hx_iter_cmp (c : kv -> kv -> asks (option comparison)) (fa fb : nat) (fuel : nat) (a b : hiter) : AM (option comparison) :=
    match fuel with
    | 0 => aub
    | S fuel' =>
        x <- lift (h_iter_next fa a) ;-
        match fst x with
        | None => y <- lift (h_iter_next fb b) ;- aret (match fst y with None => Some Eq | Some _ => Some Lt end)
        | Some u =>
            y <- lift (h_iter_next fb b) ;-
            match fst y with
            | None => aret (Some Gt)
            | Some v => o <- ask (c (fst u) (fst v)) ;-
                        match o with
                        | Some Eq => hx_iter_cmp c fa fb fuel' (snd x) (snd y)
                        | o => aret o
                        end
            end
        end
    end.
  Definition hx_cmp (c : kv -> kv -> asks (option comparison)) (m1 m2 : hmap) : AM (option comparison) :=
    a <- lift (h_iter m1) ;- b <- lift (h_iter m2) ;- hx_iter_cmp c (rh (mroot m1)) (rh (mroot m2)) (mlen m1 + 1) a b.

  Section Alloc.
    Variable nalloc : bool -> W -> option reserve_error * W.
    Variable place : heap -> W -> loc.
    Variable kcmp : K -> K -> asks comparison.

    (** map.rs 965-981 *)
    Definition hx_try_entry (k : K) (m : hmap) (hp : heap) (w : W)
      : outcome reserve_error (hentry K) * hmap * heap * W :=
      let '(o, m1, hp1, w1) := h_ensure_root_is_owned nalloc place m hp w in
      match o with
      | Ret _ =>
          match hx_search (kcmp k) m1 hp1 w1 with
          | (Ret (HFound h), hp2, w2) => (Ret (HOccupied _ h), m1, hp2, w2)
          | (Ret (HGoDown h), hp2, w2) => (Ret (HVacant k h), m1, hp2, w2)
          | (o2, hp2, w2) => (pass o2, m1, hp2, w2)
          end
      | o => (pass o, m1, hp1, w1)
      end.
    (** map.rs 754-762 *)
    Definition hx_try_insert (k : K) (v : V) (m : hmap) (hp : heap) (w : W)
      : outcome reserve_error (option V) * hmap * heap * W :=
      let '(o, m1, hp1, w1) := hx_try_entry k m hp w in
      match o with
      | Ret (HOccupied _ h) => let '(o2, hp2, w2) := lift (h_occupied_insert h v) hp1 w1 in (omap Some o2, m1, hp2, w2)
      | Ret (HVacant k h) =>
          let '(o2, m2, hp2, w2) := h_vacant_insert nalloc place m1 h (k, v) hp1 w1 in
          (omap (fun _ => None) o2, m2, hp2, w2)
      | o => (pass o, m1, hp1, w1)
      end.
    (** map.rs 328-343 *)
    Definition hx_replace_key (k : K) (v : V) (m : hmap) (hp : heap) (w : W)
      : outcome reserve_error (option K) * hmap * heap * W :=
      let '(o, m1, hp1, w1) := hx_try_entry k m hp w in
      match o with
      | Ret (HOccupied _ h) =>
          let '(o2, hp2, w2) := lift (a <~ h_kv_mut h ;~ ref_write_key a k) hp1 w1 in (omap Some o2, m1, hp2, w2)
      | Ret (HVacant k h) =>
          let '(o2, m2, hp2, w2) := h_vacant_insert nalloc place m1 h (k, v) hp1 w1 in
          (omap (fun _ => None) o2, m2, hp2, w2)
      | o => (pass o, m1, hp1, w1)
      end.
    (** map.rs 1794-1801, 1803-1808 *)
    Fixpoint hx_extend (l : list kv) (m : hmap) (hp : heap) (w : W) : outcome reserve_error unit * hmap * heap * W :=
      match l with
      | [] => (Ret tt, m, hp, w)
      | x :: l' =>
          let '(o, m1, hp1, w1) := hx_try_insert (fst x) (snd x) m hp w in
          match o with
          | Ret _ => hx_extend l' m1 hp1 w1
          | o => (expect (pass o), m1, hp1, w1)
          end
      end.

    (** map.rs 1084-1140.  A panic in the loop drops [right], whose length is 0;
        [self] keeps its length. *)
    Definition hx_split_off (q : K -> asks comparison) (m : hmap) (hp : heap) (w : W)
      : outcome reserve_error hmap * hmap * heap * W :=
      if mlen m =? 0 then (Ret h_new, m, hp, w)
      else
        match h_new_leaf nalloc place hp w with
        | (Ret leaf, hp1, w1) =>
            let '(o, r, hp2, w2) := h_push_levels nalloc place (rh (mroot m)) leaf hp1 w1 in
            match o with
            | Ret _ =>
                match hx_split_loop (S (rh (mroot m))) q (mroot m) r hp2 w2 with
                | (Ret _, hp3, w3) =>
                    let '(o4, hp4, w4) :=
                      lift (ls <~ h_fix_border (@h_fix_right_loop K V) (mroot m) ;~
                            rs <~ h_fix_border (@h_fix_left_loop K V) r ;~
                            if rh ls <? rh rs then
                              n <~ h_dfs (S (rh ls)) ls ;~ hret (HMap rs (mlen m - n), HMap ls n)
                            else
                              n <~ h_dfs (S (rh rs)) rs ;~ hret (HMap rs n, HMap ls (mlen m - n))) hp3 w3 in
                    match o4 with
                    | Ret (rm, self) => (Ret rm, self, hp4, w4)
                    | o4 => (pass o4, m, hp4, w4)
                    end
                | (Panic, hp3, w3) =>
                    match h_drop (HMap r 0) hp3 with
                    | Some (_, hp4) => (Panic, m, hp4, w3)
                    | None => (UB, m, hp3, w3)
                    end
                | (o3, hp3, w3) => (pass o3, m, hp3, w3)
                end
            | o => (* right is dropped; its length is 0 *)
                match h_drop (HMap r 0) hp2 with
                | Some (_, hp3) => (pass o, m, hp3, w2)
                | None => (UB, m, hp2, w2)
                end
            end
        | (o, hp1, w1) =>                             (* right is the empty map *)
            match h_drop h_new hp1 with
            | Some (_, hp2) => (pass o, m, hp2, w1)
            | None => (UB, m, hp1, w1)
            end
        end.

    (** map.rs 983-1030: the loop of from_sorted_iter; [fuel]: the items left plus one *)
    Fixpoint hx_from_sorted (fuel : nat) (mi : hmerge K V) (root cur : nref) (len : nat) (hp : heap) (w : W)
      : outcome reserve_error unit * hmap * hmerge K V * heap * W :=
      match fuel with
      | 0 => (UB, HMap root len, mi, hp, w)
      | S fuel' =>
          let '(o, mi', hp1, w1) := hx_merge_next kcmp mi hp w in
          match o with
          | Ret None => (Ret tt, HMap root len, mi', hp1, w1)
          | Ret (Some x) =>
              let '(o2, root', hp2, w2) := h_push_sorted nalloc place x root cur hp1 w1 in
              match o2 with
              | Ret cur' => hx_from_sorted fuel' mi' root' cur' (len + 1) hp2 w2
              | o2 => (pass o2, HMap root' len, mi', hp2, w2)
              end
          | o => (pass o, HMap root len, mi', hp1, w1)
          end
      end.
    (** map.rs 830-853: outcome, self, other *)
    Definition hx_append (m o : hmap) (hp : heap) (w : W) : outcome reserve_error unit * hmap * hmap * heap * W :=
      if mlen o =? 0 then (Ret tt, m, o, hp, w)
      else if mlen m =? 0 then (Ret tt, o, m, hp, w)
      else
        match lift (li <~ h_into_iter m ;~ ri <~ h_into_iter o ;~
                    hret (HMerge (HPeek None li (rh (mroot m))) (HPeek None ri (rh (mroot o))))) hp w with
        | (Ret mi, hp1, w1) =>
            match h_ensure_root_is_owned nalloc place h_new hp1 w1 with
            | (Ret _, m1, hp2, w2) =>
                match lift (e <~ h_last_leaf_edge (S (rh (mroot m1))) (mroot m1) ;~ hret (fst e)) hp2 w2 with
                | (Ret cur, hp3, w3) =>
                    let '(o1, m4, mi4, hp4, w4) := hx_from_sorted (mlen m + mlen o + 1) mi (mroot m1) cur 0 hp3 w3 in
                    match o1 with
                    | Ret _ =>
                        let '(o5, hp5, w5) := lift (hbind (h_drop_merge mi4) (fun _ => h_fix_right_edge (S (rh (mroot m4))) (mroot m4))) hp4 w4 in
                        (o5, m4, h_new, hp5, w5)
                    | Panic => let '(o5, hp5, w5) := lift (h_drop_merge mi4) hp4 w4 in
                               (match o5 with Ret _ => Panic | o5 => o5 end, m4, h_new, hp5, w5)
                    | o1 => (o1, m4, h_new, hp4, w4)
                    end
                | (o3, hp3, w3) => (pass o3, m1, h_new, hp3, w3)
                end
            | (Err _, m1, hp2, w2) =>                  (* expect *)
                let '(o5, hp5, w5) := lift (h_drop_merge mi) hp2 w2 in
                (match o5 with Ret _ => Panic | o5 => o5 end, m1, h_new, hp5, w5)
            | (o2, m1, hp2, w2) => (o2, m1, h_new, hp2, w2)
            end
        | (o1, hp1, w1) => (pass o1, m, o, hp1, w1)
        end.

    (** ** Programs (the operations of HistoryModel) *)
    Variables (Q : Type) (qcmp : Q -> K -> asks comparison) (qeq qgt : Q -> Q -> asks bool) (view : bound_ Q -> asks (bound_ Q)).
    Variables (kclone : K -> W -> outcome reserve_error K * W) (vclone : V -> W -> outcome reserve_error V * W).
    Variables (eqb : kv -> kv -> asks bool) (pcmp : kv -> kv -> asks (option comparison)).
    Notation obs := (obs K V).
    Notation OVal := (@OVal K V).
    Notation OKey := (@OKey K V).
    Notation OEntry := (@OEntry K V).
    Notation OItems := (@OItems K V).
    Notation OSized := (@OSized K V).
    Notation ODropped := (@ODropped K V).
    Notation hregs := (HeapMapModel.hregs).

    (** an operation whose result says what the variables are afterwards; on a
        panic they are what they were *)
    Definition done (m : AM (obs * hregs)) (s : hregs) (hp : heap) (w : W) : outcome reserve_error obs * hregs * heap * W :=
      match m hp w with
      | (Ret (o, s'), hp', w') => (Ret o, s', hp', w')
      | (o, hp', w') => (pass o, s, hp', w')
      end.

    Definition hxstep (c : op K V Q) (s : hregs) (hp : heap) (w : W)
      : outcome reserve_error obs * hregs * heap * W :=
      match c with
      | Insert r k v => let '(o, m, hp', w') := hx_try_insert k v (s r) hp w in (fmap OVal o, hup_ s r m, hp', w')
      | Replace r k v => let '(o, m, hp', w') := hx_replace_key k v (s r) hp w in (fmap OKey o, hup_ s r m, hp', w')
      | Remove r x => done (a <- hx_remove_entry (qcmp x) (s r) ;- aret (OVal (option_map snd (fst a)), hup_ s r (snd a))) s hp w
      | Take r x => done (a <- hx_remove_entry (qcmp x) (s r) ;- aret (OEntry (fst a), hup_ s r (snd a))) s hp w
      | Get r x => done (a <- hx_get_key_value (qcmp x) (s r) ;- aret (OVal (option_map snd a), s)) s hp w
      | GetKeyValue r x => done (a <- hx_get_key_value (qcmp x) (s r) ;- aret (OEntry a, s)) s hp w
      | Contains r x => done (a <- hx_get_key_value (qcmp x) (s r) ;-
                              aret (OBool match a with Some _ => true | None => false end, s)) s hp w
      | Index r x => done (a <- hx_get_key_value (qcmp x) (s r) ;-
                           match a with Some e => aret (OVal (Some (snd e)), s) | None => fun hp w => (Panic, hp, w) end) s hp w
      | GetMut r x f =>
          done (a <- hx_get_mut (qcmp x) (s r) ;-
                match a with
                | Some p => u <- lift (ref_write p f) ;- aret (OBool true, s)
                | None => aret (OBool false, s)
                end) s hp w
      | Append r t =>
          let '(o, m, m2, hp', w') := hx_append (s r) (s t) hp w in
          (fmap (fun _ => OUnit) o, hup_ (hup_ s r m) t m2, hp', w')
      | SplitOff r x t =>
          let '(o, m, hp1, w1) := hx_split_off (qcmp x) (s r) hp w in
          let s1 := hup_ s r m in
          match o with
          | Ret m2 => pure (hbind (h_drop (s t)) (fun _ => hret (Ret OUnit, hup_ s1 t m2))) s1 hp1 w1
          | o => (pass o, s1, hp1, w1)
          end
      | Extend r l => let '(o, m, hp', w') := hx_extend l (s r) hp w in (fmap (fun _ => OUnit) o, hup_ s r m, hp', w')
      | RangeOver r lo hi cs =>
          done (it <- hx_range qcmp qeq qgt view lo hi (s r) ;-
                a <- lift (hcalls (h_range_next (rh (mroot (s r)))) (h_range_next_back (rh (mroot (s r)))) cs it) ;-
                aret (OItems (map (option_map fst) (fst a)), s)) s hp w
      | RangeMut r lo hi cs ws =>
          done (it <- hx_range qcmp qeq qgt view lo hi (s r) ;-
                a <- lift (hcalls (h_range_next (rh (mroot (s r)))) (h_range_next_back (rh (mroot (s r)))) cs it) ;-
                u <- lift (ref_write_all (hchosen (fst a) ws)) ;-
                aret (OItems (map (option_map fst) (fst a)), s)) s hp w
      | EntryOr r k f v =>
          let '(o, m1, hp1, w1) := hx_try_entry k (s r) hp w in
          match o with
          | Ret en =>
              match lift (h_and_modify en f) hp1 w1 with
              | (Ret _, hp2, w2) =>
                  let '(o3, m3, hp3, w3) := h_or_try_insert_with nalloc place m1 en (fun w => (Ret v, w)) hp2 w2 in
                  let s3 := hup_ s r m3 in
                  match o3 with
                  | Ret a => pure (x <~ a_read avals (fst a) (snd a) ;~ hret (Ret (OVal (Some x)), s3)) s3 hp3 w3
                  | o3 => (pass o3, s3, hp3, w3)
                  end
              | (o2, hp2, w2) => (pass o2, hup_ s r m1, hp2, w2)
              end
          | o => (pass o, hup_ s r m1, hp1, w1)
          end
      | EntryRemove r k =>
          let '(o, m1, hp1, w1) := hx_try_entry k (s r) hp w in
          let s1 := hup_ s r m1 in
          match o with
          | Ret (HOccupied _ h) => pure (a <~ h_remove_entry_at m1 h ;~ hret (Ret (OEntry (Some (fst a))), hup_ s r (snd a))) s1 hp1 w1
          | Ret (HVacant _ _) => (Ret (OEntry None), s1, hp1, w1)
          | o => (pass o, s1, hp1, w1)
          end
      | Equal r t => done (b <- hx_eq eqb (s r) (s t) ;- aret (OBool b, s)) s hp w
      | Compare r t => done (b <- hx_cmp pcmp (s r) (s t) ;- aret (OCmp b, s)) s hp w
      (* the others compare nothing: as in HeapMapModel.hstep *)
      | New r | Clear r => pure (hbind (h_drop (s r)) (fun _ => hret (Ret OUnit, hup_ s r h_new))) s hp w
      | Len r => (Ret (ONat (mlen (s r))), s, hp, w)
      | IsEmpty r => (Ret (OBool (mlen (s r) =? 0)), s, hp, w)
      | TryClone r t =>
          let '(o, hp1, w1) := h_try_clone nalloc place kclone vclone (s r) hp w in
          match o with
          | Ret m => pure (hbind (h_drop (s t)) (fun _ => hret (Ret OUnit, hup_ s t m))) s hp1 w1
          | o => (pass o, s, hp1, w1)
          end
      | Clone r t =>
          let '(o, hp1, w1) := h_clone nalloc place kclone vclone (s r) hp w in
          match o with
          | Ret m => pure (hbind (h_drop (s t)) (fun _ => hret (Ret OUnit, hup_ s t m))) s hp1 w1
          | o => (pass o, s, hp1, w1)
          end
      | Iterate r cs =>
          pure (it <~ h_iter (s r) ;~
                a <~ hcalls (h_iter_next (rh (mroot (s r)))) (h_iter_next_back (rh (mroot (s r)))) cs it ;~
                hret (Ret (OSized (map (option_map fst) (fst a)) (xlen (snd a))), s)) s hp w
      | IterMut r cs ws =>
          pure (it <~ h_iter (s r) ;~
                a <~ hcalls (h_iter_next (rh (mroot (s r)))) (h_iter_next_back (rh (mroot (s r)))) cs it ;~
                hbind (ref_write_all (hchosen (fst a) ws)) (fun _ =>
                hret (Ret (OItems (map (option_map fst) (fst a))), s))) s hp w
      | IntoIter_ r cs =>
          pure (it <~ h_into_iter (s r) ;~
                a <~ hcalls (h_into_next (rh (mroot (s r)))) (h_into_next_back (rh (mroot (s r)))) cs it ;~
                d <~ h_drop_into_iter (rh (mroot (s r))) (snd a) ;~
                hret (Ret (ODropped (fst a) d), hup_ s r h_new)) s hp w
      end.

    (** every step with its result, the maps and the memory after it *)
    Fixpoint hxrun (l : list (op K V Q)) (s : hregs) (hp : heap) (w : W)
      : list (outcome reserve_error obs * hregs * heap) :=
      match l with
      | [] => []
      | c :: l' =>
          let '(o, s', hp', w') := hxstep c s hp w in
          (o, s', hp') :: match o with Abort | UB => [] | _ => hxrun l' s' hp' w' end
      end.
  End Alloc.
End Hostile.
