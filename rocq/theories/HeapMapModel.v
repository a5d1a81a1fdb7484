(** * HeapMapModel: the rest of src/btree/map.rs on raw memory (layer 2):
    entries, references, range iterators, append, split_off, clone,
    comparison, and programs over any number of maps.
    As in HeapModel, [None] ([hub]) is undefined behaviour, a failed debug
    assertion or [unreachable!()]; loops whose number of turns is the height
    of the tree or the number of items carry it as [fuel]. *)
From Coq Require Import List Arith Lia Bool.
From Verif Require Import Base IterSpec BTreeModel BTreeIterModel HeapModel HistoryModel.
Import ListNotations.
Set Implicit Arguments.

Section HeapMap.
  Variables (K V : Type).
  Notation kv := (K * V)%type.
  Notation heap := (heap K V).
  Notation HM := (HM K V).
  Notation akeys := (akeys K V).
  Notation avals := (avals K V).
  Notation hub := (@hub K V _).
  Notation hret := (@hret K V _).
  Notation n_keys := (@n_keys K V).
  Notation n_len := (@n_len K V).
  Notation "x <~ m ;~ k" := (hbind m (fun x => k)) (at level 80, m at level 79, right associativity).
  Notation "m ;; k" := (hbind m (fun _ => k)) (at level 80, right associativity).

  (** a reference to a value (or a key): its slot *)
  Definition place_ := (loc * nat)%type.
  (** node.rs 1158-1179: into_kv_mut, kv_mut *)
  Definition h_kv_mut (h : hhandle) : HM place_ :=
    let '(r, i) := h in not_shared r ;; n_keys r ;; n_vals r ;; hret (rl r, i).
  (** a read and a write through a [&mut V] resp. [&mut K] (mem::replace); the
      slot must be initialised.  Result: the old value *)
  Definition ref_write (a : place_) (f : V -> V) : HM V :=
    v <~ a_read avals (fst a) (snd a) ;~ a_write avals (fst a) (snd a) (f v) ;; hret v.
  Definition ref_write_key (a : place_) (k : K) : HM K :=
    o <~ a_read akeys (fst a) (snd a) ;~ a_write akeys (fst a) (snd a) k ;; hret o.
  Fixpoint ref_write_all (l : list (place_ * (V -> V))) : HM unit :=
    match l with [] => hret tt | (a, f) :: l' => ref_write a f ;; ref_write_all l' end.

  (** map.rs 716-725 *)
  Definition h_get_mut (q : K -> comparison) (m : hmap) : HM (option place_) :=
    s <~ h_search_tree (S (rh (mroot m))) q (mroot m) ;~
    match s with
    | HFound h => a <~ h_kv_mut h ;~ hret (Some a)
    | HGoDown _ => hret None
    end.

  (** ** Range, RangeMut, Iter, IterMut *)
  Definition hitem := (kv * place_)%type.
  Record hrange := HRange { xfront : hhandle; xback : hhandle }.
  (** node.rs 915-921 *)
  Definition hhandle_eqb (a b : hhandle) : bool := (rl (fst a) =? rl (fst b)) && (snd a =? snd b).
  (** map.rs 1561-1567, 1691-1697; [fuel]: the height of the tree *)
  Definition h_range_next (fuel : nat) (r : hrange) : HM (option hitem * hrange) :=
    if hhandle_eqb (xfront r) (xback r) then hret (None, r)
    else s <~ h_next_unchecked fuel (xfront r) ;~ hret (Some (fst s), HRange (snd s) (xback r)).
  (** map.rs 1634-1640, 1738-1744 *)
  Definition h_range_next_back (fuel : nat) (r : hrange) : HM (option hitem * hrange) :=
    if hhandle_eqb (xfront r) (xback r) then hret (None, r)
    else s <~ h_next_back_unchecked fuel (xback r) ;~ hret (Some (fst s), HRange (xfront r) (snd s)).
  Record hiter := HIter { xrange : hrange; xlen : nat }.
  (** map.rs 2030-2038, 2062-2073 *)
  Definition h_iter (m : hmap) : HM hiter :=
    f <~ h_first_leaf_edge (S (rh (mroot m))) (mroot m) ;~
    b <~ h_last_leaf_edge (S (rh (mroot m))) (mroot m) ;~
    hret (HIter (HRange f b) (mlen m)).
  (** map.rs 1257-1264, 1315-1322 *)
  Definition h_iter_next (fuel : nat) (it : hiter) : HM (option hitem * hiter) :=
    if xlen it =? 0 then hret (None, it)
    else s <~ h_next_unchecked fuel (xfront (xrange it)) ;~
         hret (Some (fst s), HIter (HRange (snd s) (xback (xrange it))) (xlen it - 1)).
  (** map.rs 1275-1282, 1331-1338 *)
  Definition h_iter_next_back (fuel : nat) (it : hiter) : HM (option hitem * hiter) :=
    if xlen it =? 0 then hret (None, it)
    else s <~ h_next_back_unchecked fuel (xback (xrange it)) ;~
         hret (Some (fst s), HIter (HRange (xfront (xrange it)) (snd s)) (xlen it - 1)).

  (** a sequence of calls *)
  Fixpoint hcalls {S A} (next next_back : S -> HM (option A * S)) (ops : list end_) (s : S) : HM (list (option A) * S) :=
    match ops with
    | [] => hret ([], s)
    | e :: ops' =>
        r <~ (match e with Front => next s | Back => next_back s end) ;~
        t <~ hcalls next next_back ops' (snd r) ;~ hret (fst r :: fst t, snd t)
    end.

  (** ** range_search (map.rs 1898-1994); the panics are [Panic] *)
  Section RangeSearch.
    Variables (Q : Type) (qcmp : Q -> Q -> comparison) (borrow : K -> Q).
    (** 1932-1950, 1952-1970; [n_keys r] for [keys().len()] *)
    Definition h_min_edge (found : bool) (lo : bound_ Q) (r : nref) : HM (nat * bool) :=
      match found, lo with
      | false, Included q => h_search_linear (qof qcmp borrow q) r
      | false, Excluded q => s <~ h_search_linear (qof qcmp borrow q) r ;~
                             hret (if snd s then fst s + 1 else fst s, snd s)
      | _, Unbounded => hret (0, found)
      | true, Included _ => ks <~ n_keys r ;~ hret (length ks, true)
      | true, Excluded _ => hret (0, true)
      end.
    Definition h_max_edge (found : bool) (hi : bound_ Q) (r : nref) : HM (nat * bool) :=
      match found, hi with
      | false, Included q => s <~ h_search_linear (qof qcmp borrow q) r ;~
                             hret (if snd s then fst s + 1 else fst s, snd s)
      | false, Excluded q => h_search_linear (qof qcmp borrow q) r
      | _, Unbounded => ks <~ n_keys r ;~ hret (length ks, found)
      | true, Included _ => hret (0, true)
      | true, Excluded _ => ks <~ n_keys r ;~ hret (length ks, true)
      end.
    (** 1925-1993; [fuel]: one more than the height *)
    Fixpoint h_range_loop (fuel : nat) (lo hi : bound_ Q) (minr maxr : nref) (minf maxf diverged : bool)
      : HM (outcome Empty_set hrange) :=
      match fuel with
      | 0 => hub
      | S fuel' =>
          a <~ h_min_edge minf lo minr ;~
          b <~ h_max_edge maxf hi maxr ;~
          if negb diverged && (fst b <? fst a) then hret Panic
          else
            let diverged' := diverged || negb (fst a =? fst b) in
            f <~ new_edge minr (fst a) ;~ g <~ new_edge maxr (fst b) ;~
            match rh minr, rh maxr with
            | 0, 0 => hret (Ret (HRange f g))
            | S _, S _ => c <~ h_descend f ;~ d <~ h_descend g ;~
                          h_range_loop fuel' lo hi c d (snd a) (snd b) diverged'
            | _, _ => hub
            end
      end.
    (** map.rs 885-896, 929-944 *)
    Definition h_range (lo hi : bound_ Q) (m : hmap) : HM (outcome Empty_set hrange) :=
      if bad_range qcmp lo hi then hret Panic
      else h_range_loop (S (rh (mroot m))) lo hi (mroot m) (mroot m) false false false.
  End RangeSearch.

  (** ** append *)
  (** core::iter::Peekable<IntoIter>; [ppfuel]: the height of the tree *)
  Record hpeekable := HPeek { hpk : option (option kv); hpinner : hinto; hpfuel : nat }.
  Definition h_peek (p : hpeekable) : HM (option kv * hpeekable) :=
    match hpk p with
    | Some o => hret (o, p)
    | None => r <~ h_into_next (hpfuel p) (hpinner p) ;~ hret (fst r, HPeek (Some (fst r)) (snd r) (hpfuel p))
    end.
  Definition h_pnext (p : hpeekable) : HM (option kv * hpeekable) :=
    match hpk p with
    | Some o => hret (o, HPeek None (hpinner p) (hpfuel p))
    | None => r <~ h_into_next (hpfuel p) (hpinner p) ;~ hret (fst r, HPeek None (snd r) (hpfuel p))
    end.
  Definition h_drop_peekable (p : hpeekable) : HM unit := h_drop_into_iter (hpfuel p) (hpinner p) ;; hret tt.
  Record hmerge := HMerge { hml : hpeekable; hmr : hpeekable }.
  (** map.rs 2662-2684 *)
  Definition h_merge_next (cmp : K -> K -> comparison) (mi : hmerge) : HM (option kv * hmerge) :=
    a <~ h_peek (hml mi) ;~ b <~ h_peek (hmr mi) ;~
    match fst a, fst b with
    | None, None => hret (None, HMerge (snd a) (snd b))
    | Some _, None => r <~ h_pnext (snd a) ;~ hret (fst r, HMerge (snd r) (snd b))
    | None, Some _ => r <~ h_pnext (snd b) ;~ hret (fst r, HMerge (snd a) (snd r))
    | Some x, Some y =>
        match cmp (fst x) (fst y) with
        | Lt => r <~ h_pnext (snd a) ;~ hret (fst r, HMerge (snd r) (snd b))
        | Gt => r <~ h_pnext (snd b) ;~ hret (fst r, HMerge (snd a) (snd r))
        | Eq => r <~ h_pnext (snd a) ;~ s <~ h_pnext (snd b) ;~ hret (fst s, HMerge (snd r) (snd s))
        end
    end.

  (** map.rs 1032-1052; [fuel]: one more than the height *)
  Fixpoint h_fix_right_edge (fuel : nat) (r : nref) : HM unit :=
    match fuel with
    | 0 => hub
    | S fuel' =>
        match rh r with
        | 0 => hret tt
        | S _ =>
            e <~ last_edge r ;~ c <~ h_descend e ;~ n <~ n_len c ;~
            e' <~ (if n <? MIN_LEN then
                     k <~ left_kv e ;~ h <~ of_option k ;~
                     h_bulk_steal_left h (MIN_LEN - n) ;; right_edge h
                   else hret e) ;~
            d <~ h_descend e' ;~ h_fix_right_edge fuel' d
        end
    end.

  (** ** split_off *)
  (** map.rs 1173-1183; [fuel]: one more than the height *)
  Fixpoint h_fix_top (fuel : nat) (root : nref) : HM nref :=
    match fuel with
    | 0 => hub
    | S fuel' =>
        match rh root with
        | 0 => hret root
        | S _ => n <~ n_len root ;~
                 if 0 <? n then hret root else r <~ h_pop_level root ;~ h_fix_top fuel' r
        end
    end.
  (** map.rs 1189-1204 *)
  Fixpoint h_fix_right_loop (fuel : nat) (r : nref) : HM unit :=
    match fuel with
    | 0 => hub
    | S fuel' =>
        match rh r with
        | 0 => hret tt
        | S _ =>
            k <~ last_kv r ;~ b <~ h_can_merge k ;~
            if (b : bool) then e <~ h_merge k ;~ c <~ h_descend e ;~ h_fix_right_loop fuel' c
            else
              e <~ right_edge k ;~ c <~ h_descend e ;~ n <~ n_len c ;~
              (if n <? MIN_LEN + 1 then h_bulk_steal_left k (MIN_LEN + 1 - n) else hret tt) ;;
              e' <~ right_edge k ;~ d <~ h_descend e' ;~ h_fix_right_loop fuel' d
        end
    end.
  (** map.rs 1215-1229 *)
  Fixpoint h_fix_left_loop (fuel : nat) (r : nref) : HM unit :=
    match fuel with
    | 0 => hub
    | S fuel' =>
        match rh r with
        | 0 => hret tt
        | S _ =>
            k <~ first_kv r ;~ b <~ h_can_merge k ;~
            if (b : bool) then e <~ h_merge k ;~ c <~ h_descend e ;~ h_fix_left_loop fuel' c
            else
              e <~ left_edge k ;~ c <~ h_descend e ;~ n <~ n_len c ;~
              (if n <? MIN_LEN + 1 then h_bulk_steal_right k (MIN_LEN + 1 - n) else hret tt) ;;
              e' <~ left_edge k ;~ d <~ h_descend e' ;~ h_fix_left_loop fuel' d
        end
    end.
  (** map.rs 1185-1208, 1211-1233: the new root *)
  Definition h_fix_border (loop : nat -> nref -> HM unit) (root : nref) : HM nref :=
    r1 <~ h_fix_top (S (rh root)) root ;~ loop (S (rh r1)) r1 ;; h_fix_top (S (rh r1)) r1.
  (** map.rs 1143-1170: [res += dfs(child)] for the edges [i], [i + 1], ... *)
  Fixpoint h_dfs_edges (sub : nref -> HM nat) (fuel : nat) (e : hhandle) (res : nat) : HM nat :=
    match fuel with
    | 0 => hub
    | S fuel' =>
        c <~ h_descend e ;~ n <~ sub c ;~
        k <~ right_kv e ;~
        match k with
        | Some h => e' <~ right_edge h ;~ h_dfs_edges sub fuel' e' (res + n)
        | None => hret (res + n)
        end
    end.
  Fixpoint h_dfs (fuel : nat) (r : nref) : HM nat :=
    match fuel with
    | 0 => hub
    | S fuel' =>
        n <~ n_len r ;~
        match rh r with
        | 0 => hret n
        | S _ => e <~ first_edge r ;~ h_dfs_edges (h_dfs fuel') (2 * B_) e n
        end
    end.
  (** map.rs 1100-1126; search_node (search.rs 36-48) and [left_edge] both give the index *)
  Fixpoint h_split_loop (fuel : nat) (q : K -> comparison) (l r : nref) : HM unit :=
    match fuel with
    | 0 => hub
    | S fuel' =>
        s <~ h_search_linear q l ;~
        e <~ (if snd s then k <~ new_kv l (fst s) ;~ left_edge k else new_edge l (fst s)) ;~
        h_move_suffix (fst e) (snd e) r ;;
        match rh l, rh r with
        | S _, S _ => cl <~ h_descend e ;~ fe <~ first_edge r ;~ cr <~ h_descend fe ;~
                      h_split_loop fuel' q cl cr
        | 0, 0 => hret tt
        | _, _ => hub
        end
    end.

  (** map.rs 2200..: what try_entry gives *)
  Inductive hentry := HOccupied (h : hhandle) | HVacant (k : K) (h : hhandle).

  (** map.rs 1826-1830 *)
  Fixpoint h_zip_all (eqb : kv -> kv -> bool) (fa fb : nat) (fuel : nat) (a b : hiter) : HM bool :=
    match fuel with
    | 0 => hub
    | S fuel' =>
        x <~ h_iter_next fa a ;~
        match fst x with
        | None => hret true
        | Some u =>
            y <~ h_iter_next fb b ;~
            match fst y with
            | None => hret true
            | Some v => if eqb (fst u) (fst v) then h_zip_all eqb fa fb fuel' (snd x) (snd y) else hret false
            end
        end
    end.
  Definition h_eq (eqb : kv -> kv -> bool) (m1 m2 : hmap) : HM bool :=
    if mlen m1 =? mlen m2 then
      a <~ h_iter m1 ;~ b <~ h_iter m2 ;~ h_zip_all eqb (rh (mroot m1)) (rh (mroot m2)) (mlen m1 + 1) a b
    else hret false.
  (** map.rs 1834-1846 *)
  Fixpoint h_iter_cmp (c : kv -> kv -> option comparison) (fa fb : nat) (fuel : nat) (a b : hiter) : HM (option comparison) :=
    match fuel with
    | 0 => hub
    | S fuel' =>
        x <~ h_iter_next fa a ;~
        match fst x with
        | None => y <~ h_iter_next fb b ;~ hret (match fst y with None => Some Eq | Some _ => Some Lt end)
        | Some u =>
            y <~ h_iter_next fb b ;~
            match fst y with
            | None => hret (Some Gt)
            | Some v => match c (fst u) (fst v) with
                        | Some Eq => h_iter_cmp c fa fb fuel' (snd x) (snd y)
                        | o => hret o
                        end
            end
        end
    end.
  Definition h_cmp (c : kv -> kv -> option comparison) (m1 m2 : hmap) : HM (option comparison) :=
    a <~ h_iter m1 ;~ b <~ h_iter m2 ;~ h_iter_cmp c (rh (mroot m1)) (rh (mroot m2)) (mlen m1 + 1) a b.

  (** several maps go out of scope *)
  Fixpoint h_drop_all (l : list hmap) : HM unit :=
    match l with [] => hret tt | m :: l' => h_drop m ;; h_drop_all l' end.

  Section Alloc.
    Variable W : Type.
    Variable nalloc : bool -> W -> option reserve_error * W.
    Variable place : heap -> W -> loc.
    Notation AM := (AM K V W).
    Notation lift := (@lift K V W _).

    (** the outcome [o] of another type, for everything but [Ret] *)
    Definition pass {E A C} (o : outcome E A) : outcome E C :=
      match o with Ret _ => UB | Err e => Err e | Panic => Panic | Abort => Abort | UB => UB end.
    (** [expect("Out of Mem")] *)
    Definition expect {E A} (o : outcome E A) : outcome reserve_error A :=
      match o with Ret a => Ret a | Err _ => Panic | Panic => Panic | Abort => Abort | UB => UB end.

    Variable cmp : K -> K -> comparison.

    (** map.rs 965-981 *)
    Definition h_try_entry (k : K) (m : hmap) (hp : heap) (w : W)
      : outcome reserve_error hentry * hmap * heap * W :=
      let '(o, m1, hp1, w1) := h_ensure_root_is_owned nalloc place m hp w in
      match o with
      | Ret _ =>
          match h_search_tree (S (rh (mroot m1))) (cmp k) (mroot m1) hp1 with
          | Some (HFound h, hp2) => (Ret (HOccupied h), m1, hp2, w1)
          | Some (HGoDown h, hp2) => (Ret (HVacant k h), m1, hp2, w1)
          | None => (UB, m1, hp1, w1)
          end
      | o => (pass o, m1, hp1, w1)
      end.
    (** map.rs 2549-2551 through 2501-2503 *)
    Definition h_occupied_insert (h : hhandle) (v : V) : HM V := a <~ h_kv_mut h ;~ ref_write a (fun _ => v).
    (** map.rs 754-762 *)
    Definition h_try_insert (k : K) (v : V) (m : hmap) (hp : heap) (w : W)
      : outcome reserve_error (option V) * hmap * heap * W :=
      let '(o, m1, hp1, w1) := h_try_entry k m hp w in
      match o with
      | Ret (HOccupied h) => let '(o2, hp2, w2) := lift (h_occupied_insert h v) hp1 w1 in (omap Some o2, m1, hp2, w2)
      | Ret (HVacant k h) =>
          let '(o2, m2, hp2, w2) := h_vacant_insert nalloc place m1 h (k, v) hp1 w1 in
          (omap (fun _ => None) o2, m2, hp2, w2)
      | o => (pass o, m1, hp1, w1)
      end.
    (** map.rs 328-343 *)
    Definition h_replace_key (k : K) (v : V) (m : hmap) (hp : heap) (w : W)
      : outcome reserve_error (option K) * hmap * heap * W :=
      let '(o, m1, hp1, w1) := h_try_entry k m hp w in
      match o with
      | Ret (HOccupied h) =>
          let '(o2, hp2, w2) := lift (a <~ h_kv_mut h ;~ ref_write_key a k) hp1 w1 in (omap Some o2, m1, hp2, w2)
      | Ret (HVacant k h) =>
          let '(o2, m2, hp2, w2) := h_vacant_insert nalloc place m1 h (k, v) hp1 w1 in
          (omap (fun _ => None) o2, m2, hp2, w2)
      | o => (pass o, m1, hp1, w1)
      end.
    (** map.rs 2277-2288 *)
    Definition h_and_modify (en : hentry) (f : V -> V) : HM unit :=
      match en with
      | HOccupied h => a <~ h_kv_mut h ;~ ref_write a f ;; hret tt
      | HVacant _ _ => hret tt
      end.
    (** map.rs 2204-2235, 2307-2312 *)
    Definition h_or_try_insert_with (m : hmap) (en : hentry) (default : W -> outcome reserve_error V * W) (hp : heap) (w : W)
      : outcome reserve_error place_ * hmap * heap * W :=
      match en with
      | HOccupied h => let '(o, hp1, w1) := lift (h_kv_mut h) hp w in (o, m, hp1, w1)
      | HVacant k h =>
          match default w with
          | (Ret v, w') => h_vacant_insert nalloc place m h (k, v) hp w'
          | (o, w') => (pass o, m, hp, w')
          end
      end.

    (** map.rs 1096-1098, 1019-1021: [n] levels on top of a tree.  Result: outcome and the root
        so far *)
    Fixpoint h_push_levels (n : nat) (root : nref) (hp : heap) (w : W)
      : outcome reserve_error unit * nref * heap * W :=
      match n with
      | 0 => (Ret tt, root, hp, w)
      | S n' =>
          match h_push_level nalloc place root hp w with
          | (Ret root', hp1, w1) => h_push_levels n' root' hp1 w1
          | (o, hp1, w1) => (pass o, root, hp1, w1)
          end
      end.

    (** map.rs 1084-1140.  Result: outcome with the right map, self *)
    Definition h_split_off (q : K -> comparison) (m : hmap) (hp : heap) (w : W)
      : outcome reserve_error hmap * hmap * heap * W :=
      if mlen m =? 0 then (Ret h_new, m, hp, w)
      else
        match h_new_leaf nalloc place hp w with
        | (Ret leaf, hp1, w1) =>
            let '(o, r, hp2, w2) := h_push_levels (rh (mroot m)) leaf hp1 w1 in
            match o with
            | Ret _ =>
                let '(o3, hp3, w3) :=
                  lift (h_split_loop (S (rh (mroot m))) q (mroot m) r ;;
                        ls <~ h_fix_border h_fix_right_loop (mroot m) ;~
                        rs <~ h_fix_border h_fix_left_loop r ;~
                        if rh ls <? rh rs then
                          n <~ h_dfs (S (rh ls)) ls ;~ hret (HMap rs (mlen m - n), HMap ls n)
                        else
                          n <~ h_dfs (S (rh rs)) rs ;~ hret (HMap rs n, HMap ls (mlen m - n))) hp2 w2 in
                match o3 with
                | Ret (rm, self) => (Ret rm, self, hp3, w3)
                | o3 => (pass o3, m, hp3, w3)
                end
            | o => (* right is dropped; its length is 0 *)
                match h_drop (HMap r 0) hp2 with
                | Some (_, hp3) => (pass o, m, hp3, w2)
                | None => (UB, m, hp2, w2)
                end
            end
        | (o, hp1, w1) =>                             (* right is the empty map *)
            match h_drop h_new hp1 with
            | Some (_, hp2) => (pass o, m, hp2, w1)
            | None => (UB, m, hp1, w1)
            end
        end.

    (** map.rs 993-1014: outcome with the open node, and the root; [fuel]: one
        more than the number of levels above [r] *)
    Fixpoint h_find_open (fuel : nat) (root r : nref) (hp : heap) (w : W)
      : outcome reserve_error nref * nref * heap * W :=
      match fuel with
      | 0 => (UB, root, hp, w)
      | S fuel' =>
          match lift (a <~ ascend r ;~
                      match a with
                      | Some p => n <~ n_len (fst p) ;~ hret (Some (fst p, n))
                      | None => hret None
                      end) hp w with
          | (Ret (Some (p, n)), hp1, w1) =>
              if n <? CAPACITY then (Ret p, root, hp1, w1) else h_find_open fuel' root p hp1 w1
          | (Ret None, hp1, w1) =>                   (* into_root_mut().push_level() *)
              match h_push_level nalloc place root hp1 w1 with
              | (Ret root', hp2, w2) => (Ret root', root', hp2, w2)
              | (o, hp2, w2) => (pass o, root, hp2, w2)
              end
          | (o, hp1, w1) => (pass o, root, hp1, w1)
          end
      end.
    (** map.rs 988-1028: one turn of the loop.  Result: outcome with the current
        leaf, and the root.  When a panic unwinds, the new right tree is a
        [Root], which has no destructor: it is leaked. *)
    Definition h_push_sorted (x : kv) (root cur : nref) (hp : heap) (w : W)
      : outcome reserve_error nref * nref * heap * W :=
      match lift (n_len cur) hp w with
      | (Ret n, hp0, w0) =>
          if n <? CAPACITY then
            let '(o, hp1, w1) := lift (leaf_push cur x) hp0 w0 in (omap (fun _ => cur) o, root, hp1, w1)
          else
            let '(o, root1, hp1, w1) := h_find_open (S (rh root)) root cur hp0 w0 in
            match o with
            | Ret open =>
                match h_new_leaf nalloc place hp1 w1 with
                | (Ret leaf, hp2, w2) =>
                    let '(o3, chain, hp3, w3) := h_push_levels (rh open - 1) leaf hp2 w2 in
                    match o3 with
                    | Ret _ =>
                        let '(o4, hp4, w4) :=
                          lift (internal_push open x chain ;;
                                e <~ h_last_leaf_edge (S (rh open)) open ;~ hret (fst e)) hp3 w3 in
                        (o4, root1, hp4, w4)
                    | o3 => (expect (pass o3), root1, hp3, w3)
                    end
                | (o2, hp2, w2) => (expect (pass o2), root1, hp2, w2)
                end
            | o => (expect (pass o), root1, hp1, w1)
            end
      | (o, hp0, w0) => (pass o, root, hp0, w0)
      end.
    (** the loop; [fuel]: the items left plus one.  Result: outcome, self (root
        and length), the iterator *)
    Fixpoint h_from_sorted (fuel : nat) (mi : hmerge) (root cur : nref) (len : nat) (hp : heap) (w : W)
      : outcome reserve_error unit * hmap * hmerge * heap * W :=
      match fuel with
      | 0 => (UB, HMap root len, mi, hp, w)
      | S fuel' =>
          match lift (h_merge_next cmp mi) hp w with
          | (Ret (None, mi'), hp1, w1) => (Ret tt, HMap root len, mi', hp1, w1)
          | (Ret (Some x, mi'), hp1, w1) =>
              let '(o, root', hp2, w2) := h_push_sorted x root cur hp1 w1 in
              match o with
              | Ret cur' => h_from_sorted fuel' mi' root' cur' (len + 1) hp2 w2
              | o => (pass o, HMap root' len, mi', hp2, w2)
              end
          | (o, hp1, w1) => (pass o, HMap root len, mi, hp1, w1)
          end
      end.
    (** the iterator goes out of scope *)
    Definition h_drop_merge (mi : hmerge) : HM unit := h_drop_peekable (hml mi) ;; h_drop_peekable (hmr mi).

    (** map.rs 830-853: outcome, self, other.  [from_sorted_iter] drops the
        iterator when it returns and when it panics. *)
    Definition h_append (m o : hmap) (hp : heap) (w : W) : outcome reserve_error unit * hmap * hmap * heap * W :=
      if mlen o =? 0 then (Ret tt, m, o, hp, w)
      else if mlen m =? 0 then (Ret tt, o, m, hp, w)
      else
        match lift (li <~ h_into_iter m ;~ ri <~ h_into_iter o ;~
                    hret (HMerge (HPeek None li (rh (mroot m))) (HPeek None ri (rh (mroot o))))) hp w with
        | (Ret mi, hp1, w1) =>
            match h_ensure_root_is_owned nalloc place h_new hp1 w1 with
            | (Ret _, m1, hp2, w2) =>
                match lift (e <~ h_last_leaf_edge (S (rh (mroot m1))) (mroot m1) ;~ hret (fst e)) hp2 w2 with
                | (Ret cur, hp3, w3) =>
                    let '(o1, m4, mi4, hp4, w4) := h_from_sorted (mlen m + mlen o + 1) mi (mroot m1) cur 0 hp3 w3 in
                    match o1 with
                    | Ret _ =>
                        let '(o5, hp5, w5) := lift (h_drop_merge mi4 ;; h_fix_right_edge (S (rh (mroot m4))) (mroot m4)) hp4 w4 in
                        (o5, m4, h_new, hp5, w5)
                    | Panic => let '(o5, hp5, w5) := lift (h_drop_merge mi4) hp4 w4 in
                               (match o5 with Ret _ => Panic | o5 => o5 end, m4, h_new, hp5, w5)
                    | o1 => (o1, m4, h_new, hp4, w4)
                    end
                | (o3, hp3, w3) => (pass o3, m1, h_new, hp3, w3)
                end
            | (Err _, m1, hp2, w2) =>                  (* expect *)
                let '(o5, hp5, w5) := lift (h_drop_merge mi) hp2 w2 in
                (match o5 with Ret _ => Panic | o5 => o5 end, m1, h_new, hp5, w5)
            | (o2, m1, hp2, w2) => (o2, m1, h_new, hp2, w2)
            end
        | (o1, hp1, w1) => (pass o1, m, o, hp1, w1)
        end.

    (** ** Clone *)
    Section Clone.
      Variables (kclone : K -> W -> outcome reserve_error K * W) (vclone : V -> W -> outcome reserve_error V * W).
      Definition h_kv_clone (x : kv) : AM kv := fun hp w =>
        match kclone (fst x) w with
        | (Ret k, w1) => match vclone (snd x) w1 with
                         | (Ret v, w2) => (Ret (k, v), hp, w2)
                         | (o, w2) => (pass o, hp, w2)
                         end
        | (o, w1) => (pass o, hp, w1)
        end.
      (** [?] or a panic with the local [out_tree]: it is dropped *)
      Definition unwind {A} (o : outcome reserve_error A) (out : hmap) : AM hmap := fun hp w =>
        match o with
        | Err _ | Panic => match h_drop out hp with Some (_, hp1) => (pass o, hp1, w) | None => (UB, hp, w) end
        | _ => (pass o, hp, w)
        end.
      (** map.rs 161-168; [e]: in_edge *)
      Fixpoint h_clone_leaf (fuel : nat) (e : hhandle) (out : hmap) (hp : heap) (w : W) : outcome reserve_error hmap * heap * W :=
        match fuel with
        | 0 => (UB, hp, w)
        | S fuel' =>
            match lift (k <~ right_kv e ;~
                        match k with
                        | Some h => x <~ h_into_kv h ;~ e' <~ right_edge h ;~ hret (Some (x, e'))
                        | None => hret None
                        end) hp w with
            | (Ret None, hp1, w1) => (Ret out, hp1, w1)
            | (Ret (Some (x, e')), hp1, w1) =>
                match h_kv_clone x hp1 w1 with
                | (Ret y, hp2, w2) =>
                    match lift (leaf_push (mroot out) y) hp2 w2 with
                    | (Ret _, hp3, w3) => h_clone_leaf fuel' e' (HMap (mroot out) (mlen out + 1)) hp3 w3
                    | (o, hp3, w3) => (pass o, hp3, w3)
                    end
                | (o, hp2, w2) => unwind o out hp2 w2
                end
            | (o, hp1, w1) => (pass o, hp1, w1)
            end
        end.
      (** map.rs 178-198; [sub]: clone_subtree of a child *)
      Fixpoint h_clone_internal (sub : nref -> AM hmap) (fuel : nat) (e : hhandle) (out : hmap) (hp : heap) (w : W)
        : outcome reserve_error hmap * heap * W :=
        match fuel with
        | 0 => (UB, hp, w)
        | S fuel' =>
            match lift (k <~ right_kv e ;~
                        match k with
                        | Some h => x <~ h_into_kv h ;~ e' <~ right_edge h ;~ hret (Some (x, e'))
                        | None => hret None
                        end) hp w with
            | (Ret None, hp1, w1) => (Ret out, hp1, w1)
            | (Ret (Some (x, e')), hp1, w1) =>
                match h_kv_clone x hp1 w1 with
                | (Ret y, hp2, w2) =>
                    match abind (lift (h_descend e')) sub hp2 w2 with
                    | (Ret s, hp3, w3) =>
                        match lift (internal_push (mroot out) y (mroot s)) hp3 w3 with
                        | (Ret _, hp4, w4) =>
                            h_clone_internal sub fuel' e' (HMap (mroot out) (mlen out + (1 + mlen s))) hp4 w4
                        | (o, hp4, w4) => (pass o, hp4, w4)
                        end
                    | (o, hp3, w3) => unwind o out hp3 w3
                    end
                | (o, hp2, w2) => unwind o out hp2 w2
                end
            | (o, hp1, w1) => (pass o, hp1, w1)
            end
        end.
      (** map.rs 141-204; [fuel]: one more than the height *)
      Fixpoint h_clone_subtree (fuel : nat) (r : nref) (hp : heap) (w : W) : outcome reserve_error hmap * heap * W :=
        match fuel with
        | 0 => (UB, hp, w)
        | S fuel' =>
            match rh r with
            | 0 =>
                match h_new_leaf nalloc place hp w with
                | (Ret leaf, hp1, w1) =>
                    abind (lift (first_edge r)) (fun e => h_clone_leaf (S CAPACITY) e (HMap leaf 0)) hp1 w1
                | (o, hp1, w1) => (pass o, hp1, w1)
                end
            | S _ =>
                match abind (lift (e <~ first_edge r ;~ h_descend e)) (h_clone_subtree fuel') hp w with
                | (Ret out, hp1, w1) =>
                    match h_push_level nalloc place (mroot out) hp1 w1 with
                    | (Ret root', hp2, w2) =>
                        abind (lift (first_edge r))
                          (fun e => h_clone_internal (h_clone_subtree fuel') (S CAPACITY) e (HMap root' (mlen out))) hp2 w2
                    | (o, hp2, w2) => unwind o out hp2 w2
                    end
                | (o, hp1, w1) => (pass o, hp1, w1)
                end
            end
        end.
      (** map.rs 139-216 *)
      Definition h_try_clone (m : hmap) (hp : heap) (w : W) : outcome reserve_error hmap * heap * W :=
        if mlen m =? 0 then (Ret h_new, hp, w) else h_clone_subtree (S (rh (mroot m))) (mroot m) hp w.
      (** map.rs 219-297 *)
      Definition h_clone (m : hmap) (hp : heap) (w : W) : outcome reserve_error hmap * heap * W :=
        let '(o, hp', w') := h_try_clone m hp w in (expect o, hp', w').
    End Clone.

    (** map.rs 1794-1801, 1803-1808 *)
    Fixpoint h_extend (l : list kv) (m : hmap) (hp : heap) (w : W) : outcome reserve_error unit * hmap * heap * W :=
      match l with
      | [] => (Ret tt, m, hp, w)
      | x :: l' =>
          let '(o, m1, hp1, w1) := h_try_insert (fst x) (snd x) m hp w in
          match o with
          | Ret _ => h_extend l' m1 hp1 w1
          | o => (expect (pass o), m1, hp1, w1)
          end
      end.

    (** ** Programs (the operations of HistoryModel) *)
    Variables (Q : Type) (qcmp : Q -> Q -> comparison) (borrow : K -> Q).
    Variables (kclone : K -> W -> outcome reserve_error K * W) (vclone : V -> W -> outcome reserve_error V * W).
    Variables (eqb : kv -> kv -> bool) (pcmp : kv -> kv -> option comparison).
    Notation look := (look (K := K) qcmp borrow).
    Notation obs := (obs K V).
    Notation OVal := (@OVal K V).
    Notation OKey := (@OKey K V).
    Notation OEntry := (@OEntry K V).
    Notation OItems := (@OItems K V).
    Notation OSized := (@OSized K V).
    Notation ODropped := (@ODropped K V).

    Definition hregs := nat -> hmap.
    Definition hup_ (s : hregs) (r : nat) (m : hmap) : hregs := fun i => if i =? r then m else s i.

    (** the references that the chosen calls delivered *)
    Fixpoint hchosen (outs : list (option hitem)) (ws : list (nat * (V -> V))) : list (place_ * (V -> V)) :=
      match ws with
      | [] => []
      | (i, f) :: ws' => match nth_error outs i with Some (Some x) => (snd x, f) :: hchosen outs ws' | _ => hchosen outs ws' end
      end.

    (** an operation that only works on the heap *)
    Definition pure (m : HM (outcome reserve_error obs * hregs)) (s : hregs) (hp : heap) (w : W)
      : outcome reserve_error obs * hregs * heap * W :=
      match m hp with Some ((o, s'), hp') => (o, s', hp', w) | None => (UB, s, hp, w) end.

    Definition hstep (c : op K V Q) (s : hregs) (hp : heap) (w : W)
      : outcome reserve_error obs * hregs * heap * W :=
      match c with
      | New r | Clear r => pure (h_drop (s r) ;; hret (Ret OUnit, hup_ s r h_new)) s hp w
      | Insert r k v => let '(o, m, hp', w') := h_try_insert k v (s r) hp w in (fmap OVal o, hup_ s r m, hp', w')
      | Replace r k v => let '(o, m, hp', w') := h_replace_key k v (s r) hp w in (fmap OKey o, hup_ s r m, hp', w')
      | Remove r x => pure (a <~ h_remove_entry (look x) (s r) ;~ hret (Ret (OVal (option_map snd (fst a))), hup_ s r (snd a))) s hp w
      | Take r x => pure (a <~ h_remove_entry (look x) (s r) ;~ hret (Ret (OEntry (fst a)), hup_ s r (snd a))) s hp w
      | Get r x => pure (a <~ h_get_key_value (look x) (s r) ;~ hret (Ret (OVal (option_map snd a)), s)) s hp w
      | GetKeyValue r x => pure (a <~ h_get_key_value (look x) (s r) ;~ hret (Ret (OEntry a), s)) s hp w
      | Contains r x => pure (a <~ h_get_key_value (look x) (s r) ;~
                              hret (Ret (OBool match a with Some _ => true | None => false end), s)) s hp w
      | Index r x => pure (a <~ h_get_key_value (look x) (s r) ;~
                           hret (match a with Some e => Ret (OVal (Some (snd e))) | None => Panic end, s)) s hp w
      | GetMut r x f =>
          pure (a <~ h_get_mut (look x) (s r) ;~
                match a with
                | Some p => ref_write p f ;; hret (Ret (OBool true), s)
                | None => hret (Ret (OBool false), s)
                end) s hp w
      | Len r => (Ret (ONat (mlen (s r))), s, hp, w)
      | IsEmpty r => (Ret (OBool (mlen (s r) =? 0)), s, hp, w)
      | Append r t =>
          let '(o, m, m2, hp', w') := h_append (s r) (s t) hp w in
          (fmap (fun _ => OUnit) o, hup_ (hup_ s r m) t m2, hp', w')
      | SplitOff r x t =>
          let '(o, m, hp1, w1) := h_split_off (look x) (s r) hp w in
          let s1 := hup_ s r m in
          match o with
          | Ret m2 => pure (h_drop (s t) ;; hret (Ret OUnit, hup_ s1 t m2)) s1 hp1 w1
          | o => (pass o, s1, hp1, w1)
          end
      | TryClone r t =>
          let '(o, hp1, w1) := h_try_clone kclone vclone (s r) hp w in
          match o with
          | Ret m => pure (h_drop (s t) ;; hret (Ret OUnit, hup_ s t m)) s hp1 w1
          | o => (pass o, s, hp1, w1)
          end
      | Clone r t =>
          let '(o, hp1, w1) := h_clone kclone vclone (s r) hp w in
          match o with
          | Ret m => pure (h_drop (s t) ;; hret (Ret OUnit, hup_ s t m)) s hp1 w1
          | o => (pass o, s, hp1, w1)
          end
      | Extend r l => let '(o, m, hp', w') := h_extend l (s r) hp w in (fmap (fun _ => OUnit) o, hup_ s r m, hp', w')
      | Iterate r cs =>
          pure (it <~ h_iter (s r) ;~
                a <~ hcalls (h_iter_next (rh (mroot (s r)))) (h_iter_next_back (rh (mroot (s r)))) cs it ;~
                hret (Ret (OSized (map (option_map fst) (fst a)) (xlen (snd a))), s)) s hp w
      | RangeOver r lo hi cs =>
          pure (o <~ h_range qcmp borrow lo hi (s r) ;~
                match o with
                | Ret it =>
                    a <~ hcalls (h_range_next (rh (mroot (s r)))) (h_range_next_back (rh (mroot (s r)))) cs it ;~
                    hret (Ret (OItems (map (option_map fst) (fst a))), s)
                | o => hret (fmap (fun _ => OUnit) (cast o), s)
                end) s hp w
      | IterMut r cs ws =>
          pure (it <~ h_iter (s r) ;~
                a <~ hcalls (h_iter_next (rh (mroot (s r)))) (h_iter_next_back (rh (mroot (s r)))) cs it ;~
                ref_write_all (hchosen (fst a) ws) ;;
                hret (Ret (OItems (map (option_map fst) (fst a))), s)) s hp w
      | RangeMut r lo hi cs ws =>
          pure (o <~ h_range qcmp borrow lo hi (s r) ;~
                match o with
                | Ret it =>
                    a <~ hcalls (h_range_next (rh (mroot (s r)))) (h_range_next_back (rh (mroot (s r)))) cs it ;~
                    ref_write_all (hchosen (fst a) ws) ;;
                    hret (Ret (OItems (map (option_map fst) (fst a))), s)
                | o => hret (fmap (fun _ => OUnit) (cast o), s)
                end) s hp w
      | IntoIter_ r cs =>
          pure (it <~ h_into_iter (s r) ;~
                a <~ hcalls (h_into_next (rh (mroot (s r)))) (h_into_next_back (rh (mroot (s r)))) cs it ;~
                d <~ h_drop_into_iter (rh (mroot (s r))) (snd a) ;~
                hret (Ret (ODropped (fst a) d), hup_ s r h_new)) s hp w
      | EntryOr r k f v =>
          let '(o, m1, hp1, w1) := h_try_entry k (s r) hp w in
          match o with
          | Ret en =>
              match lift (h_and_modify en f) hp1 w1 with
              | (Ret _, hp2, w2) =>
                  let '(o3, m3, hp3, w3) := h_or_try_insert_with m1 en (fun w => (Ret v, w)) hp2 w2 in
                  let s3 := hup_ s r m3 in
                  match o3 with
                  | Ret a => pure (x <~ a_read avals (fst a) (snd a) ;~ hret (Ret (OVal (Some x)), s3)) s3 hp3 w3
                  | o3 => (pass o3, s3, hp3, w3)
                  end
              | (o2, hp2, w2) => (pass o2, hup_ s r m1, hp2, w2)
              end
          | o => (pass o, hup_ s r m1, hp1, w1)
          end
      | EntryRemove r k =>
          let '(o, m1, hp1, w1) := h_try_entry k (s r) hp w in
          let s1 := hup_ s r m1 in
          match o with
          | Ret (HOccupied h) => pure (a <~ h_remove_entry_at m1 h ;~ hret (Ret (OEntry (Some (fst a))), hup_ s r (snd a))) s1 hp1 w1
          | Ret (HVacant _ _) => (Ret (OEntry None), s1, hp1, w1)
          | o => (pass o, s1, hp1, w1)
          end
      | Equal r t => pure (b <~ h_eq eqb (s r) (s t) ;~ hret (Ret (OBool b), s)) s hp w
      | Compare r t => pure (b <~ h_cmp pcmp (s r) (s t) ;~ hret (Ret (OCmp b), s)) s hp w
      end.

    (** every step with its result, the maps and the memory after it *)
    Fixpoint hrun (l : list (op K V Q)) (s : hregs) (hp : heap) (w : W)
      : list (outcome reserve_error obs * hregs * heap) :=
      match l with
      | [] => []
      | c :: l' =>
          let '(o, s', hp', w') := hstep c s hp w in
          (o, s', hp') :: match o with Abort | UB => [] | _ => hrun l' s' hp' w' end
      end.
  End Alloc.
End HeapMap.
