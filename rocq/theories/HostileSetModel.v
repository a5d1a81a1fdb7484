(** * HostileSetModel: the set algebra of src/btree/set.rs on raw memory, with
    comparisons that are arbitrary user code.

    The functions are those of BTreeSetModel, statement by statement, over the
    raw iterators of HeapMapModel and the comparisons of HostileModel (which
    may answer anything and panic).  A set is a map to the unit value
    (set.rs 60-64); what set.rs only forwards to the map is an operation of
    HostileModel. *)
From Coq Require Import List Arith Lia Bool.
From Verif Require Import Base IterSpec BTreeModel BTreeIterModel BTreeSetModel HeapModel HistoryModel HeapMapModel HostileModel.
Import ListNotations.
Set Implicit Arguments.

(** the four combinations of two sets *)
Inductive algebra := Difference | SymmetricDifference | Intersection | Union.

Section SetAlgebra.
  Variables (T W : Type).
  Notation heap := (heap T unit).
  Notation AM := (AM T unit W).
  Notation lift := (@lift T unit W _).
  Notation aret := (@aret T unit W _).
  Notation "x <- m ;- k" := (abind m (fun x => k)) (at level 80, m at level 79, right associativity).
  Variable kcmp : T -> T -> asks W comparison.
  Notation aub := (@aub T unit W _).

  (** ** Iter (set.rs 1042-1070) with the height of its tree, which bounds the climbs *)
  Record hsiter := HSIter { hsi : hiter; hsf : nat }.
  (** set.rs 829-833 *)
  Definition hs_iter (m : hmap) : AM hsiter := it <- lift (h_iter m) ;- aret (HSIter it (rh (mroot m))).
  (** set.rs 1046-1048; Keys::next map.rs 1483-1485 *)
  Definition hs_next (a : hsiter) : AM (option T * hsiter) :=
    x <- lift (h_iter_next (hsf a) (hsi a)) ;-
    aret (option_map (fun y => fst (fst y)) (fst x), HSIter (snd x) (hsf a)).
  (** set.rs 1065-1067 *)
  Definition hs_len (a : hsiter) : nat := xlen (hsi a).
  (** set.rs 483-489 *)
  Definition hs_contains (x : T) (m : hmap) : AM bool :=
    o <- hx_get_key_value (kcmp x) m ;- aret (match o with Some _ => true | None => false end).

  (** core::iter::Peekable<Iter>: the peeked item (if peek was called) *)
  Record hspeek := HSPeek { hsp : option (option T); hsin : hsiter }.
  Definition hs_peekable (a : hsiter) : hspeek := HSPeek None a.
  Definition hsp_peek (p : hspeek) : AM (option T * hspeek) :=
    match hsp p with
    | Some o => aret (o, p)
    | None => x <- hs_next (hsin p) ;- aret (fst x, HSPeek (Some (fst x)) (snd x))
    end.
  Definition hsp_next (p : hspeek) : AM (option T * hspeek) :=
    match hsp p with
    | Some o => aret (o, HSPeek None (hsin p))
    | None => x <- hs_next (hsin p) ;- aret (fst x, HSPeek None (snd x))
    end.
  Definition hsp_len (p : hspeek) : nat :=
    match hsp p with
    | Some None => 0
    | Some (Some _) => hs_len (hsin p) + 1
    | None => hs_len (hsin p)
    end.
  (** set.rs 1130-1136 *)
  Definition hs_cmp_opt (x y : option T) (short long : comparison) : AM comparison :=
    match x, y with
    | None, _ => aret short
    | _, None => aret long
    | Some a, Some b => ask (kcmp a b)
    end.

  (** ** The lazy iterators *)
  (** set.rs 118-130 Difference; 159-162 SymmetricDifference; 181-193 Intersection; 222-225 Union *)
  Inductive hlazy :=
  | HDStitch (a : hsiter) (b : hspeek) | HDSearch (a : hsiter) (b : hmap)
  | HSym (a b : hspeek) | HUnion (a b : hspeek)
  | HIStitch (a b : hsiter) | HISearch (a : hsiter) (b : hmap).
  (** set.rs 319-339, 363-371, 394-419, 441-446 *)
  Definition hs_lazy (k : algebra) (s o : hmap) : AM hlazy :=
    match k with
    | Difference =>
        a <- hs_iter s ;-
        if mlen o / ITER_PERFORMANCE_TIPPING_SIZE_DIFF <? mlen s then
          b <- hs_iter o ;- aret (HDStitch a (hs_peekable b))
        else aret (HDSearch a o)
    | SymmetricDifference => a <- hs_iter s ;- b <- hs_iter o ;- aret (HSym (hs_peekable a) (hs_peekable b))
    | Union => a <- hs_iter s ;- b <- hs_iter o ;- aret (HUnion (hs_peekable a) (hs_peekable b))
    | Intersection =>
        let '(small, other) := if mlen s <=? mlen o then (s, o) else (o, s) in
        a <- hs_iter small ;-
        if mlen other / ITER_PERFORMANCE_TIPPING_SIZE_DIFF <? mlen small then
          b <- hs_iter other ;- aret (HIStitch a b)
        else aret (HISearch a other)
    end.

  (** set.rs 1171-1185; [fuel]: what the two iterators still hold *)
  Fixpoint hd_stitch (fuel : nat) (self_next : T) (a : hsiter) (b : hspeek) : AM (option T * hlazy) :=
    match fuel with
    | 0 => aub
    | S fuel' =>
        p <- hsp_peek b ;-
        c <- (match fst p with None => aret Lt | Some other_next => ask (kcmp self_next other_next) end) ;-
        match c with
        | Lt => aret (Some self_next, HDStitch a (snd p))
        | Eq =>
            n <- hs_next a ;-
            match fst n with
            | None => aret (None, HDStitch (snd n) (snd p))
            | Some self_next' => q <- hsp_next (snd p) ;- hd_stitch fuel' self_next' (snd n) (snd q)
            end
        | Gt => q <- hsp_next (snd p) ;- hd_stitch fuel' self_next a (snd q)
        end
    end.
  (** set.rs 1190-1195 *)
  Fixpoint hd_search (fuel : nat) (a : hsiter) (b : hmap) : AM (option T * hlazy) :=
    match fuel with
    | 0 => aub
    | S fuel' =>
        n <- hs_next a ;-
        match fst n with
        | None => aret (None, HDSearch (snd n) b)
        | Some self_next =>
            c <- hs_contains self_next b ;-
            if (c : bool) then hd_search fuel' (snd n) b else aret (Some self_next, HDSearch (snd n) b)
        end
    end.
  (** set.rs 1228-1239 *)
  Fixpoint hsym_loop (fuel : nat) (a b : hspeek) : AM (option T * hlazy) :=
    match fuel with
    | 0 => aub
    | S fuel' =>
        x <- hsp_peek a ;-
        y <- hsp_peek b ;-
        c <- hs_cmp_opt (fst x) (fst y) Gt Lt ;-
        match c with
        | Lt => n <- hsp_next (snd x) ;- aret (fst n, HSym (snd n) (snd y))
        | Eq => n <- hsp_next (snd x) ;- m <- hsp_next (snd y) ;- hsym_loop fuel' (snd n) (snd m)
        | Gt => m <- hsp_next (snd y) ;- aret (fst m, HSym (snd x) (snd m))
        end
    end.
  (** set.rs 1328-1337 *)
  Definition hunion_next (a b : hspeek) : AM (option T * hlazy) :=
    x <- hsp_peek a ;-
    y <- hsp_peek b ;-
    c <- hs_cmp_opt (fst x) (fst y) Gt Lt ;-
    match c with
    | Lt => n <- hsp_next (snd x) ;- aret (fst n, HUnion (snd n) (snd y))
    | Eq => m <- hsp_next (snd y) ;- n <- hsp_next (snd x) ;- aret (fst n, HUnion (snd n) (snd m))
    | Gt => m <- hsp_next (snd y) ;- aret (fst m, HUnion (snd x) (snd m))
    end.
  (** set.rs 1283-1289 *)
  Fixpoint hi_stitch (fuel : nat) (x y : T) (a b : hsiter) : AM (option T * hlazy) :=
    match fuel with
    | 0 => aub
    | S fuel' =>
        c <- ask (kcmp x y) ;-
        match c with
        | Lt => n <- hs_next a ;-
                match fst n with None => aret (None, HIStitch (snd n) b) | Some x' => hi_stitch fuel' x' y (snd n) b end
        | Gt => n <- hs_next b ;-
                match fst n with None => aret (None, HIStitch a (snd n)) | Some y' => hi_stitch fuel' x y' a (snd n) end
        | Eq => aret (Some x, HIStitch a b)
        end
    end.
  (** set.rs 1294-1299 *)
  Fixpoint hi_search (fuel : nat) (a : hsiter) (b : hmap) : AM (option T * hlazy) :=
    match fuel with
    | 0 => aub
    | S fuel' =>
        n <- hs_next a ;-
        match fst n with
        | None => aret (None, HISearch (snd n) b)
        | Some x =>
            c <- hs_contains x b ;-
            if (c : bool) then aret (Some x, HISearch (snd n) b) else hi_search fuel' (snd n) b
        end
    end.
  (** set.rs 1164-1197, 1225-1239, 1275-1301, 1328-1337 *)
  Definition hlazy_next (d : hlazy) : AM (option T * hlazy) :=
    match d with
    | HDStitch a b =>
        n <- hs_next a ;-
        match fst n with
        | None => aret (None, HDStitch (snd n) b)
        | Some x => hd_stitch (hs_len (snd n) + hsp_len b + 1) x (snd n) b
        end
    | HDSearch a b => hd_search (hs_len a + 1) a b
    | HSym a b => hsym_loop (hsp_len a + hsp_len b + 1) a b
    | HUnion a b => hunion_next a b
    | HIStitch a b =>
        n <- hs_next a ;-
        match fst n with
        | None => aret (None, HIStitch (snd n) b)
        | Some x =>
            m <- hs_next b ;-
            match fst m with
            | None => aret (None, HIStitch (snd n) (snd m))
            | Some y => hi_stitch (hs_len (snd n) + hs_len (snd m) + 1) x y (snd n) (snd m)
            end
        end
    | HISearch a b => hi_search (hs_len a + 1) a b
    end.
  (** set.rs 1199-1211, 1242-1244, 1304-1310, 1339-1343 *)
  Definition hlazy_hint (d : hlazy) : nat * nat :=
    match d with
    | HDStitch a b => (hs_len a - hsp_len b, hs_len a)
    | HDSearch a b => (hs_len a - mlen b, hs_len a)
    | HSym a b => (0, hsp_len a + hsp_len b)
    | HUnion a b => (max (hsp_len a) (hsp_len b), hsp_len a + hsp_len b)
    | HIStitch a _ | HISearch a _ => (0, hs_len a)
    end.
  (** [n] calls of next() *)
  Fixpoint hlazy_calls (n : nat) (d : hlazy) : AM (list (option T) * hlazy) :=
    match n with
    | 0 => aret ([], d)
    | S n' => x <- hlazy_next d ;- r <- hlazy_calls n' (snd x) ;- aret (fst x :: fst r, snd r)
    end.

  (** ** Relations *)
  (** set.rs 535-537 *)
  Definition hs_is_disjoint (s o : hmap) : AM bool :=
    d <- hs_lazy Intersection s o ;-
    n <- hlazy_next d ;-
    aret (match fst n with None => true | Some _ => false end).
  (** set.rs 569-585 *)
  Fixpoint hsub_stitch (fuel : nat) (a b : option T) (x y : hsiter) : AM bool :=
    match fuel with
    | 0 => aub
    | S fuel' =>
        match a with
        | None => aret true
        | Some a1 =>
            match b with
            | None => aret false
            | Some b1 =>
                c <- ask (kcmp b1 a1) ;-
                match c with
                | Lt => n <- hs_next y ;- hsub_stitch fuel' a (fst n) x (snd n)
                | Gt => aret false
                | Eq => m <- hs_next x ;- n <- hs_next y ;- hsub_stitch fuel' (fst m) (fst n) (snd m) (snd n)
                end
            end
        end
    end.
  (** set.rs 589-595 *)
  Fixpoint hsub_search (fuel : nat) (x : hsiter) (o : hmap) : AM bool :=
    match fuel with
    | 0 => aub
    | S fuel' =>
        n <- hs_next x ;-
        match fst n with
        | None => aret true
        | Some a => c <- hs_contains a o ;- if (c : bool) then hsub_search fuel' (snd n) o else aret false
        end
    end.
  (** set.rs 557-596 *)
  Definition hs_is_subset (s o : hmap) : AM bool :=
    if mlen o <? mlen s then aret false
    else if mlen o / ITER_PERFORMANCE_TIPPING_SIZE_DIFF <? mlen s then
      x <- hs_iter s ;-
      y <- hs_iter o ;-
      m <- hs_next x ;-
      n <- hs_next y ;-
      hsub_stitch (hs_len (snd m) + hs_len (snd n) + 3) (fst m) (fst n) (snd m) (snd n)
    else x <- hs_iter s ;- hsub_search (hs_len x + 1) x o.

  (** ** Programs *)
  Section Programs.
    Variable nalloc : bool -> W -> option reserve_error * W.
    Variable place : heap -> W -> loc.
    (** Clone::clone of the elements *)
    Variable tclone : T -> W -> outcome Empty_set T * W.

    (** set.rs 956-1024: [iterator.cloned().collect()]: every item is fetched,
        cloned and inserted before the next is fetched (874-878).  [fuel]: the number of items plus one.
        The result: outcome, the set built so far *)
    Fixpoint hs_collect (fuel : nat) (d : hlazy) (m : hmap) (hp : heap) (w : W)
      : outcome reserve_error unit * hmap * heap * W :=
      match fuel with
      | 0 => (UB, m, hp, w)
      | S fuel' =>
          match hlazy_next d hp w with
          | (Ret (None, _), hp1, w1) => (Ret tt, m, hp1, w1)
          | (Ret (Some x, d'), hp1, w1) =>
              match tclone x w1 with
              | (Ret y, w2) =>
                  let '(o, m3, hp3, w3) := hx_try_insert nalloc place kcmp y tt m hp1 w2 in
                  match o with
                  | Ret _ => hs_collect fuel' d' m3 hp3 w3
                  | o => (expect (pass o), m3, hp3, w3)
                  end
              | (Err e, w2) => (match e with end, m, hp1, w2)
              | (Panic, w2) => (Panic, m, hp1, w2)
              | (Abort, w2) => (Abort, m, hp1, w2)
              | (UB, w2) => (UB, m, hp1, w2)
              end
          | (o, hp1, w1) => (pass o, m, hp1, w1)
          end
      end.
    Definition hs_operator (k : algebra) (s o : hmap) (hp : heap) (w : W) : outcome reserve_error unit * hmap * heap * W :=
      match hs_lazy k s o hp w with
      | (Ret d, hp1, w1) => hs_collect (mlen s + mlen o + 1) d h_new hp1 w1
      | (o, hp1, w1) => (pass o, h_new, hp1, w1)
      end.

    Variables (Q : Type) (qcmp : Q -> T -> asks W comparison) (qeq qgt : Q -> Q -> asks W bool) (view : bound_ Q -> asks W (bound_ Q)).
    Variables (eqb : T * unit -> T * unit -> asks W bool) (pcmp : T * unit -> T * unit -> asks W (option comparison)).

    Inductive xop :=
    | XMap (c : op T unit Q)                         (* what set.rs forwards to the map *)
    | XLazy (k : algebra) (r t n m : nat)            (* r.difference(&t) ..., n calls of next(), size_hint(), m calls *)
    | XSubset (r t : nat) | XSuperset (r t : nat) | XDisjoint (r t : nat)
    | XOperator (k : algebra) (r t u : nat)          (* u = &r - &t, &r ^ &t, &r & &t, &r | &t *)
    | XCollect (r : nat) (l : list T).               (* r = l.into_iter().collect() *)
    Inductive xobs :=
    | XObs (o : obs T unit) | XUnit | XBool (b : bool)
    | XItems (l1 : list (option T)) (lo hi : nat) (l2 : list (option T)).

    (** derived from the clone of the elements (set.rs 60) *)
    Definition xkclone (x : T) (w : W) : outcome reserve_error T * W := let '(o, w') := tclone x w in (HistoryModel.cast o, w').
    Definition xvclone (u : unit) (w : W) : outcome reserve_error unit * W := (Ret u, w).
    Notation hxstep := (hxstep nalloc place kcmp qcmp qeq qgt view xkclone xvclone eqb pcmp).

    (** a read-only operation *)
    Definition xread (m : AM xobs) (s : hregs) (hp : heap) (w : W) : outcome reserve_error xobs * hregs * heap * W :=
      let '(o, hp', w') := m hp w in (o, s, hp', w').
    (** [u = set]: the old set is dropped; a set that could not be completed is dropped while unwinding *)
    Definition xassign (u : nat) (x : outcome reserve_error unit * hmap * heap * W) (s : hregs)
      : outcome reserve_error xobs * hregs * heap * W :=
      let '(o, m, hp, w) := x in
      match o with
      | Ret _ => match h_drop (s u) hp with Some (_, hp') => (Ret XUnit, hup_ s u m, hp', w) | None => (UB, s, hp, w) end
      | Panic => match h_drop m hp with Some (_, hp') => (Panic, s, hp', w) | None => (UB, s, hp, w) end
      | o => (pass o, s, hp, w)
      end.
    Definition xstep (c : xop) (s : hregs) (hp : heap) (w : W) : outcome reserve_error xobs * hregs * heap * W :=
      match c with
      | XMap c => let '(o, s', hp', w') := hxstep c s hp w in (fmap XObs o, s', hp', w')
      | XLazy k r t n m =>
          xread (d <- hs_lazy k (s r) (s t) ;-
                 a <- hlazy_calls n d ;-
                 b <- hlazy_calls m (snd a) ;-
                 aret (XItems (fst a) (fst (hlazy_hint (snd a))) (snd (hlazy_hint (snd a))) (fst b))) s hp w
      | XSubset r t => xread (b <- hs_is_subset (s r) (s t) ;- aret (XBool b)) s hp w
      | XSuperset r t => xread (b <- hs_is_subset (s t) (s r) ;- aret (XBool b)) s hp w   (* set.rs 620-622 *)
      | XDisjoint r t => xread (b <- hs_is_disjoint (s r) (s t) ;- aret (XBool b)) s hp w
      | XOperator k r t u => xassign u (hs_operator k (s r) (s t) hp w) s
      | XCollect r l => xassign r (hx_extend nalloc place kcmp (map (fun x => (x, tt)) l) h_new hp w) s
      end.
    Definition xlegal (c : xop) : Prop := match c with XMap c => legal c | _ => True end.
    (** every step with its result, the sets and the memory after it *)
    Fixpoint xrun (l : list xop) (s : hregs) (hp : heap) (w : W) : list (outcome reserve_error xobs * hregs * heap) :=
      match l with
      | [] => []
      | c :: l' =>
          let '(o, s', hp', w') := xstep c s hp w in
          (o, s', hp') :: match o with Abort | UB => [] | _ => xrun l' s' hp' w' end
      end.
  End Programs.
End SetAlgebra.
Arguments XMap {T Q}. Arguments XLazy {T Q}. Arguments XSubset {T Q}. Arguments XSuperset {T Q}. Arguments XDisjoint {T Q}.
Arguments XOperator {T Q}. Arguments XCollect {T Q}.
Arguments XObs {T}. Arguments XUnit {T}. Arguments XBool {T}. Arguments XItems {T}.
Arguments HDSearch {T}. Arguments HIStitch {T}. Arguments HISearch {T}. Arguments hs_peekable {T}.
