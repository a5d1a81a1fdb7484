(** * LazyModel: sessions on the lazy set iterators (src/btree/set.rs): clones and {:?}.

    BTreeSet::difference, symmetric_difference, intersection and union return
    iterators that are Clone and Debug.  A session makes one and then calls next(), size_hint(),
    clone() and {:?} on it and its clones, in any order; a panic of a comparison in next() is caught and the iterators used on.  The iterators are those of
    HostileSetModel, over raw memory and with comparisons that are user code. *)
From Coq Require Import List Arith Lia Bool.
From Verif Require Import Base IterSpec BTreeModel BTreeIterModel BTreeSetModel HeapModel HistoryModel HeapMapModel HostileModel HostileSetModel LookModel.
Import ListNotations.
Set Implicit Arguments.

(** commands to the [i]-th iterator of a session; a clone becomes the last one *)
Inductive zcmd := ZNext (i : nat) | ZHint (i : nat) | ZClone (i : nat) | ZDebug (i : nat).
(** a field in a printed iterator: for a Peekable, what it has peeked; the elements of its Iter *)
Record zfield (T : Type) := ZField { zpeeked : option (option T); zrest : list T }.
Inductive zobs (T : Type) :=
| ZItem (x : option T)
| ZSize (lo hi : nat)
| ZShown (fields : list (zfield T))
| ZPanicked     (* a comparison panicked within next(), and the caller has caught it *)
| ZDone.
Arguments ZPanicked {T}. Arguments ZItem {T} x. Arguments ZSize {T} lo hi. Arguments ZShown {T} fields. Arguments ZDone {T}.

Section Sessions.
  Variables (T W : Type).
  Notation heap := (heap T unit).
  Notation AM := (AM T unit W).
  Notation aret := (@aret T unit W _).
  Notation "x <- m ;- k" := (abind m (fun x => k)) (at level 80, m at level 79, right associativity).
  Variable kcmp : T -> T -> asks W comparison.

  (** Debug for Iter (set.rs 78-82): f.debug_tuple("Iter").field(&self.iter.clone()), and
      Debug for Keys (map.rs 415-419): the elements that a clone of the iterator delivers up to None.
      [fuel]: one more than their number *)
  Fixpoint hs_show (fuel : nat) (a : hsiter) : AM (list T) :=
    match fuel with
    | 0 => @aub T unit W _
    | S fuel' =>
        x <- hs_next a ;-
        match fst x with
        | None => aret []
        | Some y => l <- hs_show fuel' (snd x) ;- aret (y :: l)
        end
    end.
  Definition zshow_iter (a : hsiter) : AM (zfield T) := l <- hs_show (hs_len a + 1) a ;- aret (ZField None l).
  (** Peekable derives Debug: its two fields *)
  Definition zshow_peek (p : hspeek T) : AM (zfield T) := l <- hs_show (hs_len (hsin p) + 1) (hsin p) ;- aret (ZField (hsp p) l).
  (** set.rs 132-149, 164-171, 195-212, 227-234.  The set that is searched is not printed *)
  Definition zshow (d : hlazy T) : AM (list (zfield T)) :=
    match d with
    | HDStitch a b => x <- zshow_iter a ;- y <- zshow_peek b ;- aret [x; y]
    | HDSearch a _ | HISearch a _ => x <- zshow_iter a ;- aret [x]
    | HSym a b | HUnion a b => x <- zshow_peek a ;- y <- zshow_peek b ;- aret [x; y]
    | HIStitch a b => x <- zshow_iter a ;- y <- zshow_iter b ;- aret [x; y]
    end.

  (** ** next(), the panic of a comparison within it caught (std::panic::catch_unwind)

      The iterator is borrowed by next(), so the caller still has it, with the fields as they were when the comparison panicked.
      [None]: panicked.  Otherwise these are the functions of HostileSetModel (LazyCatch.next_c_same) *)
  Definition acatch (A : Type) (m : AM A) : AM (option A) :=
    fun hp w => match m hp w with
                | (Ret a, hp', w') => (Ret (Some a), hp', w')
                | (Panic, hp', w') => (Ret None, hp', w')
                | (Err e, hp', w') => (Err e, hp', w')
                | (Abort, hp', w') => (Abort, hp', w')
                | (UB, hp', w') => (UB, hp', w')
                end.
  Notation found := (AM (option (option T) * hlazy T)).
  (** set.rs 1170-1187: self_next is a local variable, lost by unwinding *)
  Fixpoint hd_stitch_c (fuel : nat) (self_next : T) (a : hsiter) (b : hspeek T) : found :=
    match fuel with
    | 0 => @aub T unit W _
    | S fuel' =>
        p <- hsp_peek b ;-
        c <- (match fst p with None => aret (Some Lt) | Some other_next => acatch (ask (kcmp self_next other_next)) end) ;-
        match c with
        | None => aret (None, HDStitch a (snd p))
        | Some Lt => aret (Some (Some self_next), HDStitch a (snd p))
        | Some Eq =>
            n <- hs_next a ;-
            match fst n with
            | None => aret (Some None, HDStitch (snd n) (snd p))
            | Some self_next' => q <- hsp_next (snd p) ;- hd_stitch_c fuel' self_next' (snd n) (snd q)
            end
        | Some Gt => q <- hsp_next (snd p) ;- hd_stitch_c fuel' self_next a (snd q)
        end
    end.
  (** set.rs 1190-1195 *)
  Fixpoint hd_search_c (fuel : nat) (a : hsiter) (b : hmap) : found :=
    match fuel with
    | 0 => @aub T unit W _
    | S fuel' =>
        n <- hs_next a ;-
        match fst n with
        | None => aret (Some None, HDSearch (snd n) b)
        | Some self_next =>
            c <- acatch (hs_contains kcmp self_next b) ;-
            match c with
            | None => aret (None, HDSearch (snd n) b)
            | Some true => hd_search_c fuel' (snd n) b
            | Some false => aret (Some (Some self_next), HDSearch (snd n) b)
            end
        end
    end.
  (** set.rs 1228-1239: both sides have been peeked when cmp_opt panics *)
  Fixpoint hsym_loop_c (fuel : nat) (a b : hspeek T) : found :=
    match fuel with
    | 0 => @aub T unit W _
    | S fuel' =>
        x <- hsp_peek a ;-
        y <- hsp_peek b ;-
        c <- acatch (hs_cmp_opt kcmp (fst x) (fst y) Gt Lt) ;-
        match c with
        | None => aret (None, HSym (snd x) (snd y))
        | Some Lt => n <- hsp_next (snd x) ;- aret (Some (fst n), HSym (snd n) (snd y))
        | Some Eq => n <- hsp_next (snd x) ;- m <- hsp_next (snd y) ;- hsym_loop_c fuel' (snd n) (snd m)
        | Some Gt => m <- hsp_next (snd y) ;- aret (Some (fst m), HSym (snd x) (snd m))
        end
    end.
  (** set.rs 1328-1337 *)
  Definition hunion_next_c (a b : hspeek T) : found :=
    x <- hsp_peek a ;-
    y <- hsp_peek b ;-
    c <- acatch (hs_cmp_opt kcmp (fst x) (fst y) Gt Lt) ;-
    match c with
    | None => aret (None, HUnion (snd x) (snd y))
    | Some Lt => n <- hsp_next (snd x) ;- aret (Some (fst n), HUnion (snd n) (snd y))
    | Some Eq => m <- hsp_next (snd y) ;- n <- hsp_next (snd x) ;- aret (Some (fst n), HUnion (snd n) (snd m))
    | Some Gt => m <- hsp_next (snd y) ;- aret (Some (fst m), HUnion (snd x) (snd m))
    end.
  (** set.rs 1283-1289 *)
  Fixpoint hi_stitch_c (fuel : nat) (x y : T) (a b : hsiter) : found :=
    match fuel with
    | 0 => @aub T unit W _
    | S fuel' =>
        c <- acatch (ask (kcmp x y)) ;-
        match c with
        | None => aret (None, HIStitch a b)
        | Some Lt => n <- hs_next a ;-
                match fst n with None => aret (Some None, HIStitch (snd n) b) | Some x' => hi_stitch_c fuel' x' y (snd n) b end
        | Some Gt => n <- hs_next b ;-
                match fst n with None => aret (Some None, HIStitch a (snd n)) | Some y' => hi_stitch_c fuel' x y' a (snd n) end
        | Some Eq => aret (Some (Some x), HIStitch a b)
        end
    end.
  (** set.rs 1294-1299 *)
  Fixpoint hi_search_c (fuel : nat) (a : hsiter) (b : hmap) : found :=
    match fuel with
    | 0 => @aub T unit W _
    | S fuel' =>
        n <- hs_next a ;-
        match fst n with
        | None => aret (Some None, HISearch (snd n) b)
        | Some x =>
            c <- acatch (hs_contains kcmp x b) ;-
            match c with
            | None => aret (None, HISearch (snd n) b)
            | Some true => aret (Some (Some x), HISearch (snd n) b)
            | Some false => hi_search_c fuel' (snd n) b
            end
        end
    end.
  (** set.rs 1164-1197, 1225-1239, 1275-1301, 1328-1337 *)
  Definition hlazy_next_c (d : hlazy T) : found :=
    match d with
    | HDStitch a b =>
        n <- hs_next a ;-
        match fst n with
        | None => aret (Some None, HDStitch (snd n) b)
        | Some x => hd_stitch_c (hs_len (snd n) + hsp_len b + 1) x (snd n) b
        end
    | HDSearch a b => hd_search_c (hs_len a + 1) a b
    | HSym a b => hsym_loop_c (hsp_len a + hsp_len b + 1) a b
    | HUnion a b => hunion_next_c a b
    | HIStitch a b =>
        n <- hs_next a ;-
        match fst n with
        | None => aret (Some None, HIStitch (snd n) b)
        | Some x =>
            m <- hs_next b ;-
            match fst m with
            | None => aret (Some None, HIStitch (snd n) (snd m))
            | Some y => hi_stitch_c (hs_len (snd n) + hs_len (snd m) + 1) x y (snd n) (snd m)
            end
        end
    | HISearch a b => hi_search_c (hs_len a + 1) a b
    end.

  (** clones (set.rs 1138-1160, 1216-1223, 1249-1271, 1315-1323) copy every field, a shared reference to the searched set *)
  Definition zstep1 (c : zcmd) (pool : list (hlazy T)) : AM (zobs T * list (hlazy T)) :=
    match c with
    | ZNext i => match nth_error pool i with
                 | Some d => x <- hlazy_next_c d ;-
                           aret (match fst x with Some o => ZItem o | None => ZPanicked end, put_nth i (snd x) pool)
                 | None => aret (ZDone, pool)
                 end
    | ZHint i => match nth_error pool i with
                 | Some d => aret (ZSize (fst (hlazy_hint d)) (snd (hlazy_hint d)), pool)
                 | None => aret (ZDone, pool)
                 end
    | ZClone i => match nth_error pool i with Some d => aret (ZDone, pool ++ [d]) | None => aret (ZDone, pool) end
    | ZDebug i => match nth_error pool i with
                  | Some d => l <- zshow d ;- aret (ZShown l, pool)
                  | None => aret (ZDone, pool)
                  end
    end.
  Fixpoint zrun1 (cs : list zcmd) (pool : list (hlazy T)) : AM (list (zobs T)) :=
    match cs with
    | [] => aret []
    | c :: cs' => r <- zstep1 c pool ;- l <- zrun1 cs' (snd r) ;- aret (fst r :: l)
    end.

  (** ** Programs: the operations of HostileSetModel, and these sessions *)
  Variable Q : Type.
  Inductive zop := ZSet (c : xop T Q) | ZLook (k : algebra) (r t : nat) (cs : list zcmd).
  Inductive zres := ZPlain (o : xobs T) | ZSession (outs : list (zobs T)).
  Variables (nalloc : bool -> W -> option reserve_error * W) (place : heap -> W -> loc) (tclone : T -> W -> outcome Empty_set T * W).
  Variables (qcmp : Q -> T -> asks W comparison) (qeq qgt : Q -> Q -> asks W bool) (view : bound_ Q -> asks W (bound_ Q)).
  Variables (eqb : T * unit -> T * unit -> asks W bool) (pcmp : T * unit -> T * unit -> asks W (option comparison)).
  Notation xstep := (xstep kcmp nalloc place tclone qcmp qeq qgt view eqb pcmp).
  Definition zstep (c : zop) (s : hregs) (hp : heap) (w : W) : outcome reserve_error zres * hregs * heap * W :=
    match c with
    | ZSet c => let '(o, s', hp', w') := xstep c s hp w in (omap ZPlain o, s', hp', w')
    | ZLook k r t cs =>
        let '(o, hp', w') := (d <- hs_lazy k (s r) (s t) ;- l <- zrun1 cs [d] ;- aret (ZSession l)) hp w in (o, s, hp', w')
    end.
  Fixpoint zrun (l : list zop) (s : hregs) (hp : heap) (w : W) : list (outcome reserve_error zres * hregs * heap) :=
    match l with
    | [] => []
    | c :: l' =>
        let '(o, s', hp', w') := zstep c s hp w in
        (o, s', hp') :: match o with Abort | UB => [] | _ => zrun l' s' hp' w' end
    end.
End Sessions.
Arguments ZSet {T Q} c. Arguments ZLook {T Q} k r t cs. Arguments ZPlain {T} o. Arguments ZSession {T} outs.
