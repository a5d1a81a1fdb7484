(** * TouchModel: user code that gets a [&mut V], and entries that are used step
    by step (src/btree/map.rs).

    In HeapMapModel the closures are functions on values, and an entry is used in
    two fixed ways.  Here the user's code may do anything with the value, with its
    own surroundings, and it may panic after having changed the value; an entry
    may be inspected and changed any number of times before it is used up; maps are
    filled from iterators that do anything. *)
From Coq Require Import List Arith Lia Bool.
From Verif Require Import Base MapSpec IterSpec BTreeModel BTreeIterModel HeapModel HeapMapModel HistoryModel.
Import ListNotations.
Set Implicit Arguments.
Unset Strict Implicit.

Section Touch.
  Variables (K V Q W : Type).
  Notation kv := (K * V)%type.
  Notation heap := (heap K V).
  Notation HM := (HM K V).
  Notation hitem := (hitem K V).
  Notation avals := (avals K V).
  Notation "x <~ m ;~ k" := (hbind m (fun x => k)) (at level 80, m at level 79, right associativity).

  (** what user code does with a [&mut V]: how it ends, what it leaves in the place, its surroundings *)
  Definition closure := V -> W -> outcome Empty_set unit * V * W.

  (** ** Entries *)
  (** steps that keep the entry *)
  Inductive edo :=
  | EKey                    (* entry.key() *)
  | EGet                    (* if let Occupied(e) = &entry { e.get() } *)
  | EModify (f : closure)   (* entry = entry.and_modify(f), or e.get_mut() *)
  | ESet (v : V).           (* if let Occupied(e) = &mut entry { e.insert(v) } *)
  (** steps that use it up *)
  Inductive elast :=
  | EDrop
  | EOrInsert (g : W -> outcome Empty_set V * W) (f : closure)   (* f(entry.or_try_insert_with(g)?) *)
  | ETake                   (* Occupied(e) => Some(e.remove_entry()), Vacant(_) => None *)
  | EPut (v : V)            (* Occupied(mut e) => Some(e.insert(v)), Vacant(e) => { e.try_insert(v)?; None } *)
  | EIntoKey.               (* if let Vacant(e) = entry { e.into_key() } *)
  Inductive eobs :=
  | EoUnit
  | EoKey (k : K)
  | EoVal (v : option V)
  | EoEntry (x : option kv).

  (** user code works on the place behind a reference: a read, and what it leaves there *)
  Definition h_lend (a : place_) (f : closure) (hp : heap) (w : W) : outcome reserve_error unit * heap * W :=
    match a_read avals (fst a) (snd a) hp with
    | Some (v, hp1) =>
        let '(o, v', w') := f v w in
        match a_write avals (fst a) (snd a) v' hp1 with
        | Some (_, hp2) => (cast o, hp2, w')
        | None => (UB, hp1, w')
        end
    | None => (UB, hp, w)
    end.
  (** map.rs 2277-2288 (and_modify), 2501-2503 (get_mut): the borrow, and the closure on it *)
  Definition h_modify (en : hentry K) (f : closure) (hp : heap) (w : W) : outcome reserve_error unit * heap * W :=
    match en with
    | HOccupied _ h =>
        match h_kv_mut h hp with
        | Some (a, hp1) => h_lend a f hp1 w
        | None => (UB, hp, w)
        end
    | HVacant _ _ => (Ret tt, hp, w)
    end.
  Definition e_step (en : hentry K) (a : edo) (hp : heap) (w : W) : outcome reserve_error eobs * heap * W :=
    match a with
    | EKey =>                        (* map.rs 2249-2254; 2424-2426, 2329-2331 *)
        match en with
        | HOccupied _ h => lift (x <~ h_into_kv h ;~ hret (EoKey (fst x))) hp w
        | HVacant k _ => (Ret (EoKey k), hp, w)
        end
    | EGet =>                        (* map.rs 2470-2472 *)
        match en with
        | HOccupied _ h => lift (x <~ h_into_kv h ;~ hret (EoVal (Some (snd x)))) hp w
        | HVacant _ _ => (Ret (EoVal None), hp, w)
        end
    | EModify f => let '(o, hp1, w1) := h_modify en f hp w in (omap (fun _ => EoUnit) o, hp1, w1)
    | ESet v =>                      (* map.rs 2549-2551 *)
        match en with
        | HOccupied _ h => lift (x <~ h_occupied_insert h v ;~ hret (EoVal (Some x))) hp w
        | HVacant _ _ => (Ret (EoVal None), hp, w)
        end
    end.
  (** the steps up to one that does not return: what they returned, how it ended *)
  Fixpoint e_run (en : hentry K) (l : list edo) (hp : heap) (w : W) : list eobs * outcome reserve_error unit * heap * W :=
    match l with
    | [] => ([], Ret tt, hp, w)
    | a :: l' =>
        match e_step en a hp w with
        | (Ret x, hp1, w1) => let '(xs, o, hp2, w2) := e_run en l' hp1 w1 in (x :: xs, o, hp2, w2)
        | (o, hp1, w1) => ([], pass o, hp1, w1)
        end
    end.

  Variables (nalloc : bool -> W -> option reserve_error * W) (place : heap -> W -> loc).
  Variables (cmp : K -> K -> comparison) (qcmp : Q -> Q -> comparison) (borrow : K -> Q).
  Variables (kclone : K -> W -> outcome reserve_error K * W) (vclone : V -> W -> outcome reserve_error V * W).
  Variables (eqb : kv -> kv -> bool) (pcmp : kv -> kv -> option comparison).

  Definition e_last (m : hmap) (en : hentry K) (a : elast) (hp : heap) (w : W) : outcome reserve_error eobs * hmap * heap * W :=
    match a with
    | EDrop => (Ret EoUnit, m, hp, w)
    | EOrInsert g f =>               (* map.rs 2204-2235, 2307-2312; then the caller uses the reference *)
        let '(o, m1, hp1, w1) := h_or_try_insert_with nalloc place m en (fun w => let '(o, w') := g w in (cast o, w')) hp w in
        match o with
        | Ret p => let '(o2, hp2, w2) := h_lend p f hp1 w1 in (omap (fun _ => EoUnit) o2, m1, hp2, w2)
        | o => (pass o, m1, hp1, w1)
        end
    | ETake =>                       (* map.rs 2449-2451, 2575-2630 *)
        match en with
        | HOccupied _ h =>
            match h_remove_entry_at m h hp with
            | Some ((x, m1), hp1) => (Ret (EoEntry (Some x)), m1, hp1, w)
            | None => (UB, m, hp, w)
            end
        | HVacant _ _ => (Ret (EoEntry None), m, hp, w)
        end
    | EPut v =>                      (* map.rs 2549-2551, 2370-2408 *)
        match en with
        | HOccupied _ h => let '(o, hp1, w1) := lift (h_occupied_insert h v) hp w in (omap (fun x => EoVal (Some x)) o, m, hp1, w1)
        | HVacant k h => let '(o, m1, hp1, w1) := h_vacant_insert nalloc place m h (k, v) hp w in (omap (fun _ => EoVal None) o, m1, hp1, w1)
        end
    | EIntoKey =>                    (* map.rs 2348-2350 *)
        match en with
        | HOccupied _ _ => (Ret EoUnit, m, hp, w)
        | HVacant k _ => (Ret (EoKey k), m, hp, w)
        end
    end.

  (** ** Mutable iterators, each reference used when it is handed out: while let Some((k, v)) = it.next() { f(k, v) },
      and the same with calls to next and next_back in any order *)
  Fixpoint h_walk (I : Type) (next next_back : I -> HM (option hitem * I)) (cs : list end_) (f : K -> closure) (it : I) (hp : heap) (w : W)
    : outcome reserve_error unit * heap * W :=
    match cs with
    | [] => (Ret tt, hp, w)
    | e :: cs' =>
        match (match e with Front => next | Back => next_back end) it hp with
        | None => (UB, hp, w)
        | Some ((None, it'), hp1) => h_walk next next_back cs' f it' hp1 w
        | Some ((Some x, it'), hp1) =>
            match h_lend (snd x) (f (fst (fst x))) hp1 w with
            | (Ret _, hp2, w2) => h_walk next next_back cs' f it' hp2 w2
            | (o, hp2, w2) => (o, hp2, w2)
            end
        end
    end.

  (** ** Filling a map from a user's iterator: what each call to its next() does; the iterator ends with [Ret None],
      or with the list *)
  Definition next_call := W -> outcome Empty_set (option kv) * W.
  (** map.rs 1794-1801 *)
  Fixpoint h_feed (its : list next_call) (m : hmap) (hp : heap) (w : W) : outcome reserve_error unit * hmap * heap * W :=
    match its with
    | [] => (Ret tt, m, hp, w)
    | g :: its' =>
        match g w with
        | (Ret None, w1) => (Ret tt, m, hp, w1)
        | (Ret (Some x), w1) =>
            let '(o, m1, hp1, w2) := h_try_insert nalloc place cmp (fst x) (snd x) m hp w1 in
            match o with
            | Ret _ => h_feed its' m1 hp1 w2
            | o => (expect (pass o), m1, hp1, w2)
            end
        | (o, w1) => (pass (cast o), m, hp, w1)
        end
    end.

  (** ** Programs: the operations of HistoryModel, and these *)
  Inductive top :=
  | TPlain (c : op K V Q)
  | TEntry (r : nat) (k : K) (l : list edo) (a : elast)                       (* r.try_entry(k)? *)
  | TGetMut (r : nat) (x : Q) (f : closure)                                   (* if let Some(v) = r.get_mut(x) { f(v) } *)
  | TWalk (r : nat) (cs : list end_) (f : K -> closure)                       (* f on what the calls [cs] to r.iter_mut() deliver *)
  | TWalkRange (r : nat) (lo hi : bound_ Q) (cs : list end_) (f : K -> closure)    (* the same with r.range_mut((lo, hi)) *)
  | TExtend (r : nat) (its : list next_call)                                  (* r.extend(it) *)
  | TCollect (r : nat) (its : list next_call).                                (* r = it.collect() *)
  Inductive tobs :=
  | ToPlain (o : obs K V)
  | ToEntry (o : eobs)
  | ToFound (b : bool)
  | ToDone.
  Notation hstep := (hstep nalloc place cmp qcmp borrow kclone vclone eqb pcmp).
  (** what the steps of an entry returned, and how the operation ended *)
  Notation result := (list eobs * outcome reserve_error tobs * hregs * heap * W)%type.
  Definition tstep (c : top) (s : hregs) (hp : heap) (w : W) : result :=
    match c with
    | TPlain c => let '(o, s', hp', w') := hstep c s hp w in ([], omap ToPlain o, s', hp', w')
    | TEntry r k l a =>
        let '(o, m1, hp1, w1) := h_try_entry nalloc place cmp k (s r) hp w in
        match o with
        | Ret en =>
            let '(xs, o2, hp2, w2) := e_run en l hp1 w1 in
            match o2 with
            | Ret _ => let '(o3, m3, hp3, w3) := e_last m1 en a hp2 w2 in (xs, omap ToEntry o3, hup_ s r m3, hp3, w3)
            | o2 => (xs, pass o2, hup_ s r m1, hp2, w2)
            end
        | o => ([], pass o, hup_ s r m1, hp1, w1)
        end
    | TGetMut r x f =>               (* map.rs 716-725 *)
        match h_get_mut (look qcmp borrow x) (s r) hp with
        | Some (Some a, hp1) => let '(o, hp2, w2) := h_lend a f hp1 w in ([], omap (fun _ => ToFound true) o, s, hp2, w2)
        | Some (None, hp1) => ([], Ret (ToFound false), s, hp1, w)
        | None => ([], UB, s, hp, w)
        end
    | TWalk r cs f =>                (* map.rs 2062-2073, 1315-1322, 1331-1338 *)
        match h_iter (s r) hp with
        | Some (it, hp1) =>
            let '(o, hp2, w2) := h_walk (h_iter_next (rh (mroot (s r)))) (h_iter_next_back (rh (mroot (s r)))) cs f it hp1 w in
            ([], omap (fun _ => ToDone) o, s, hp2, w2)
        | None => ([], UB, s, hp, w)
        end
    | TWalkRange r lo hi cs f =>     (* map.rs 929-944, 1691-1697, 1738-1744 *)
        match h_range qcmp borrow lo hi (s r) hp with
        | Some (Ret it, hp1) =>
            let '(o, hp2, w2) := h_walk (h_range_next (rh (mroot (s r)))) (h_range_next_back (rh (mroot (s r)))) cs f it hp1 w in
            ([], omap (fun _ => ToDone) o, s, hp2, w2)
        | Some (o, hp1) => ([], cast (omap (fun _ => ToDone) o), s, hp1, w)
        | None => ([], UB, s, hp, w)
        end
    | TExtend r its => let '(o, m, hp1, w1) := h_feed its (s r) hp w in ([], omap (fun _ => ToDone) o, hup_ s r m, hp1, w1)
    | TCollect r its =>              (* map.rs 1785-1792; the old map of r is dropped, or the new one if there was a panic *)
        let '(o, m, hp1, w1) := h_feed its h_new hp w in
        match o with
        | Ret _ => match h_drop (s r) hp1 with Some (_, hp2) => ([], Ret ToDone, hup_ s r m, hp2, w1) | None => ([], UB, s, hp1, w1) end
        | Panic => match h_drop m hp1 with Some (_, hp2) => ([], Panic, s, hp2, w1) | None => ([], UB, s, hp1, w1) end
        | o => ([], pass o, s, hp1, w1)
        end
    end.
  Fixpoint trun (l : list top) (s : hregs) (hp : heap) (w : W) : list result :=
    match l with
    | [] => []
    | c :: l' =>
        let '(xs, o, s', hp', w') := tstep c s hp w in
        (xs, o, s', hp', w') :: match o with Abort | UB => [] | _ => trun l' s' hp' w' end
    end.
End Touch.
