(** * LookModel: cloning and printing iterators at any point (src/btree/map.rs).

    The operations of HeapMapModel know sequences of next() and next_back() on
    one iterator.  Here a program may also clone an iterator in the middle, ask
    for its length, and print it with {:?}; printing an IntoIter reads the part of
    the tree that it has not freed yet. *)
From Coq Require Import List Arith Lia Bool.
From Verif Require Import Base MapSpec IterSpec BTreeModel BTreeIterModel HeapModel HeapMapModel HistoryModel.
Import ListNotations.
Set Implicit Arguments.
Unset Strict Implicit.

(** commands to a number of iterators over the same map: [i] says to which.  An
    index out of range cannot be written in Rust; here nothing happens *)
Inductive lcmd :=
| LCall (e : end_) (i : nat)   (* next(), next_back() *)
| LLen (i : nat)               (* len() *)
| LClone (i : nat)             (* clone(); the new iterator gets the next index *)
| LDebug (i : nat).            (* format!("{:?}", it) *)
(** commands to an IntoIter, which is not Clone *)
Inductive icmd := ICall (e : end_) | ILen | IDebug.

(** what a command returns *)
Inductive lobs (K V : Type) :=
| LItem (x : option (K * V))
| LCount (n : option nat)      (* the length; None: a Range has no len() *)
| LShown (l : list (K * V))    (* the entries in the printed list, in order *)
| LDone.
Arguments LCount {K V} n. Arguments LDone {K V}. Arguments LShown {K V} l. Arguments LItem {K V} x.

(** the list with [x] at position [i] *)
Definition put_nth A (i : nat) (x : A) (l : list A) : list A := firstn i l ++ x :: skipn (S i) l.

Section Look.
  Variables (K V : Type).
  Notation kv := (K * V)%type.
  Notation heap := (heap K V).
  Notation HM := (HM K V).
  Notation hitem := (hitem K V).
  Notation lobs := (lobs K V).
  Notation "x <~ m ;~ k" := (hbind m (fun x => k)) (at level 80, m at level 79, right associativity).

  (** f.debug_list().entries(it).finish(): the entries that [it] delivers, up to None;
      [n] bounds their number *)
  Fixpoint h_show (I : Type) (next : I -> HM (option hitem * I)) (n : nat) (it : I) : HM (list kv) :=
    r <~ next it ;~
    match fst r with
    | None => hret []
    | Some x => match n with
                | 0 => @hub K V _
                | S n' => l <~ h_show next n' (snd r) ;~ hret (fst x :: l)
                end
    end.

  Section Pool.
    Variables (I : Type) (next next_back : I -> HM (option hitem * I)) (len : I -> option nat) (bound : nat).
    Definition look_step (c : lcmd) (pool : list I) : HM (lobs * list I) :=
      match c with
      | LCall e i =>
          match nth_error pool i with
          | Some it => r <~ (match e with Front => next it | Back => next_back it end) ;~
                       hret (LItem (option_map fst (fst r)), put_nth i (snd r) pool)
          | None => hret (LDone, pool)
          end
      | LLen i => match nth_error pool i with Some it => hret (LCount (len it), pool) | None => hret (LDone, pool) end
      | LClone i => match nth_error pool i with Some it => hret (LDone, pool ++ [it]) | None => hret (LDone, pool) end
      | LDebug i => match nth_error pool i with
                    | Some it => l <~ h_show next bound it ;~ hret (LShown l, pool)
                    | None => hret (LDone, pool)
                    end
      end.
    Fixpoint look_run (cs : list lcmd) (pool : list I) : HM (list lobs) :=
      match cs with
      | [] => hret []
      | c :: cs' => r <~ look_step c pool ;~ l <~ look_run cs' (snd r) ;~ hret (fst r :: l)
      end.
  End Pool.

  (** map.rs 2030-2038 (iter), 1292-1299 (Clone for Iter), 359-363 (Debug for Iter),
      1287-1289 (len).  Keys, Values (415-419, 433-437) and BTreeSet's Iter (set.rs 78-82,
      1034-1040) wrap it; Debug for BTreeMap (map.rs 1848-1852) prints iter() *)
  Definition h_look (m : hmap) (cs : list lcmd) : HM (list lobs) :=
    it <~ h_iter m ;~
    look_run (h_iter_next (rh (mroot m))) (h_iter_next_back (rh (mroot m))) (fun it => Some (xlen it)) (mlen m) cs [it].
  (** 1677-1685 (Clone for Range), 465-469 (Debug for Range).  RangeMut (487-495) and with it
      IterMut and ValuesMut (373, 447: derived) print the Range of their two handles *)
  Definition h_look_range (m : hmap) (r : hrange) (cs : list lcmd) : HM (list lobs) :=
    look_run (h_range_next (rh (mroot m))) (h_range_next_back (rh (mroot m))) (fun _ => None) (mlen m) cs [r].

  (** map.rs 393-401 (Debug for IntoIter): a Range of the two reborrowed handles *)
  Definition h_into_show (fuel : nat) (it : hinto) : HM (list kv) :=
    h_show (h_range_next fuel) (hleft it) (HRange (hfront it) (hback it)).
  Definition into_look_step (fuel : nat) (c : icmd) (it : hinto) : HM (lobs * hinto) :=
    match c with
    | ICall e => r <~ (match e with Front => h_into_next fuel it | Back => h_into_next_back fuel it end) ;~
                 hret (LItem (fst r), snd r)
    | ILen => hret (LCount (Some (hleft it)), it)   (* map.rs 1472-1474 *)
    | IDebug => l <~ h_into_show fuel it ;~ hret (LShown l, it)
    end.
  Fixpoint into_look_run (fuel : nat) (cs : list icmd) (it : hinto) : HM (list lobs * hinto) :=
    match cs with
    | [] => hret ([], it)
    | c :: cs' => r <~ into_look_step fuel c it ;~ l <~ into_look_run fuel cs' (snd r) ;~ hret (fst r :: fst l, snd l)
    end.

  (** ** Programs: the operations of HistoryModel, and these sessions *)
  Variable Q : Type.
  Inductive dop :=
  | Plain (c : op K V Q)
  | Look (r : nat) (cs : list lcmd)                            (* r.iter() *)
  | LookRange (r : nat) (lo hi : bound_ Q) (cs : list lcmd)    (* r.range((lo, hi)) *)
  | Consume (r : nat) (cs : list icmd).                        (* take(&mut r).into_iter(), dropped at the end *)
  Inductive dobs :=
  | DPlain (o : obs K V)
  | DSession (outs : list lobs) (dropped : list kv).

  Variables (W : Type) (nalloc : bool -> W -> option reserve_error * W) (place : heap -> W -> loc).
  Variables (cmp : K -> K -> comparison) (qcmp : Q -> Q -> comparison) (borrow : K -> Q).
  Variables (kclone : K -> W -> outcome reserve_error K * W) (vclone : V -> W -> outcome reserve_error V * W).
  Variables (eqb : kv -> kv -> bool) (pcmp : kv -> kv -> option comparison).
  Notation hstep := (hstep nalloc place cmp qcmp borrow kclone vclone eqb pcmp).
  Notation result := (outcome reserve_error dobs * hregs * heap * W)%type.
  Definition session (m : HM (outcome reserve_error dobs * hregs)) (s : hregs) (hp : heap) (w : W) : result :=
    match m hp with Some ((o, s'), hp') => (o, s', hp', w) | None => (UB, s, hp, w) end.
  Definition dstep (c : dop) (s : hregs) (hp : heap) (w : W) : result :=
    match c with
    | Plain c => let '(o, s', hp', w') := hstep c s hp w in (fmap DPlain o, s', hp', w')
    | Look r cs => session (l <~ h_look (s r) cs ;~ hret (Ret (DSession l []), s)) s hp w
    | LookRange r lo hi cs =>
        session (o <~ h_range qcmp borrow lo hi (s r) ;~
                 match o with
                 | Ret it => l <~ h_look_range (s r) it cs ;~ hret (Ret (DSession l []), s)
                 | o => hret (fmap (fun _ => DSession [] []) (cast o), s)
                 end) s hp w
    | Consume r cs =>
        session (it <~ h_into_iter (s r) ;~
                 a <~ into_look_run (rh (mroot (s r))) cs it ;~
                 d <~ h_drop_into_iter (rh (mroot (s r))) (snd a) ;~
                 hret (Ret (DSession (fst a) d), hup_ s r h_new)) s hp w
    end.
  Fixpoint ddrun (l : list dop) (s : hregs) (hp : heap) (w : W) : list (outcome reserve_error dobs * hregs * heap) :=
    match l with
    | [] => []
    | c :: l' =>
        let '(o, s', hp', w') := dstep c s hp w in
        (o, s', hp') :: match o with Abort | UB => [] | _ => ddrun l' s' hp' w' end
    end.
End Look.
Arguments Look {K V Q} r cs. Arguments LookRange {K V Q} r lo hi cs. Arguments Consume {K V Q} r cs. Arguments Plain {K V Q} c.
