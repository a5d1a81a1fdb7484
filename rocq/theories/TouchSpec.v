(** * TouchSpec: user code working on the values of a map, said about sorted lists.

    A reference into a map is the value of one entry of the list: what the code
    leaves there is the entry's value from then on, also if the code panics.
    [W] is the world of the user's code: the specification says exactly which
    code runs on which value, in which order. *)
From Coq Require Import List Arith Lia Bool.
From Verif Require Import Base MapSpec IterSpec BTreeModel BTreeRange HeapModel HeapMapModel HistoryModel HistorySpec HeapSpec TouchModel.
Import ListNotations.
Set Implicit Arguments.

Section Spec.
  Variables (K V Q W : Type).
  Notation kv := (K * V)%type.
  Notation closure := (closure V W).
  Notation code := (outcome Empty_set unit).
  Variables (cmp : K -> K -> comparison) (qcmp : Q -> Q -> comparison) (borrow : K -> Q).

  (** user code on the value of the entry found with [q], if there is one *)
  Definition s_lend (q : K -> comparison) (f : closure) (l : list kv) (w : W) : code * list kv * W :=
    match s_get q l with
    | Some x => let '(o, v', w') := f (snd x) w in (o, s_update q (fun _ => v') l, w')
    | None => (Ret tt, l, w)
    end.
  (** an entry for the key [k] *)
  Definition s_estep (k : K) (a : edo V W) (l : list kv) (w : W) : outcome Empty_set (eobs K V) * list kv * W :=
    match a with
    | EKey _ _ => (Ret (EoKey V (match s_get (cmp k) l with Some x => fst x | None => k end)), l, w)
    | EGet _ _ => (Ret (EoVal K (option_map snd (s_get (cmp k) l))), l, w)
    | EModify f => let '(o, l', w') := s_lend (cmp k) f l w in (omap (fun _ => @EoUnit K V) o, l', w')
    | ESet _ v => (Ret (EoVal K (option_map snd (s_get (cmp k) l))), s_update (cmp k) (fun _ => v) l, w)
    end.
  Fixpoint s_erun (k : K) (acts : list (edo V W)) (l : list kv) (w : W) : list (eobs K V) * code * list kv * W :=
    match acts with
    | [] => ([], Ret tt, l, w)
    | a :: acts' =>
        match s_estep k a l w with
        | (Ret x, l1, w1) => let '(xs, o, l2, w2) := s_erun k acts' l1 w1 in (x :: xs, o, l2, w2)
        | (o, l1, w1) => ([], omap (fun _ => tt) o, l1, w1)
        end
    end.
  (** the last use; between [w3] and [w4] the map may have asked for memory *)
  Definition s_elast (k : K) (a : elast V W) (l : list kv) (w : W) (o : outcome reserve_error (eobs K V)) (l' : list kv) (w' : W) : Prop :=
    match a with
    | EDrop _ _ => o = Ret (@EoUnit K V) /\ l' = l /\ w' = w
    | ETake _ _ => o = Ret (EoEntry (s_get (cmp k) l)) /\ l' = s_remove (cmp k) l /\ w' = w
    | EIntoKey _ _ => o = Ret (match s_get (cmp k) l with Some _ => @EoUnit K V | None => EoKey V k end) /\ l' = l /\ w' = w
    | EPut _ v =>
        match s_get (cmp k) l with
        | Some x => o = Ret (EoVal K (Some (snd x))) /\ l' = s_update (cmp k) (fun _ => v) l /\ w' = w
        | None => o = Ret (EoVal K None) /\ l' = s_insert cmp k v l
        end
    | EOrInsert g f =>
        match s_get (cmp k) l with
        | Some x => exists o2, s_lend (cmp k) f l w = (o2, l', w') /\ o = omap (fun _ => @EoUnit K V) (cast o2)
        | None =>
            match g w with
            | (Ret v, w3) => exists w4 o2 v', f v w4 = (o2, v', w') /\ o = omap (fun _ => @EoUnit K V) (cast o2) /\ l' = s_insert cmp k v' l
            | (og, w3) => o = omap (fun _ => @EoUnit K V) (cast og) /\ l' = l /\ w' = w3
            end
        end
    end.
  (** each value handed out by a double-ended iterator goes through the user's code at once *)
  Fixpoint s_walk (cs : list end_) (f : K -> closure) (l : list kv) (w : W) : code * list kv * W :=
    match cs with
    | [] => (Ret tt, l, w)
    | Front :: cs' =>
        match l with
        | [] => s_walk cs' f l w
        | x :: m =>
            match f (fst x) (snd x) w with
            | (Ret _, v', w1) => let '(o, m', w2) := s_walk cs' f m w1 in (o, (fst x, v') :: m', w2)
            | (o, v', w1) => (o, (fst x, v') :: m, w1)
            end
        end
    | Back :: cs' =>
        match rev l with
        | [] => s_walk cs' f l w
        | x :: m =>
            match f (fst x) (snd x) w with
            | (Ret _, v', w1) => let '(o, m', w2) := s_walk cs' f (rev m) w1 in (o, m' ++ [(fst x, v')], w2)
            | (o, v', w1) => (o, rev m ++ [(fst x, v')], w1)
            end
        end
    end.

  Variables (eqb : kv -> kv -> bool) (pcmp : kv -> kv -> option comparison).
  Variables (no_memory : reserve_error -> Prop) (copy : kv -> kv -> Prop) (clone_fails : outcome reserve_error unit -> Prop).
  (** the items an iterator delivers are inserted one after the other; between [w1] and [w2] the map may have asked for memory *)
  Inductive s_feed : list (next_call K V W) -> list kv -> W -> code -> list kv -> W -> Prop :=
  | F_end l w : s_feed [] l w (Ret tt) l w
  | F_stop g its l w w1 : g w = (Ret None, w1) -> s_feed (g :: its) l w (Ret tt) l w1
  | F_item g its l w x w1 w2 o l' w' : g w = (Ret (Some x), w1) -> (s_get (cmp (fst x)) l <> None -> w2 = w1) ->
      s_feed its (s_insert cmp (fst x) (snd x) l) w2 o l' w' -> s_feed (g :: its) l w o l' w'
  | F_fail g its l w o w1 : g w = (o, w1) -> ~ is_ret o -> s_feed (g :: its) l w (omap (fun _ => tt) o) l w1
  | F_refused g its w x w1 w2 e : g w = (Ret (Some x), w1) -> no_memory e ->   (* the first node *)
      s_feed (g :: its) [] w Panic [] w2.   (* for more nodes see [tgave_up], [tlost] *)

  Notation spec := (spec cmp qcmp borrow eqb pcmp no_memory copy clone_fails).
  Notation gave_up := (gave_up cmp no_memory).
  Notation result := (outcome reserve_error (tobs K V)).
  Notation state := (nat -> list kv).

  Definition tspec (c : top K V Q W) (S : state) (w : W) (xs : list (eobs K V)) (o : result) (S' : state) (w' : W) : Prop :=
    match c with
    | TPlain _ c => xs = [] /\ exists o', o = omap (@ToPlain K V) o' /\ spec c S o' S'
    | TEntry _ r k acts a =>
        (S r = [] /\ xs = [] /\ (exists e, o = Err e /\ no_memory e) /\ same S S') \/
        (exists w1 o2 l2 w2, (S r <> [] -> w1 = w) /\ s_erun k acts (S r) w1 = (xs, o2, l2, w2) /\
          match o2 with
          | Ret _ => exists o3 l3, s_elast k a l2 w2 o3 l3 w' /\ o = omap (@ToEntry K V) o3 /\ same (upd S r l3) S'
          | o2 => o = omap (fun _ => @ToDone K V) (cast o2) /\ w' = w2 /\ same (upd S r l2) S'
          end)
    | TGetMut _ r x f =>
        let q := fun k => qcmp x (borrow k) in
        xs = [] /\ exists o2 l2, s_lend q f (S r) w = (o2, l2, w') /\ same (upd S r l2) S' /\
          o = omap (fun _ => ToFound K V (match s_get q (S r) with Some _ => true | None => false end)) (cast o2)
    | TWalk _ r cs f =>
        xs = [] /\ exists o2 l2, s_walk cs f (S r) w = (o2, l2, w') /\ same (upd S r l2) S' /\ o = omap (fun _ => @ToDone K V) (cast o2)
    | TWalkRange r lo hi cs f =>
        xs = [] /\
        ((s_bad qcmp lo hi /\ o = Panic /\ same S S' /\ w' = w) \/
         (~ s_bad qcmp lo hi /\ exists a b o2 l2, S r = a ++ s_range qcmp borrow lo hi (S r) ++ b /\
            s_walk cs f (s_range qcmp borrow lo hi (S r)) w = (o2, l2, w') /\ same (upd S r (a ++ l2 ++ b)) S' /\ o = omap (fun _ => @ToDone K V) (cast o2)))
    | TExtend _ r its => xs = [] /\ exists o2 l2, s_feed its (S r) w o2 l2 w' /\ same (upd S r l2) S' /\ o = omap (fun _ => @ToDone K V) (cast o2)
    | TCollect _ r its =>
        xs = [] /\ exists o2 l2, s_feed its [] w o2 l2 w' /\ o = omap (fun _ => @ToDone K V) (cast o2) /\
          same (match o2 with Ret _ => upd S r l2 | _ => S end) S'
    end.
  (** an insertion of a new key was refused memory: nothing is claimed from then on (C24) *)
  Definition tgave_up (c : top K V Q W) (S : state) (o : result) : Prop :=
    match c with
    | TPlain _ c => exists o', o = omap (@ToPlain K V) o' /\ gave_up c S o'
    | TEntry _ r k acts (EOrInsert _ _ | EPut _ _) => exists e, o = Err e /\ no_memory e /\ s_get (cmp k) (S r) = None /\ 11 <= length (S r)
    | TExtend _ r its => o = Panic /\ (exists e, no_memory e) /\ 12 <= length (S r) + length its
    | _ => False
    end.
  (** collect() was refused memory for a node other than the first: the map it was building, which is damaged, is dropped at once *)
  Definition tlost (c : top K V Q W) (o : result) : Prop :=
    match c with
    | TCollect _ r its => o = UB /\ (exists e, no_memory e) /\ 12 <= length its
    | _ => False
    end.

  (** a run from the lists [S] and the world [w]; after each step the memory is that of the lists *)
  Inductive tt_ok : state -> W -> list (top K V Q W) -> list (list (eobs K V) * result * hregs * heap K V * W) -> Prop :=
  | U_end S w : tt_ok S w [] []
  | U_step S w c l xs o s' hp' S' w' rest :
      tspec c S w xs o S' w' -> memory cmp s' hp' S' -> o <> Abort -> o <> UB ->
      tt_ok S' w' l rest -> tt_ok S w (c :: l) ((xs, o, s', hp', w') :: rest)
  | U_dead S w c l xs o s' hp' S' w' :   (* only through user code *)
      tspec c S w xs o S' w' -> o = Abort \/ o = UB -> tt_ok S w (c :: l) [(xs, o, s', hp', w')]
  | U_gave_up S w c l xs o s' hp' w' rest :
      tgave_up c S o -> torn_memory s' hp' -> tt_ok S w (c :: l) ((xs, o, s', hp', w') :: rest)
  | U_lost S w c l xs o s' hp' w' rest : tlost c o -> tt_ok S w (c :: l) ((xs, o, s', hp', w') :: rest).
End Spec.
