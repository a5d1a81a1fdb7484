(** * HeapModel: src/btree/{node,search,map}.rs on raw memory (layer 2).

    Nodes are cells of a heap.  A cell has the header of node.rs (parent
    pointer, parent_idx, len) and the arrays of slots, each of which may be
    uninitialised.  Every function below is the code of node.rs or map.rs,
    statement by statement, on that heap.  [None] is undefined behaviour (a
    dead or static node written, a slot out of bounds or uninitialised read, a
    node freed with the wrong layout, ...) or a failed debug assertion, so a
    theorem that the result is not [None] covers both.
    Not modelled here: the borrow type and lifetime markers (PhantomData), the
    u16 width of len and parent_idx (both are at most 12), drop of elements
    (the elements that are moved out are results). *)
From Coq Require Import List Arith Lia Bool.
From Verif Require Import Base BTreeModel.
Import ListNotations.
Set Implicit Arguments.

Definition loc := nat.

(** ** Arrays of MaybeUninit slots *)
Section Arrays.
  Variable A : Type.
  Definition slots := list (option A).

  (** ptr::copy / ptr::copy_nonoverlapping of [n] slots (untyped: they may be
      uninitialised); both ranges must be inside their arrays *)
  Definition arr_copy (src : slots) (so : nat) (dst : slots) (d n : nat) : option slots :=
    if (so + n <=? length src) && (d + n <=? length dst)
    then Some (firstn d dst ++ firstn n (skipn so src) ++ skipn (d + n) dst)
    else None.
  (** ptr::write, MaybeUninit::write *)
  Definition arr_write (a : slots) (i : nat) (x : A) : option slots :=
    if i <? length a then Some (firstn i a ++ Some x :: skipn (S i) a) else None.
  (** ptr::read of a value that must be initialised *)
  Definition arr_read (a : slots) (i : nat) : option A :=
    match nth_error a i with Some (Some x) => Some x | _ => None end.
  (** slice::from_raw_parts(_mut) over the first [n] slots, all of which must
      be initialised: the values *)
  Fixpoint arr_init (a : slots) (n : nat) : option (list A) :=
    match n, a with
    | 0, _ => Some []
    | S n', Some x :: a' => option_map (cons x) (arr_init a' n')
    | S _, _ => None
    end.
  (** node.rs 1662-1669 on the slice of the first [n] slots *)
  Definition arr_slice_insert (a : slots) (n i : nat) (x : A) : option slots :=
    if i <=? n then
      match arr_copy a i a (i + 1) (n - i) with
      | Some a1 => arr_write a1 i x
      | None => None
      end
    else None.
  (** node.rs 1671-1679 *)
  Definition arr_slice_remove (a : slots) (n i : nat) : option (A * slots) :=
    if i <? n then
      match arr_read a i, arr_copy a (i + 1) a i (n - i - 1) with
      | Some x, Some a1 => Some (x, a1)
      | _, _ => None
      end
    else None.
End Arrays.

Section Heap.
  Variables (K V : Type).
  Notation kv := (K * V)%type.

  (** node.rs 81-102 (LeafNode), 144-151 (InternalNode).  [cint]: the
      allocation is an InternalNode; a LeafNode has no edges array ([]). *)
  Record cell := Cell {
    cint : bool;
    cpar : option loc;
    cpidx : option nat;
    clen : nat;
    ckeys : slots K;
    cvals : slots V;
    cedges : slots loc
  }.

  (** node.rs 129-137: the static EMPTY_ROOT_NODE is just a header, at address 0 *)
  Definition sroot : loc := 0.
  Definition static_root : cell := Cell false None None 0 [] [] [].

  (** memory: the latest write to an address counts, [None] = not allocated *)
  Definition heap := list (loc * option cell).
  Fixpoint hfind (hp : heap) (l : loc) : option cell :=
    match hp with
    | [] => None
    | (l', c) :: hp' => if l' =? l then c else hfind hp' l
    end.
  Definition hget (hp : heap) (l : loc) : option cell :=
    if l =? sroot then Some static_root else hfind hp l.
  Definition hset (hp : heap) (l : loc) (c : option cell) : heap := (l, c) :: hp.

  (** programs on the heap *)
  Definition HM (A : Type) := heap -> option (A * heap).
  Definition hret {A} (a : A) : HM A := fun hp => Some (a, hp).
  Definition hub {A} : HM A := fun _ => None.
  Definition hbind {A B} (m : HM A) (f : A -> HM B) : HM B :=
    fun hp => match m hp with Some (a, hp') => f a hp' | None => None end.
  Notation "x <~ m ;~ k" := (hbind m (fun x => k)) (at level 80, m at level 79, right associativity).
  Notation "m ;; k" := (hbind m (fun _ => k)) (at level 80, right associativity).

  (** a (debug) assertion, or a condition whose failure is undefined *)
  Definition check (b : bool) : HM unit := if b then hret tt else hub.
  Definition of_option {A} (o : option A) : HM A := match o with Some a => hret a | None => hub end.
  Definition hread (l : loc) : HM cell :=
    fun hp => match hget hp l with Some c => Some (c, hp) | None => None end.
  (** writing to the static root or to a node that is not allocated is undefined *)
  Definition hwrite (l : loc) (c : cell) : HM unit :=
    fun hp => if l =? sroot then None
              else match hget hp l with Some _ => Some (tt, hset hp l (Some c)) | None => None end.
  (** Global.deallocate with the layout of a LeafNode or an InternalNode *)
  Definition hfree (l : loc) (int : bool) : HM unit :=
    fun hp => if l =? sroot then None
              else match hget hp l with
                   | Some c => if eqb (cint c) int then Some (tt, hset hp l None) else None
                   | None => None
                   end.

  (** the three arrays of a cell *)
  Record field (A : Type) := Field { aget : cell -> slots A; aset : cell -> slots A -> cell }.
  Definition akeys : field K :=
    Field ckeys (fun c a => Cell (cint c) (cpar c) (cpidx c) (clen c) a (cvals c) (cedges c)).
  Definition avals : field V :=
    Field cvals (fun c a => Cell (cint c) (cpar c) (cpidx c) (clen c) (ckeys c) a (cedges c)).
  Definition aedges : field loc :=
    Field cedges (fun c a => Cell (cint c) (cpar c) (cpidx c) (clen c) (ckeys c) (cvals c) a).

  Definition a_read {A} (f : field A) (l : loc) (i : nat) : HM A :=
    c <~ hread l ;~ of_option (arr_read (aget f c) i).
  Definition a_write {A} (f : field A) (l : loc) (i : nat) (x : A) : HM unit :=
    c <~ hread l ;~ a <~ of_option (arr_write (aget f c) i x) ;~ hwrite l (aset f c a).
  (** ptr::copy inside one array *)
  Definition a_move {A} (f : field A) (l : loc) (so d n : nat) : HM unit :=
    c <~ hread l ;~ a <~ of_option (arr_copy (aget f c) so (aget f c) d n) ;~ hwrite l (aset f c a).
  (** ptr::copy_nonoverlapping between two nodes (which must differ) *)
  Definition a_copy {A} (f : field A) (src : loc) (so : nat) (dst : loc) (d n : nat) : HM unit :=
    check (negb (src =? dst)) ;;
    cs <~ hread src ;~ cd <~ hread dst ;~
    a <~ of_option (arr_copy (aget f cs) so (aget f cd) d n) ;~ hwrite dst (aset f cd a).
  Definition slice {A} (f : field A) (l : loc) (n : nat) : HM (list A) :=
    c <~ hread l ;~ of_option (arr_init (aget f c) n).
  Definition slice_ins {A} (f : field A) (l : loc) (n i : nat) (x : A) : HM unit :=
    c <~ hread l ;~ a <~ of_option (arr_slice_insert (aget f c) n i x) ;~ hwrite l (aset f c a).
  Definition slice_rem {A} (f : field A) (l : loc) (n i : nat) : HM A :=
    c <~ hread l ;~ r <~ of_option (arr_slice_remove (aget f c) n i) ;~
    hwrite l (aset f c (snd r)) ;; hret (fst r).

  (** ** References to nodes (node.rs 344-350) and handles (871-875) *)
  Record nref := NR { rh : nat; rl : loc }.
  Definition hhandle := (nref * nat)%type.

  (** node.rs 380-382 *)
  Definition n_len (r : nref) : HM nat := c <~ hread (rl r) ;~ hret (clen c).
  Definition set_len (r : nref) (n : nat) : HM unit :=
    c <~ hread (rl r) ;~ hwrite (rl r) (Cell (cint c) (cpar c) (cpidx c) n (ckeys c) (cvals c) (cedges c)).
  (** [len -= k]: u16 subtraction *)
  Definition len_sub (r : nref) (k : nat) : HM unit :=
    n <~ n_len r ;~ check (k <=? n) ;; set_len r (n - k).
  Definition len_add (r : nref) (k : nat) : HM unit := n <~ n_len r ;~ set_len r (n + k).
  Definition set_parent (l : loc) (p : option loc) (i : option nat) : HM unit :=
    c <~ hread l ;~ hwrite l (Cell (cint c) p i (clen c) (ckeys c) (cvals c) (cedges c)).
  (** parent = ptr::null(): parent_idx stays *)
  Definition clear_parent (l : loc) : HM unit :=
    c <~ hread l ;~ hwrite l (Cell (cint c) None (cpidx c) (clen c) (ckeys c) (cvals c) (cedges c)).
  (** node.rs 120-124 *)
  Definition not_shared (r : nref) : HM unit := check (negb (rl r =? sroot)).

  (** node.rs 424-426, 558-596 (also 619-632): the slice of the keys.  The
      static root has length 0 and the slice is empty. *)
  Definition n_keys (r : nref) : HM (list K) := n <~ n_len r ;~ slice akeys (rl r) n.
  (** node.rs 428-430, 598-604, 634-642 *)
  Definition n_vals (r : nref) : HM (list V) := not_shared r ;; n <~ n_len r ;~ slice avals (rl r) n.

  (** node.rs 439-457 *)
  Definition ascend (r : nref) : HM (option hhandle) :=
    c <~ hread (rl r) ;~
    match cpar c with
    | Some p => i <~ of_option (cpidx c) ;~ hret (Some (NR (S (rh r)) p, i))
    | None => hret None
    end.
  (** node.rs 963-972 and 895-904, with their debug assertions *)
  Definition new_edge (r : nref) (i : nat) : HM hhandle := n <~ n_len r ;~ check (i <=? n) ;; hret (r, i).
  Definition new_kv (r : nref) (i : nat) : HM hhandle := n <~ n_len r ;~ check (i <? n) ;; hret (r, i).
  (** node.rs 906-912 *)
  Definition left_edge (h : hhandle) : HM hhandle := new_edge (fst h) (snd h).
  Definition right_edge (h : hhandle) : HM hhandle := new_edge (fst h) (snd h + 1).
  (** node.rs 459-479 *)
  Definition first_edge (r : nref) : HM hhandle := new_edge r 0.
  Definition last_edge (r : nref) : HM hhandle := n <~ n_len r ;~ new_edge r n.
  Definition first_kv (r : nref) : HM hhandle := n <~ n_len r ;~ check (0 <? n) ;; new_kv r 0.
  Definition last_kv (r : nref) : HM hhandle := n <~ n_len r ;~ check (0 <? n) ;; new_kv r (n - 1).
  (** node.rs 974-988 *)
  Definition left_kv (h : hhandle) : HM (option hhandle) :=
    if 0 <? snd h then k <~ new_kv (fst h) (snd h - 1) ;~ hret (Some k) else hret None.
  Definition right_kv (h : hhandle) : HM (option hhandle) :=
    n <~ n_len (fst h) ;~ if snd h <? n then k <~ new_kv (fst h) (snd h) ;~ hret (Some k) else hret None.

  (** node.rs 1127-1148: the node must be an InternalNode *)
  Definition h_descend (h : hhandle) : HM nref :=
    let '(r, i) := h in
    check (0 <? rh r) ;; c <~ hread (rl r) ;~ check (cint c) ;;
    e <~ a_read aedges (rl r) i ;~ hret (NR (rh r - 1) e).

  (** node.rs 1046-1054 *)
  Definition correct_parent_link (h : hhandle) : HM unit :=
    child <~ h_descend h ;~ set_parent (rl child) (Some (rl (fst h))) (Some (snd h)).
  (** node.rs 722-726: for i in first..first + n *)
  Fixpoint correct_links (r : nref) (first n : nat) : HM unit :=
    match n with
    | 0 => hret tt
    | S n' => h <~ new_edge r first ;~ correct_parent_link h ;; correct_links r (S first) n'
    end.
  (** node.rs 728-731 *)
  Definition correct_all_links (r : nref) : HM unit := n <~ n_len r ;~ correct_links r 0 (n + 1).

  (** node.rs 665-678 *)
  Definition leaf_push (r : nref) (x : kv) : HM unit :=
    n <~ n_len r ;~ check (n <? CAPACITY) ;; not_shared r ;;
    n_keys r ;; a_write akeys (rl r) n (fst x) ;;
    n_vals r ;; a_write avals (rl r) n (snd x) ;;
    len_add r 1.
  (** node.rs 681-692 *)
  Definition leaf_push_front (r : nref) (x : kv) : HM unit :=
    n <~ n_len r ;~ check (n <? CAPACITY) ;; not_shared r ;;
    n_keys r ;; slice_ins akeys (rl r) n 0 (fst x) ;;
    n_vals r ;; slice_ins avals (rl r) n 0 (snd x) ;;
    len_add r 1.
  (** node.rs 698-720 *)
  Definition internal_push (r : nref) (x : kv) (edge : nref) : HM unit :=
    check (rh r =? S (rh edge)) ;;
    n <~ n_len r ;~ check (n <? CAPACITY) ;;
    n_keys r ;; a_write akeys (rl r) n (fst x) ;;
    n_vals r ;; a_write avals (rl r) n (snd x) ;;
    a_write aedges (rl r) (n + 1) (rl edge) ;;
    len_add r 1 ;;
    h <~ new_edge r (n + 1) ;~ correct_parent_link h.
  (** node.rs 735-757 *)
  Definition internal_push_front (r : nref) (x : kv) (edge : nref) : HM unit :=
    check (rh r =? S (rh edge)) ;;
    n <~ n_len r ;~ check (n <? CAPACITY) ;;
    n_keys r ;; slice_ins akeys (rl r) n 0 (fst x) ;;
    n_vals r ;; slice_ins avals (rl r) n 0 (snd x) ;;
    slice aedges (rl r) (n + 1) ;; slice_ins aedges (rl r) (n + 1) 0 (rl edge) ;;
    len_add r 1 ;;
    correct_all_links r.

  (** node.rs 762-787 *)
  Definition h_pop (r : nref) : HM (kv * option nref) :=
    n <~ n_len r ;~ check (0 <? n) ;;
    n_keys r ;; k <~ a_read akeys (rl r) (n - 1) ;~
    n_vals r ;; v <~ a_read avals (rl r) (n - 1) ;~
    e <~ (match rh r with
          | 0 => hret None
          | S h' => e <~ a_read aedges (rl r) n ;~ clear_parent e ;; hret (Some (NR h' e))
          end) ;~
    len_sub r 1 ;; hret ((k, v), e).
  (** node.rs 792-830 *)
  Definition h_pop_front (r : nref) : HM (kv * option nref) :=
    n <~ n_len r ;~ check (0 <? n) ;;
    n_keys r ;; k <~ slice_rem akeys (rl r) n 0 ;~
    n_vals r ;; v <~ slice_rem avals (rl r) n 0 ;~
    e <~ (match rh r with
          | 0 => hret None
          | S h' =>
              slice aedges (rl r) (n + 1) ;;
              e <~ slice_rem aedges (rl r) (n + 1) 0 ;~ clear_parent e ;;
              correct_links r 0 n ;; hret (Some (NR h' e))
          end) ;~
    len_sub r 1 ;; hret ((k, v), e).

  (** node.rs 997-1010: result, where the value is *)
  Definition h_leaf_insert_fit (r : nref) (i : nat) (x : kv) : HM (loc * nat) :=
    n <~ n_len r ;~ check (n <? CAPACITY) ;; not_shared r ;;
    n_keys r ;; slice_ins akeys (rl r) n i (fst x) ;;
    n_vals r ;; slice_ins avals (rl r) n i (snd x) ;;
    len_add r 1 ;;
    n_vals r ;; hret (rl r, i).
  (** node.rs 1067-1089 *)
  Definition h_internal_insert_fit (r : nref) (i : nat) (x : kv) (edge : nref) : HM unit :=
    n <~ n_len r ;~ check (n <? CAPACITY) ;; check (rh r =? S (rh edge)) ;;
    new_edge r i ;;                                    (* cast_unchecked, 1058-1062 *)
    h_leaf_insert_fit r i x ;;
    m <~ n_len r ;~
    slice aedges (rl r) m ;; slice_ins aedges (rl r) m (i + 1) (rl edge) ;;
    correct_links r (i + 1) (m + 1 - (i + 1)).

  (** node.rs 1189-1233, 1262-1311: split, after the allocation of [new] *)
  Definition split_into (r : nref) (i : nat) (new : loc) (int : bool) : HM kv :=
    (if int then hret tt else not_shared r) ;;
    n <~ n_len r ;~ check (i <? n) ;;
    n_keys r ;; k <~ a_read akeys (rl r) i ;~
    n_vals r ;; v <~ a_read avals (rl r) i ;~
    let new_len := n - i - 1 in
    n_keys r ;; a_copy akeys (rl r) (i + 1) new 0 new_len ;;
    n_vals r ;; a_copy avals (rl r) (i + 1) new 0 new_len ;;
    (if int then a_copy aedges (rl r) (i + 1) new 0 (new_len + 1) else hret tt) ;;
    set_len r i ;; set_len (NR (rh r) new) new_len ;;
    (if int then correct_links (NR (rh r) new) 0 (new_len + 1) else hret tt) ;;
    hret (k, v).

  (** node.rs 1237-1251: the node it leaves, and the pair *)
  Definition h_leaf_remove (h : hhandle) : HM (hhandle * kv) :=
    let '(r, i) := h in
    not_shared r ;;
    n <~ n_len r ;~
    n_keys r ;; k <~ slice_rem akeys (rl r) n i ;~
    n_vals r ;; v <~ slice_rem avals (rl r) n i ;~
    len_sub r 1 ;; e <~ left_edge (r, i) ;~ hret (e, (k, v)).

  (** node.rs 1317-1322 *)
  Definition h_can_merge (h : hhandle) : HM bool :=
    le <~ left_edge h ;~ l <~ h_descend le ;~ nl <~ n_len l ;~
    re <~ right_edge h ;~ r <~ h_descend re ;~ nr <~ n_len r ;~
    hret (nl + nr + 1 <=? CAPACITY).

  (** node.rs 1329-1394 *)
  Definition h_merge (h : hhandle) : HM hhandle :=
    let '(p, i) := h in
    le <~ left_edge h ;~ left <~ h_descend le ;~ left_len <~ n_len left ;~
    re <~ right_edge h ;~ right <~ h_descend re ;~ right_len <~ n_len right ;~
    check (left_len + right_len + 1 <=? CAPACITY) ;;
    n <~ n_len p ;~
    n_keys left ;; n_keys p ;; k <~ slice_rem akeys (rl p) n i ;~ a_write akeys (rl left) left_len k ;;
    n_keys right ;; n_keys left ;; a_copy akeys (rl right) 0 (rl left) (left_len + 1) right_len ;;
    n_vals left ;; n_vals p ;; v <~ slice_rem avals (rl p) n i ;~ a_write avals (rl left) left_len v ;;
    n_vals right ;; n_vals left ;; a_copy avals (rl right) 0 (rl left) (left_len + 1) right_len ;;
    slice_rem aedges (rl p) (2 * B_) (i + 1) ;;        (* the whole array of MaybeUninit edges *)
    correct_links p (i + 1) (n - (i + 1)) ;;
    len_sub p 1 ;;
    len_add left (right_len + 1) ;;
    (if 1 <? rh p then
       a_copy aedges (rl right) 0 (rl left) (left_len + 1) (right_len + 1) ;;
       correct_links left (left_len + 1) (right_len + 1) ;;
       hfree (rl right) true
     else hfree (rl right) false) ;;
    new_edge p i.

  (** node.rs 1158-1179: mem::replace of the key and the value at a KV handle *)
  Definition replace_kv (h : hhandle) (x : kv) : HM kv :=
    let '(r, i) := h in
    not_shared r ;; n_keys r ;; n_vals r ;;
    k <~ a_read akeys (rl r) i ;~ a_write akeys (rl r) i (fst x) ;;
    n_keys r ;; n_vals r ;;
    v <~ a_read avals (rl r) i ;~ a_write avals (rl r) i (snd x) ;;
    hret (k, v).

  (** node.rs 1399-1411; [edge.unwrap()] *)
  Definition h_steal_left (h : hhandle) : HM unit :=
    le <~ left_edge h ;~ left <~ h_descend le ;~ r <~ h_pop left ;~
    x <~ replace_kv h (fst r) ;~
    re <~ right_edge h ;~ right <~ h_descend re ;~
    match rh right with
    | 0 => leaf_push_front right x
    | S _ => e <~ of_option (snd r) ;~ internal_push_front right x e
    end.
  (** node.rs 1416-1428 *)
  Definition h_steal_right (h : hhandle) : HM unit :=
    re <~ right_edge h ;~ right <~ h_descend re ;~ r <~ h_pop_front right ;~
    x <~ replace_kv h (fst r) ;~
    le <~ left_edge h ;~ left <~ h_descend le ;~
    match rh left with
    | 0 => leaf_push left x
    | S _ => e <~ of_option (snd r) ;~ internal_push left x e
    end.

  (** node.rs 1545-1554 *)
  Definition move_kv (src : loc) (so : nat) (dst : loc) (d n : nat) : HM unit :=
    a_copy akeys src so dst d n ;; a_copy avals src so dst d n.
  (** node.rs 1557-1572 *)
  Definition move_edges (src : nref) (so : nat) (dst : nref) (d n : nat) : HM unit :=
    a_copy aedges (rl src) so (rl dst) d n ;; correct_links dst d n.

  (** node.rs 832-834 (into_kv_pointers_mut): just the checks of keys_mut, vals_mut *)
  Definition kv_pointers (r : nref) : HM unit := n_keys r ;; n_vals r ;; hret tt.

  (** node.rs 1431-1485.  The pointers to the pair in the parent are the slots
      [i] of its arrays. *)
  Definition h_bulk_steal_left (h : hhandle) (count : nat) : HM unit :=
    let '(p, i) := h in
    le <~ left_edge h ;~ left <~ h_descend le ;~ left_len <~ n_len left ;~
    re <~ right_edge h ;~ right <~ h_descend re ;~ right_len <~ n_len right ;~
    check (right_len + count <=? CAPACITY) ;; check (count <=? left_len) ;;
    let new_left_len := left_len - count in
    kv_pointers left ;; kv_pointers right ;; kv_pointers p ;;
    a_move akeys (rl right) 0 count right_len ;;
    a_move avals (rl right) 0 count right_len ;;
    check (1 <=? count) ;;                              (* count - 1: usize *)
    move_kv (rl left) (new_left_len + 1) (rl right) 0 (count - 1) ;;
    move_kv (rl p) i (rl right) (count - 1) 1 ;;
    move_kv (rl left) new_left_len (rl p) i 1 ;;
    len_sub left count ;; len_add right count ;;
    match rh left, rh right with
    | S _, S _ =>
        a_move aedges (rl right) 0 count (right_len + 1) ;;
        correct_links right count (right_len + 1) ;;
        move_edges left (new_left_len + 1) right 0 count
    | 0, 0 => hret tt
    | _, _ => hub
    end.
  (** node.rs 1488-1542 *)
  Definition h_bulk_steal_right (h : hhandle) (count : nat) : HM unit :=
    let '(p, i) := h in
    le <~ left_edge h ;~ left <~ h_descend le ;~ left_len <~ n_len left ;~
    re <~ right_edge h ;~ right <~ h_descend re ;~ right_len <~ n_len right ;~
    check (left_len + count <=? CAPACITY) ;; check (count <=? right_len) ;;
    let new_right_len := right_len - count in
    kv_pointers left ;; kv_pointers right ;; kv_pointers p ;;
    move_kv (rl p) i (rl left) left_len 1 ;;
    check (1 <=? count) ;;
    move_kv (rl right) 0 (rl left) (left_len + 1) (count - 1) ;;
    move_kv (rl right) (count - 1) (rl p) i 1 ;;
    a_move akeys (rl right) count 0 new_right_len ;;
    a_move avals (rl right) count 0 new_right_len ;;
    len_add left count ;; len_sub right count ;;
    match rh left, rh right with
    | S _, S _ =>
        move_edges right 0 left (left_len + 1) count ;;
        a_move aedges (rl right) count 0 (new_right_len + 1) ;;
        correct_links right 0 (new_right_len + 1)
    | 0, 0 => hret tt
    | _, _ => hub
    end.

  (** node.rs 1602-1633: move_suffix at edge [i] of [left] into [right] *)
  Definition h_move_suffix (left : nref) (i : nat) (right : nref) : HM unit :=
    n <~ n_len left ;~ check (i <=? n) ;;
    let right_new_len := n - i in
    rn <~ n_len right ;~ check (rn =? 0) ;; check (rh left =? rh right) ;;
    kv_pointers left ;; kv_pointers right ;;
    move_kv (rl left) i (rl right) 0 right_new_len ;;
    set_len left i ;; set_len right right_new_len ;;
    match rh left, rh right with
    | S _, S _ => move_edges left (i + 1) right 1 right_new_len
    | 0, 0 => hret tt
    | _, _ => hub
    end.

  (** node.rs 294-319: the new root *)
  Definition h_pop_level (root : nref) : HM nref :=
    check (0 <? rh root) ;;
    e <~ first_edge root ;~ child <~ h_descend e ;~
    clear_parent (rl child) ;;
    hfree (rl root) true ;;
    hret (NR (rh root - 1) (rl child)).

  (** node.rs 481-508: [int] is the static type of the reference *)
  Definition deallocate_and_ascend (r : nref) (int : bool) : HM (option hhandle) :=
    (if int then hret tt else not_shared r) ;;
    p <~ ascend r ;~ hfree (rl r) int ;; hret p.

  (** ** search.rs *)
  Inductive hsearch := HFound (h : hhandle) | HGoDown (h : hhandle).
  (** search.rs 50-66 on the slice of keys *)
  Fixpoint key_linear (q : K -> comparison) (l : list K) : nat * bool :=
    match l with
    | [] => (0, false)
    | k :: l' =>
        match q k with
        | Gt => let '(i, b) := key_linear q l' in (S i, b)
        | Eq => (0, true)
        | Lt => (0, false)
        end
    end.
  Definition h_search_linear (q : K -> comparison) (r : nref) : HM (nat * bool) :=
    ks <~ n_keys r ;~ hret (key_linear q ks).
  (** search.rs 14-48; [fuel]: one more than the height *)
  Fixpoint h_search_tree (fuel : nat) (q : K -> comparison) (r : nref) : HM hsearch :=
    match fuel with
    | 0 => hub
    | S fuel' =>
        s <~ h_search_linear q r ;~
        if snd s then h <~ new_kv r (fst s) ;~ hret (HFound h)
        else e <~ new_edge r (fst s) ;~
             match rh r with
             | 0 => hret (HGoDown e)
             | S _ => c <~ h_descend e ;~ h_search_tree fuel' q c
             end
    end.

  (** map.rs 1872-1896; [fuel] as above *)
  Fixpoint h_first_leaf_edge (fuel : nat) (r : nref) : HM hhandle :=
    match fuel with
    | 0 => hub
    | S fuel' =>
        match rh r with
        | 0 => first_edge r
        | S _ => e <~ first_edge r ;~ c <~ h_descend e ;~ h_first_leaf_edge fuel' c
        end
    end.
  Fixpoint h_last_leaf_edge (fuel : nat) (r : nref) : HM hhandle :=
    match fuel with
    | 0 => hub
    | S fuel' =>
        match rh r with
        | 0 => last_edge r
        | S _ => e <~ last_edge r ;~ c <~ h_descend e ;~ h_last_leaf_edge fuel' c
        end
    end.

  (** node.rs 1151-1154 *)
  Definition h_into_kv (h : hhandle) : HM kv :=
    let '(r, i) := h in
    n_keys r ;; n_vals r ;; k <~ a_read akeys (rl r) i ;~ v <~ a_read avals (rl r) i ;~ hret (k, v).

  (** ** The map: its root pointer, height and length (map.rs 124-127, node.rs 204-207) *)
  Record hmap := HMap { mroot : nref; mlen : nat }.
  (** map.rs 586-591 *)
  Definition h_new : hmap := HMap (NR 0 sroot) 0.

  (** map.rs 657-666 (get, contains_key and Index project it) *)
  Definition h_get_key_value (q : K -> comparison) (m : hmap) : HM (option kv) :=
    s <~ h_search_tree (S (rh (mroot m))) q (mroot m) ;~
    match s with
    | HFound h => x <~ h_into_kv h ;~ hret (Some x)
    | HGoDown _ => hret None
    end.

  (** ** Removal (map.rs 2631-2660) *)
  Inductive hunder := HAtRoot | HEmptyParent | HMerged (p : nref) | HStole (p : nref).
  Definition h_handle_underfull (r : nref) : HM hunder :=
    a <~ ascend r ;~
    match a with
    | None => hret HAtRoot
    | Some parent =>
        lk <~ left_kv parent ;~
        c <~ (match lk with
              | Some h => hret (Some (true, h))
              | None => rk <~ right_kv parent ;~
                        hret (match rk with Some h => Some (false, h) | None => None end)
              end) ;~
        match c with
        | None => hret HEmptyParent
        | Some (is_left, h) =>
            b <~ h_can_merge h ;~
            if (b : bool) then e <~ h_merge h ;~ hret (HMerged (fst e))
            else (if (is_left : bool) then h_steal_left h else h_steal_right h) ;; hret (HStole (fst h))
        end
    end.

  (** map.rs 2602-2618; [unreachable!()] is [hub]; result: the root.
      [fuel]: one more than the number of levels above *)
  Fixpoint h_fix_underflow (fuel : nat) (root : nref) (cur : nref) : HM nref :=
    match fuel with
    | 0 => hub
    | S fuel' =>
        n <~ n_len cur ;~
        if n <? CAPACITY / 2 then
          u <~ h_handle_underfull cur ;~
          match u with
          | HAtRoot => hret root
          | HEmptyParent => hub
          | HMerged p => pn <~ n_len p ;~
                         if pn =? 0 then h_pop_level root else h_fix_underflow fuel' root p
          | HStole _ => hret root
          end
        else hret root
    end.

  (** map.rs 2575-2599, then the loop; result: the pair and the new root *)
  Definition h_remove_kv (root : nref) (h : hhandle) : HM (kv * nref) :=
    r <~ (match rh (fst h) with
          | 0 => x <~ h_leaf_remove h ;~ hret (fst (fst x), snd x)
          | S _ =>
              not_shared (fst h) ;; n_keys (fst h) ;; n_vals (fst h) ;;
              e <~ right_edge h ;~ c <~ h_descend e ;~
              le <~ h_first_leaf_edge (S (rh c)) c ;~
              k <~ right_kv le ;~ to_remove <~ of_option k ;~
              x <~ h_leaf_remove to_remove ;~
              ok <~ a_read akeys (rl (fst h)) (snd h) ;~ a_write akeys (rl (fst h)) (snd h) (fst (snd x)) ;;
              ov <~ a_read avals (rl (fst h)) (snd h) ;~ a_write avals (rl (fst h)) (snd h) (snd (snd x)) ;;
              hret (fst (fst x), (ok, ov))
          end) ;~
    root' <~ h_fix_underflow (S (rh root)) root (fst r) ;~
    hret (snd r, root').

  (** map.rs 2449-2451, 2571-2621: OccupiedEntry::remove_entry *)
  Definition h_remove_entry_at (m : hmap) (h : hhandle) : HM (kv * hmap) :=
    r <~ h_remove_kv (mroot m) h ;~ hret (fst r, HMap (snd r) (mlen m - 1)).
  (** map.rs 783-799 (remove), 313-326 (take) *)
  Definition h_remove_entry (q : K -> comparison) (m : hmap) : HM (option kv * hmap) :=
    s <~ h_search_tree (S (rh (mroot m))) q (mroot m) ;~
    match s with
    | HFound h => r <~ h_remove_entry_at m h ;~ hret (Some (fst r), snd r)
    | HGoDown _ => hret (None, m)
    end.

  (** ** Allocation *)
  Section Alloc.
    Variable W : Type.
    (** whether Box::try_new of a node (true: internal) succeeds (C11) ... *)
    Variable nalloc : bool -> W -> option reserve_error * W.
    (** ... and where the node is put *)
    Variable place : heap -> W -> loc.

    (** programs that can fail: the heap and the world persist *)
    Definition AM (A : Type) := heap -> W -> outcome reserve_error A * heap * W.
    Definition lift {A} (m : HM A) : AM A :=
      fun hp w => match m hp with Some (a, hp') => (Ret a, hp', w) | None => (UB, hp, w) end.
    Definition abind {A C} (m : AM A) (f : A -> AM C) : AM C :=
      fun hp w => match m hp w with
                  | (Ret a, hp', w') => f a hp' w'
                  | (Err e, hp', w') => (Err e, hp', w')
                  | (Panic, hp', w') => (Panic, hp', w')
                  | (Abort, hp', w') => (Abort, hp', w')
                  | (UB, hp', w') => (UB, hp', w')
                  end.
    Definition aret {A} (a : A) : AM A := fun hp w => (Ret a, hp, w).

    (** node.rs 105-117, 153-167: a fresh node, everything uninitialised *)
    Definition fresh_cell (int : bool) : cell :=
      Cell int None None 0 (repeat None CAPACITY) (repeat None CAPACITY)
        (if int then repeat None (2 * B_) else []).
    Definition new_box (int : bool) : AM loc :=
      fun hp w => match nalloc int w with
                  | (None, w') => (Ret (place hp w'), hset hp (place hp w') (Some (fresh_cell int)), w')
                  | (Some e, w') => (Err e, hp, w')
                  end.

    (** node.rs 228-235 *)
    Definition h_new_leaf : AM nref := abind (new_box false) (fun l => aret (NR 0 l)).
    (** node.rs 266-288: the new root *)
    Definition h_push_level (root : nref) : AM nref :=
      abind (lift (not_shared root)) (fun _ =>
      abind (new_box true) (fun l =>
      lift (a_write aedges l 0 (rl root) ;;
            let r := NR (S (rh root)) l in
            e <~ first_edge r ;~ correct_parent_link e ;; hret r))).

    Inductive hins := HFit (h : hhandle) | HSplit (l : nref) (x : kv) (r : nref).

    (** node.rs 1016-1040 *)
    Definition h_leaf_insert (h : hhandle) (x : kv) : AM (hins * (loc * nat)) :=
      let '(r, i) := h in
      abind (lift (n_len r)) (fun n =>
      if n <? CAPACITY then
        lift (p <~ h_leaf_insert_fit r i x ;~ k <~ new_kv r i ;~ hret (HFit k, p))
      else
        abind (lift (new_kv r B_ ;; not_shared r)) (fun _ =>
        abind (new_box false) (fun new =>
        lift (y <~ split_into r B_ new false ;~
              p <~ (if i <=? B_ then new_edge r i ;; h_leaf_insert_fit r i x
                    else new_edge (NR (rh r) new) (i - (B_ + 1)) ;;
                         h_leaf_insert_fit (NR (rh r) new) (i - (B_ + 1)) x) ;~
              hret (HSplit r y (NR 0 new), p))))).

    (** node.rs 1094-1124 *)
    Definition h_internal_insert (h : hhandle) (x : kv) (edge : nref) : AM hins :=
      let '(r, i) := h in
      abind (lift (check (rh r =? S (rh edge)))) (fun _ =>
      abind (lift (n_len r)) (fun n =>
      if n <? CAPACITY then
        lift (h_internal_insert_fit r i x edge ;; k <~ new_kv r i ;~ hret (HFit k))
      else
        abind (lift (new_kv r B_)) (fun _ =>
        abind (new_box true) (fun new =>
        lift (y <~ split_into r B_ new true ;~
              (if i <=? B_ then new_edge r i ;; h_internal_insert_fit r i x edge
               else new_edge (NR (rh r) new) (i - (B_ + 1)) ;;
                    h_internal_insert_fit (NR (rh r) new) (i - (B_ + 1)) x edge) ;;
              hret (HSplit r y (NR (rh r) new))))))).

    (** map.rs 2390-2406: the loop; the result is the root afterwards.
        [fuel]: one more than the number of levels above [l] *)
    Fixpoint h_insert_up (fuel : nat) (root : nref) (l : nref) (x : kv) (r : nref)
        (hp : heap) (w : W) : outcome reserve_error unit * nref * heap * W :=
      match fuel with
      | 0 => (UB, root, hp, w)
      | S fuel' =>
          match lift (ascend l) hp w with
          | (Ret (Some parent), hp1, w1) =>
              match h_internal_insert parent x r hp1 w1 with
              | (Ret (HFit _), hp2, w2) => (Ret tt, root, hp2, w2)
              | (Ret (HSplit l' y r'), hp2, w2) => h_insert_up fuel' root l' y r' hp2 w2
              | (Err e, hp2, w2) => (Err e, root, hp2, w2)
              | (Panic, hp2, w2) => (Panic, root, hp2, w2)
              | (Abort, hp2, w2) => (Abort, root, hp2, w2)
              | (UB, hp2, w2) => (UB, root, hp2, w2)
              end
          | (Ret None, hp1, w1) =>
              match h_push_level root hp1 w1 with
              | (Ret root', hp2, w2) =>
                  match internal_push root' x r hp2 with
                  | Some (_, hp3) => (Ret tt, root', hp3, w2)
                  | None => (UB, root', hp2, w2)
                  end
              | (Err e, hp2, w2) => (Err e, root, hp2, w2)
              | (Panic, hp2, w2) => (Panic, root, hp2, w2)
              | (Abort, hp2, w2) => (Abort, root, hp2, w2)
              | (UB, hp2, w2) => (UB, root, hp2, w2)
              end
          | (Err e, hp1, w1) => (Err e, root, hp1, w1)
          | (Panic, hp1, w1) => (Panic, root, hp1, w1)
          | (Abort, hp1, w1) => (Abort, root, hp1, w1)
          | (UB, hp1, w1) => (UB, root, hp1, w1)
          end
      end.

    (** map.rs 2370-2407: VacantEntry::try_insert at the edge [h]; result: where
        the value is (a raw pointer into a node) *)
    Definition h_vacant_insert (m : hmap) (h : hhandle) (x : kv) (hp : heap) (w : W)
      : outcome reserve_error (loc * nat) * hmap * heap * W :=
      let m1 := HMap (mroot m) (mlen m + 1) in
      match h_leaf_insert h x hp w with
      | (Ret (HFit (r, i), _), hp1, w1) => (Ret (rl r, i), m1, hp1, w1)
      | (Ret (HSplit l y r, p), hp1, w1) =>
          let '(o, root', hp2, w2) := h_insert_up (S (rh (mroot m))) (mroot m) l y r hp1 w1 in
          (match o with Ret _ => Ret p | Err e => Err e | Panic => Panic | Abort => Abort | UB => UB end,
           HMap root' (mlen m + 1), hp2, w2)
      | (Err e, hp1, w1) => (Err e, m1, hp1, w1)
      | (Panic, hp1, w1) => (Panic, m1, hp1, w1)
      | (Abort, hp1, w1) => (Abort, m1, hp1, w1)
      | (UB, hp1, w1) => (UB, m1, hp1, w1)
      end.

    (** map.rs 1236-1241 *)
    Definition h_ensure_root_is_owned (m : hmap) (hp : heap) (w : W)
      : outcome reserve_error unit * hmap * heap * W :=
      if rl (mroot m) =? sroot then
        match h_new_leaf hp w with
        | (Ret r, hp1, w1) => (Ret tt, HMap r (mlen m), hp1, w1)
        | (Err e, hp1, w1) => (Err e, m, hp1, w1)
        | (Panic, hp1, w1) => (Panic, m, hp1, w1)
        | (Abort, hp1, w1) => (Abort, m, hp1, w1)
        | (UB, hp1, w1) => (UB, m, hp1, w1)
        end
      else (Ret tt, m, hp, w).

  End Alloc.

  (** ** Iteration by reference (map.rs 1601-1629 Range, 1701-1733 RangeMut):
      the pair, where it is, and the new leaf edge.  [unwrap_unchecked(None)]
      and an exhausted [fuel] are [hub]. *)
  Fixpoint h_climb_right (fuel : nat) (r : nref) : HM (kv * (loc * nat) * hhandle) :=
    match fuel with
    | 0 => hub
    | S fuel' =>
        a <~ ascend r ;~ e <~ of_option a ;~
        k <~ right_kv e ;~
        match k with
        | Some h => x <~ h_into_kv h ;~ re <~ right_edge h ;~ c <~ h_descend re ;~
                    f <~ h_first_leaf_edge (S (rh c)) c ;~ hret (x, (rl (fst h), snd h), f)
        | None => h_climb_right fuel' (fst e)
        end
    end.
  Definition h_next_unchecked (fuel : nat) (front : hhandle) : HM (kv * (loc * nat) * hhandle) :=
    k <~ right_kv front ;~
    match k with
    | Some h => x <~ h_into_kv h ;~ re <~ right_edge h ;~ hret (x, (rl (fst h), snd h), re)
    | None => h_climb_right fuel (fst front)
    end.
  (** map.rs 1644-1672, 1750-1782 *)
  Fixpoint h_climb_left (fuel : nat) (r : nref) : HM (kv * (loc * nat) * hhandle) :=
    match fuel with
    | 0 => hub
    | S fuel' =>
        a <~ ascend r ;~ e <~ of_option a ;~
        k <~ left_kv e ;~
        match k with
        | Some h => x <~ h_into_kv h ;~ le <~ left_edge h ;~ c <~ h_descend le ;~
                    f <~ h_last_leaf_edge (S (rh c)) c ;~ hret (x, (rl (fst h), snd h), f)
        | None => h_climb_left fuel' (fst e)
        end
    end.
  Definition h_next_back_unchecked (fuel : nat) (back : hhandle) : HM (kv * (loc * nat) * hhandle) :=
    k <~ left_kv back ;~
    match k with
    | Some h => x <~ h_into_kv h ;~ le <~ left_edge h ;~ hret (x, (rl (fst h), snd h), le)
    | None => h_climb_left fuel (fst back)
    end.

  (** ** IntoIter (map.rs 387-391) *)
  Record hinto := HInto { hfront : hhandle; hback : hhandle; hleft : nat }.
  (** map.rs 1354-1365 *)
  Definition h_into_iter (m : hmap) : HM hinto :=
    f <~ h_first_leaf_edge (S (rh (mroot m))) (mroot m) ;~
    b <~ h_last_leaf_edge (S (rh (mroot m))) (mroot m) ;~
    hret (HInto f b (mlen m)).
  (** map.rs 1411-1423: the first ascent frees a leaf, the others internal nodes *)
  Fixpoint h_free_right (fuel : nat) (r : nref) (int : bool) : HM (kv * hhandle) :=
    match fuel with
    | 0 => hub
    | S fuel' =>
        a <~ deallocate_and_ascend r int ;~ e <~ of_option a ;~
        k <~ right_kv e ;~
        match k with
        | Some h => x <~ h_into_kv h ;~ re <~ right_edge h ;~ c <~ h_descend re ;~
                    f <~ h_first_leaf_edge (S (rh c)) c ;~ hret (x, f)
        | None => h_free_right fuel' (fst e) true
        end
    end.
  (** map.rs 1390-1424.  [fuel]: the height of the tree *)
  Definition h_into_next (fuel : nat) (it : hinto) : HM (option kv * hinto) :=
    if hleft it =? 0 then hret (None, it)
    else
      k <~ right_kv (hfront it) ;~
      match k with
      | Some h => x <~ h_into_kv h ;~ re <~ right_edge h ;~
                  hret (Some x, HInto re (hback it) (hleft it - 1))
      | None => r <~ h_free_right fuel (fst (hfront it)) false ;~
                hret (Some (fst r), HInto (snd r) (hback it) (hleft it - 1))
      end.
  (** map.rs 1433-1467 *)
  Fixpoint h_free_left (fuel : nat) (r : nref) (int : bool) : HM (kv * hhandle) :=
    match fuel with
    | 0 => hub
    | S fuel' =>
        a <~ deallocate_and_ascend r int ;~ e <~ of_option a ;~
        k <~ left_kv e ;~
        match k with
        | Some h => x <~ h_into_kv h ;~ le <~ left_edge h ;~ c <~ h_descend le ;~
                    f <~ h_last_leaf_edge (S (rh c)) c ;~ hret (x, f)
        | None => h_free_left fuel' (fst e) true
        end
    end.
  Definition h_into_next_back (fuel : nat) (it : hinto) : HM (option kv * hinto) :=
    if hleft it =? 0 then hret (None, it)
    else
      k <~ left_kv (hback it) ;~
      match k with
      | Some h => x <~ h_into_kv h ;~ le <~ left_edge h ;~
                  hret (Some x, HInto (hfront it) le (hleft it - 1))
      | None => r <~ h_free_left fuel (fst (hback it)) false ;~
                hret (Some (fst r), HInto (hfront it) (snd r) (hleft it - 1))
      end.

  (** [self.for_each(drop)], with the remaining length as bound *)
  Fixpoint h_drain (fuel n : nat) (it : hinto) : HM (list kv * hinto) :=
    r <~ h_into_next fuel it ;~
    match fst r with
    | None => hret ([], snd r)
    | Some x =>
        match n with
        | 0 => hub
        | S n' => s <~ h_drain fuel n' (snd r) ;~ hret (x :: fst s, snd s)
        end
    end.
  (** map.rs 1377-1382 *)
  Fixpoint h_free_spine (fuel : nat) (r : nref) (int : bool) : HM unit :=
    match fuel with
    | 0 => hub
    | S fuel' =>
        a <~ deallocate_and_ascend r int ;~
        match a with
        | Some e => h_free_spine fuel' (fst e) true
        | None => hret tt
        end
    end.
  (** map.rs 1368-1385; [fuel]: the height of the tree *)
  Definition h_drop_into_iter (fuel : nat) (it : hinto) : HM (list kv) :=
    r <~ h_drain fuel (hleft it) it ;~
    let leaf := fst (hfront (snd r)) in
    if rl leaf =? sroot then hret (fst r)
    else h_free_spine (S fuel) leaf false ;; hret (fst r).
  (** map.rs 129-135 *)
  Definition h_drop (m : hmap) : HM (list kv) :=
    it <~ h_into_iter m ;~ h_drop_into_iter (rh (mroot m)) it.
End Heap.
