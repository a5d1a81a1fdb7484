(** * LayoutModel: where the keys of a node are (node.rs 40-167, 557-632).
    repr(C) layouts with the algorithm of the Rust reference; sizes and
    alignments in bytes. *)
From Coq Require Import List Arith Lia Bool.
From Verif Require Import Base BTreeModel.
Import ListNotations.
Set Implicit Arguments.

(** the next multiple of [a] *)
Definition round_up (x a : nat) : nat := (x + a - 1) / a * a.

Record field := Field { fsize : nat; falign : nat }.

(** repr(C): every field at the next offset its alignment allows; the size is
    rounded up to the alignment of the struct *)
Fixpoint offsets (fs : list field) (at_ : nat) : list nat :=
  match fs with
  | [] => []
  | f :: fs' => let o := round_up at_ (falign f) in o :: offsets fs' (o + fsize f)
  end.
Fixpoint end_of (fs : list field) (at_ : nat) : nat :=
  match fs with
  | [] => at_
  | f :: fs' => end_of fs' (round_up at_ (falign f) + fsize f)
  end.
Definition align_of (fs : list field) : nat := fold_right (fun f a => max (falign f) a) 1 fs.
Definition size_of (fs : list field) : nat := round_up (end_of fs 0) (align_of fs).
Definition offset_of (fs : list field) (i : nat) : nat := nth i (offsets fs 0) 0.

Section Layout.
  (** size (= alignment) of a pointer; size and alignment of K and V *)
  Variables (p ksize kalign vsize valign : nat).

  (** parent, parent_idx, len *)
  Definition common : list field := [Field p p; Field 2 2; Field 2 2].
  (** node.rs 61-80: NodeHeader<K, V, K2>; [a2]: alignment of K2 *)
  Definition node_header (a2 : nat) : list field := common ++ [Field 0 a2].
  (** node.rs 81-102 *)
  Definition leaf_node : list field := common ++ [Field (CAPACITY * ksize) kalign; Field (CAPACITY * vsize) valign].
  (** node.rs 144-151 *)
  Definition internal_node : list field := [Field (size_of leaf_node) (align_of leaf_node); Field (2 * B_ * p) p].
  (** LeafNode<(), ()> *)
  Definition leaf_node_unit : list field := common ++ [Field 0 1; Field 0 1].

  (** the parts of a node: the fields of LeafNode (its arrays by element) and the elements of [edges] *)
  Inductive part := Parent | ParentIdx | Len | Key (i : nat) | Val (i : nat) | Edge (i : nat).
  Definition part_size (x : part) : nat :=
    match x with Parent => p | ParentIdx | Len => 2 | Key _ => ksize | Val _ => vsize | Edge _ => p end.
  Definition part_align (x : part) : nat :=
    match x with Parent => p | ParentIdx | Len => 2 | Key _ => kalign | Val _ => valign | Edge _ => p end.
  (** which parts there are: node.rs 97-98, 147-150 *)
  Definition has_part (internal : bool) (x : part) : Prop :=
    match x with Key i | Val i => i < CAPACITY | Edge i => internal = true /\ i < 2 * B_ | _ => True end.
  (** where a part is in a LeafNode ... *)
  Definition in_leaf (x : part) : nat :=
    match x with
    | Parent => offset_of leaf_node 0 | ParentIdx => offset_of leaf_node 1 | Len => offset_of leaf_node 2
    | Key i => offset_of leaf_node 3 + i * ksize | Val i => offset_of leaf_node 4 + i * vsize
    | Edge i => 0
    end.
  (** ... and in an InternalNode: its leaf part is its first field *)
  Definition in_internal (x : part) : nat :=
    match x with Edge i => offset_of internal_node 1 + i * p | _ => offset_of internal_node 0 + in_leaf x end.
  (** node.rs 411-418: as_header looks at [parent], [parent_idx] and [len] through a NodeHeader, whatever node or shared root it is *)
  Definition in_header (a2 : nat) (x : part) : nat :=
    match x with Parent => offset_of (node_header a2) 0 | ParentIdx => offset_of (node_header a2) 1 | _ => offset_of (node_header a2) 2 end.

  Inductive keys_at := KEmptySlice | KAt (offset : nat) | KPanic.

  (** node.rs 558-596: where the slice of keys starts, relative to the node *)
  Definition into_key_slice (shared : bool) : keys_at :=
    if (align_of leaf_node_unit <? kalign) && shared then KEmptySlice
    else if size_of (node_header 1) =? size_of (node_header kalign)
    then KAt (offset_of (node_header kalign) 3)
    else KPanic.
  (** node.rs 619-632: the same through the field [keys] of the LeafNode *)
  Definition into_key_slice_mut (shared : bool) : keys_at :=
    if (align_of leaf_node_unit <? kalign) && shared then KEmptySlice
    else KAt (offset_of leaf_node 3).
End Layout.
