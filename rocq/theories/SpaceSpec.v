(** * SpaceSpec: how much memory a map holds (no code of /repo is modelled here) *)
From Coq Require Import List Arith.
From Verif Require Import BTreeModel.
Import ListNotations.
Set Implicit Arguments.

Section Space.
  Variables (K V : Type).
  (** the nodes of a tree *)
  Fixpoint size (n : node K V) : nat := match n with Node _ es => S (list_sum (map size es)) end.
  (** the blocks of memory a map owns: the shared empty root is static *)
  Definition blocks (m : bmap K V) : nat := if bshared m then 0 else size (bnode m).
End Space.
