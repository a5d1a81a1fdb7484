(** * ShuffleSpec: several threads working on BTreeMaps, said about programs
    (lists of HistoryModel's [op]) and their outcomes. *)
From Coq Require Import List Arith Lia Bool.
From Verif Require Import Base BTreeModel HistoryModel ContainSpec FrameSpec.
Import ListNotations.
Set Implicit Arguments.

Section Spec.
  Variables (K V Q : Type).
  Notation op := (op K V Q).
  Notation result := (outcome reserve_error (obs K V)).

  (** a schedule: which thread made the step, and which operation it was *)
  Definition schedule := list (nat * op).

  (** the program of the thread [i], and what it sees: the outcomes of its own steps *)
  Fixpoint program (i : nat) (sc : schedule) : list op :=
    match sc with
    | [] => []
    | (j, c) :: sc' => if j =? i then c :: program i sc' else program i sc'
    end.
  Fixpoint sees (i : nat) (sc : schedule) (outs : list result) : list result :=
    match sc, outs with
    | (j, _) :: sc', o :: outs' => if j =? i then o :: sees i sc' outs' else sees i sc' outs'
    | _, _ => []
    end.

  (** no thread is given a map that another one mentions: different threads have
      different maps, or only read the maps they share (including cloning from them).
      This is what the borrow checker, with [BTreeMap: Send + Sync], allows *)
  Definition independent (sc : schedule) : Prop :=
    forall i c j d, In (i, c) sc -> In (j, d) sc -> i <> j -> forall r, In r (given c) -> ~ In r (mentions d).
End Spec.
