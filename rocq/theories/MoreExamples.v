(** * MoreExamples: concrete cases of the theorems about whole maps

    C30 (append, try_clone), C35 (hashing), C36, C38 (range_mut) and C48
    (append, clone): the hypotheses are met by maps of several nodes, and the
    cases the theorems distinguish occur.  Both maps below are [valid]. *)
From Coq Require Import List Arith Lia Bool Sorted Permutation.
From Verif Require Import Base MapSpec MergeSpec SpecFacts IterSpec SetSpec BTreeModel BTreeInv BTreeIterModel BTreeBulkModel BTreeClone BTreeCost BTreeAppend
  SpaceSpec BTreeSpace BTreeWrites BTreeOps BTreeRange BTreeViewModel Examples Properties_BTree Properties_BTree2 HistoryModel HistorySpec HistoryProofs Properties_History Properties_Space.
Import ListNotations.

Definition odd_map : bmap nat nat := mk Nat.compare (map (fun k => (2 * k + 1, 0)) (seq 0 60)).
Definition mid_map : bmap nat nat := mk Nat.compare (map (fun k => (k, 1)) (seq 40 40)).
Example more_valid : valid Nat.compare odd_map /\ valid Nat.compare mid_map /\ len odd_map = 60 /\ blocks odd_map = 9 /\ len mid_map = 40 /\ blocks mid_map = 7.
Proof. split; [apply mk_valid; exact nat_laws|]. split; [apply mk_valid; exact nat_laws|]. vm_compute. auto. Qed.

(** C30_append, C48_append: 80 entries in 8 nodes, for 8 requests; the twenty entries of the first map whose keys are in the second are dropped *)
Example append_granted : let '(r, m', o', mi, w') := append counting Nat.compare odd_map mid_map 0 in
  (r, len m', blocks m', len o', w', option_map (@mdropped nat nat) mi) = (Ret tt, 80, 8, 0, 8, Some (map (fun k => (2 * k + 41, 0)) (seq 0 20))).
Proof. vm_compute. reflexivity. Qed.
(** the fifth node is refused: 35 entries are in, 8 have been dropped, one (55) was in hand, the rest is dropped with the iterators *)
Example append_refused : match append budget Nat.compare odd_map mid_map 4 with
  | (r, m', o', Some mi, _) =>
      r = Panic /\ map fst (entries m') = map (fun k => 2 * k + 1) (seq 0 20) ++ seq 40 15 /\ o' = new /\ map fst (mdropped mi) = map (fun k => 2 * k + 41) (seq 0 8) /\
      omap (fun x => map fst (fst x)) (drop_peekable (mleft mi)) = Ret (map (fun k => 2 * k + 57) (seq 0 32)) /\
      omap (fun x => map fst (fst x)) (drop_peekable (mright mi)) = Ret (seq 56 24)
  | _ => False
  end.
Proof. vm_compute. repeat split. Qed.

Definition copyn (x : nat) (w : nat) : outcome reserve_error nat * nat := (Ret x, w).
(** C48_clone: as many nodes as the original, for as many requests *)
Example clone_granted : match try_clone counting copyn copyn odd_map 0 with
  | (Ret m', discarded, w) => (entries m', blocks m', discarded, w) = (entries odd_map, 9, [], 9)
  | _ => False
  end.
Proof. vm_compute. reflexivity. Qed.
(** C30_try_clone: the sixth node is refused; the part that was made is dropped *)
Example clone_refused : match try_clone budget copyn copyn bigmap 5 with
  | (Err AllocError, discarded, _) => (map (fun d => len d) discarded, map (fun d => omap (fun x => (fst x, length (snd x))) (drop_map d)) discarded) =
      ([29], map (fun d => Ret (entries d, 5)) discarded)
  | _ => False
  end.
Proof. vm_compute. reflexivity. Qed.

(** C36_cost: three nodes are looked at, eleven keys compared with, among 200 *)
Example cost_case : let '(_, t) := search_tree_t (Nat.compare 77) (bheight bigmap) (bnode bigmap) [] in
  (t, bheight bigmap, len bigmap) = ([[59; 111]; [66; 72; 79]; [73; 74; 75; 76; 77]], 2, 200).
Proof. vm_compute. reflexivity. Qed.

(** C38_range_mut: the three references from a range are written through *)
Example range_mut_case : ~ s_bad Nat.compare (Included 50) (Excluded 70) /\
  match map_range Nat.compare (fun k : nat => k) (Included 50) (Excluded 70) bigmap with
  | Ret r => match calls (@range_next nat nat) (@range_next_back nat nat) [Front; Back; Front] r with
             | Ret (outs, _) => map (option_map fst) outs = [Some (50, 50); Some (69, 69); Some (51, 51)] /\
                 match write_all (map (fun x : item nat nat => (snd x, fun v => v + 1000)) (somes outs)) bigmap with
                 | Some m' => filter (fun x => fst x <? snd x) (entries m') = [(50, 1050); (51, 1051); (69, 1069)] /\ len m' = 200
                 | None => False
                 end
             | _ => False
             end
  | _ => False
  end.
Proof. split; [vm_compute; discriminate|]. vm_compute. repeat split. Qed.

(** C35_hash: trees of different shapes with the same entries are fed to the hasher alike *)
Example hash_case : nmap (seq 0 200) <> bigmap /\
  map_hash (fun x (s : list nat) => snd x :: fst x :: s) (nmap (seq 0 200)) [] = map_hash (fun x (s : list nat) => snd x :: fst x :: s) bigmap [].
Proof. split; [intros H; apply (f_equal (fun m => nlen (bnode m))) in H; vm_compute in H; discriminate|]. vm_compute. reflexivity. Qed.
