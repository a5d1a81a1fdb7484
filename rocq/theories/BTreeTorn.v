(** * BTreeTorn: what happens to a map whose length exceeds its entries *)
From Coq Require Import List Arith Lia Bool Sorted Permutation.
From Verif Require Import Base MapSpec SpecFacts IterSpec BTreeModel BTreeIterModel BTreeInv BTreeLemmas BTreeSearch BTreeInsert BTreeIter BTreeStep BTreeIterProofs BTreeOps.
Import ListNotations.
Set Implicit Arguments.

Section Torn.
  Variables (K V : Type).
  Notation kv := (K * V)%type.
  Notation node := (node K V).
  Notation ctx := (ctx K V).
  Notation handle := (handle K V).
  Notation bmap := (bmap K V).
  Implicit Types (T : node) (hd : handle) (m : bmap).

  Lemma after_nil (f : frame K V) : frame_ok f -> after f = [] -> length (fk f) <= fidx f.
  Proof.
    unfold frame_ok, after, fidx. intros H E. destruct (le_lt_dec (length (fk f)) (length (fl f))); auto. exfalso.
    destruct (skipn (length (fl f)) (fk f)) as [|x l0] eqn:Es.
    - apply (f_equal (@length _)) in Es. rewrite skipn_length in Es. simpl in Es. lia.
    - destruct (fr f) as [|e es]; [simpl in H; lia|]. discriminate.
  Qed.

  Lemma climb_right_end c : Forall (@frame_ok K V) c -> cafter c = [] -> forall h n left, climb_right h n c left = None.
  Proof.
    induction 1 as [|f c Hf Hc IH]; intros E h n left; cbn [climb_right]; auto. cbn [cafter] in E. apply app_eq_nil in E. destruct E as [E1 E2].
    apply after_nil in E1; auto. assert (Hn : nlen (fill f n) = length (fk f)) by reflexivity.
    destruct (Nat.ltb_spec (fidx f) (nlen (fill f n))); [lia|]. now apply IH.
  Qed.

  Lemma next_end H T hd : leaf_edge H T hd -> pos hd = length (inorder T) -> next_unchecked hd = None.
  Proof.
    intros Hl Hp. pose proof (leaf_edge_inorder Hl) as Ein. destruct Hl as (Hok & H0 & Hi). rewrite Ein, !app_length in Hp. unfold pos, nlen in *.
    assert (E : cafter (hc hd) = []) by (destruct (cafter (hc hd)); auto; simpl in Hp; lia).
    unfold next_unchecked, nlen. destruct (Nat.ltb_spec (hi hd) (length (kvs (hn hd)))); [lia|].
    apply climb_right_end; auto. rewrite hok_any in Hok. destruct Hok as (_ & _ & _ & Hc). eapply cok_frames; exact Hc.
  Qed.

  (** the same iterator with another count *)
  Definition with_left (n : nat) (it : into_iter K V) : into_iter K V := IntoIter (nfront it) (nback it) n (nshared it) (nfreed it).
  Lemma into_next_with n it x it' : n <> 0 -> nleft_ it <> 0 -> into_next it = Ret (x, it') -> x <> None ->
    into_next (with_left n it) = Ret (x, with_left (n - 1) it').
  Proof.
    intros Hn Hi E Hx. unfold into_next in *. cbn [with_left nleft_ nfront nback nshared nfreed].
    destruct (Nat.eqb_spec n 0); [contradiction|]. destruct (Nat.eqb_spec (nleft_ it) 0); [contradiction|].
    destruct (negb _); [discriminate|]. destruct (next_unchecked (nfront it)) as [s|]; [|discriminate].
    destruct (dealloc_all _ _ _) as [fr|]; [|discriminate]. destruct (spine_alive fr _); [|discriminate]. inversion E; subst. reflexivity.
  Qed.

  Lemma drain_over H T sh fuel : forall a it n, into_ok H T sh a (length (inorder T)) it -> length (inorder T) - a < n ->
    length (inorder T) - a < fuel -> drain fuel (with_left n it) = UB.
  Proof.
    induction fuel as [|fuel IH]; intros a it n Hok Hn Hf; [lia|]. cbn [drain].
    pose proof (into_next_ok Hok) as Hx. pose proof Hok as (Hb & Hl & _). pose proof (between_bound Hb) as Hbd.
    destruct (Nat.eqb_spec a (length (inorder T))) as [Ea|Ea].
    - assert (E : into_next (with_left n it) = UB); [|now rewrite E]. unfold into_next. cbn [with_left nleft_ nfront nback nshared nfreed].
      destruct (Nat.eqb_spec n 0); [lia|]. destruct (negb _); auto. destruct Hb as (H1 & _ & E1 & _). cbn [rfront] in *.
      rewrite (@next_end H T (nfront it)); auto. lia.
    - destruct Hx as (x & it' & E & _ & _ & Hok'). rewrite (@into_next_with n it (Some x) it') by (auto || congruence || lia).
      rewrite (IH (S a) it' (n - 1) Hok') by lia. reflexivity.
  Qed.

  (** dropping a map that believes it has more entries than it has *)
  Lemma drop_overlong m : shape (bheight m) (bnode m) -> (bshared m = true -> bheight m = 0) -> length (entries m) < blen m -> drop_map m = UB.
  Proof.
    intros Hs Hsh Hl. set (m0 := BMap (bshared m) (bnode m) (bheight m) (length (entries m))).
    destruct (@map_into_iter_ok K V m0) as (it & E & Hok); auto. unfold drop_map.
    assert (Em : map_into_iter m = Ret (with_left (blen m) it)).
    { unfold map_into_iter in *. cbn [m0 bheight bnode blen bshared] in E. destruct (first_leaf_edge _ _ _); [|discriminate].
      destruct (last_leaf_edge _ _ _); [|discriminate]. inversion E; subst. reflexivity. }
    rewrite Em. unfold drop_into_iter. cbn [with_left nleft_].
    change (IntoIter (nfront it) (nback it) (blen m) (nshared it) (nfreed it)) with (with_left (blen m) it).
    erewrite drain_over; [reflexivity|exact Hok| |]; change (length (inorder (bnode m0))) with (length (entries m)); lia.
  Qed.

  (** iterating over it to its end *)
  Definition iter_with (n : nat) (it : iter K V) : iter K V := Iter (irange it) n.
  Lemma iter_over H T k : forall a it n, iter_ok H T a (length (inorder T)) it -> length (inorder T) - a < n -> length (inorder T) - a < k ->
    calls (@iter_next K V) (@iter_next_back K V) (repeat Front k) (iter_with n it) = UB.
  Proof.
    induction k as [|k IH]; intros a it n Hok Hn Hk; [lia|]. cbn [repeat calls].
    pose proof (iter_next_ok Hok) as Hx. pose proof Hok as (Hb & Hl). pose proof (between_bound Hb) as Hbd.
    destruct (Nat.eqb_spec a (length (inorder T))) as [Ea|Ea].
    - assert (E : iter_next (iter_with n it) = UB); [|now rewrite E]. unfold iter_next. cbn [iter_with ilen irange].
      destruct (Nat.eqb_spec n 0); [lia|]. destruct Hb as (H1 & _ & E1 & _). rewrite (@next_end H T (rfront (irange it))); auto. lia.
    - destruct Hx as (x & it' & E & _ & _ & Hok').
      assert (E' : iter_next (iter_with n it) = Ret (Some x, iter_with (n - 1) it')).
      { unfold iter_next in *. cbn [iter_with ilen irange]. destruct (Nat.eqb_spec n 0); [lia|]. destruct (Nat.eqb_spec (ilen it) 0); [discriminate|].
        destruct (next_unchecked _); [|discriminate]. inversion E; subst. reflexivity. }
      rewrite E'. rewrite (IH (S a) it' (n - 1) Hok') by lia. reflexivity.
  Qed.
  Lemma iter_overlong m : shape (bheight m) (bnode m) -> length (entries m) < blen m ->
    exists it, map_iter m = Ret it /\ calls (@iter_next K V) (@iter_next_back K V) (repeat Front (blen m)) it = UB.
  Proof.
    intros Hs Hl. set (m0 := BMap (bshared m) (bnode m) (bheight m) (length (entries m))).
    destruct (@map_iter_ok K V m0) as (it & E & Hok); auto. exists (iter_with (blen m) it). split.
    - unfold map_iter in *. cbn [m0 bheight bnode blen bshared] in E. destruct (first_leaf_edge _ _ _); [|discriminate].
      destruct (last_leaf_edge _ _ _); [|discriminate]. inversion E; subst. reflexivity.
    - eapply iter_over; [exact Hok| |]; change (length (inorder (bnode m0))) with (length (entries m)); lia.
  Qed.

  Variable cmp : K -> K -> comparison.
  Hypothesis laws : ord_laws cmp.
  Lemma torn_overlong m m' k v : sound m -> sorted cmp (entries m) -> s_get (cmp k) (entries m) = None -> torn cmp m m' k v -> m' <> m ->
    length (entries m') < blen m' /\ shape (bheight m') (bnode m') /\ bshared m' = false.
  Proof.
    intros Hm Hs Hg [[-> _]|(Hl & _ & Hns & Hb & l & lost & r & E1 & E2 & Hlost)] Hne; [congruence|]. split; [|split; [eapply kids_shape; apply Hb|exact Hns]].
    apply (f_equal (@length _)) in E1. rewrite (s_insert_length laws), Hg in E1 by auto. rewrite E2, Hl, (proj2 (proj2 Hm)).
    rewrite !app_length in *. destruct lost; [congruence|]. simpl in *. lia.
  Qed.
End Torn.
