(** * BTreeIter: leaf edges, their order, and stepping *)
From Coq Require Import List Arith Lia Bool Sorted Permutation.
From Verif Require Import Base MapSpec BTreeModel BTreeIterModel BTreeInv BTreeLemmas BTreeSearch BTreeInsert.
Import ListNotations.
Set Implicit Arguments.

(** [p] and [q] part at some level, [p] to the left *)
Definition dless (p q : path) : Prop :=
  exists pre a b s t, p = pre ++ a :: s /\ q = pre ++ b :: t /\ a < b.

Lemma dless_app_l p q s : dless p q -> dless (p ++ s) q.
Proof. intros (pre & a & b & u & t & -> & -> & H). exists pre, a, b, (u ++ s), t. rewrite <- app_assoc. auto. Qed.
Lemma dless_app_r p q s : dless p q -> dless p (q ++ s).
Proof. intros (pre & a & b & u & t & -> & -> & H). exists pre, a, b, u, (t ++ s). rewrite <- app_assoc. auto. Qed.
Lemma dless_cons j p q : dless (j :: p) (j :: q) -> dless p q.
Proof.
  intros (pre & a & b & u & t & E1 & E2 & H). destruct pre as [|x pre]; simpl in *.
  - injection E1; injection E2; intros; subst. lia.
  - injection E1; injection E2; intros; subst. exists pre, a, b, u, t. auto.
Qed.
Lemma dless_head i j p q : dless (i :: p) (j :: q) -> i < j \/ (i = j /\ dless p q).
Proof.
  intros H. destruct H as (pre & a & b & u & t & E1 & E2 & Hl). destruct pre as [|x pre]; simpl in *.
  - injection E1; injection E2; intros; subst. auto.
  - injection E1; injection E2; intros; subst. right. split; auto. exists pre, a, b, u, t. auto.
Qed.
Lemma dless_not_prefix p q s : dless p q -> p <> q ++ s /\ q <> p ++ s.
Proof.
  intros (pre & a & b & u & t & -> & -> & H). rewrite <- !app_assoc. split; intros E; apply app_inv_head in E;
    injection E; intros; lia.
Qed.
Lemma dless_total : forall p q, length p = length q -> p <> q -> dless p q \/ dless q p.
Proof.
  induction p as [|i p IH]; intros [|j q] Hl Hn; simpl in *; try discriminate; [congruence|].
  destruct (Nat.lt_trichotomy i j) as [H|[H|H]].
  - left. exists [], i, j, p, q. auto.
  - subst. destruct (IH q) as [(pre & a & b & u & t & -> & -> & Hab)|(pre & a & b & u & t & -> & -> & Hab)]; [lia|congruence| |].
    + left. exists (j :: pre), a, b, u, t. auto.
    + right. exists (j :: pre), a, b, u, t. auto.
  - right. exists [], j, i, q, p. auto.
Qed.

Lemma path_eqb_spec p q : reflect (p = q) (path_eqb p q).
Proof. unfold path_eqb. destruct (list_eq_dec Nat.eq_dec p q); constructor; auto. Qed.
Lemma freed_mem_spec p l : reflect (In p l) (freed_mem p l).
Proof.
  unfold freed_mem. apply iff_reflect. rewrite existsb_exists. split.
  - intros H. exists p. split; auto. destruct (path_eqb_spec p p); auto.
  - intros (q & H & E). destruct (path_eqb_spec p q); [subst; auto|discriminate].
Qed.

Definition anyR : nat -> nat -> Prop := fun _ _ => True.

Section Iter.
  Variables (K V : Type).
  Notation node := (node K V).
  Notation frame := (frame K V).
  Notation ctx := (ctx K V).
  Notation handle := (handle K V).
  Notation bmap := (bmap K V).
  Notation step := (step K V).
  Implicit Types (n T : node) (c : ctx) (f : frame) (hd : handle).

  (** a leaf edge of the tree [T] of height [H] and its position *)
  Definition leaf_edge (H : nat) T hd : Prop :=
    hok any anyR H T hd /\ hh hd = 0 /\ hi hd <= nlen (hn hd).
  Definition pos hd : nat := length (cbefore (hc hd)) + hi hd.

  Lemma bound_any h c k : bound any anyR h c k.
  Proof. unfold bound. destruct c; exact I. Qed.
  Lemma hok_any H T hd : hok any anyR H T hd <->
    plug (hn hd) (hc hd) = T /\ hh hd + length (hc hd) = H /\ kids any (hh hd) (hn hd) /\ cok any anyR (hh hd) (hc hd).
  Proof. unfold hok. pose proof (bound_any (hh hd) (hc hd) (nlen (hn hd))). tauto. Qed.

  Lemma leaf_inorder n : kids any 0 n -> inorder n = kvs n.
  Proof. cbn [kids]. intros H. rewrite inorder_eq, H. reflexivity. Qed.

  Lemma leaf_edge_inorder H T hd : leaf_edge H T hd ->
    inorder T = cbefore (hc hd) ++ kvs (hn hd) ++ cafter (hc hd).
  Proof.
    intros (Hok & H0 & _). rewrite hok_any in Hok. destruct Hok as (<- & _ & Hk & Hc). rewrite H0 in *.
    rewrite inorder_plug by (eapply cok_frames; eauto). now rewrite leaf_inorder.
  Qed.
  Lemma pos_le H T hd : leaf_edge H T hd -> pos hd <= length (inorder T).
  Proof.
    intros Hl. rewrite (leaf_edge_inorder Hl). rewrite !app_length. unfold pos. destruct Hl as (_ & _ & Hi). unfold nlen in Hi. lia.
  Qed.
  Lemma leaf_path_length H T hd : leaf_edge H T hd -> length (hpath hd) = H.
  Proof.
    intros (Hok & H0 & _). rewrite hok_any in Hok. destruct Hok as (_ & Hh & _). unfold hpath, cpath.
    rewrite rev_length, map_length. lia.
  Qed.

  (** ** Peeling the root frame *)
  Lemma cok_snoc h c g : cok any anyR h (c ++ [g]) <->
    cok any anyR h c /\ frame_ok g /\ Forall (sub any (h + length c)) (fl g) /\ Forall (sub any (h + length c)) (fr g).
  Proof.
    revert h. induction c as [|f c IH]; intros h.
    - cbn [app cok length]. rewrite Nat.add_0_r. unfold bound, anyR. tauto.
    - cbn [app cok length]. rewrite IH. replace (S h + length c) with (h + S (length c)) by lia.
      pose proof (bound_any (S h) (c ++ [g]) (length (fk f))). pose proof (bound_any (S h) c (length (fk f))). tauto.
  Qed.
  Lemma peel H T hd : leaf_edge (S H) T hd ->
    exists d g T', hc hd = d ++ [g] /\ T = fill g T' /\ frame_ok g /\ kids any H T' /\
      leaf_edge H T' (Handle (hn hd) (hh hd) d (hi hd)) /\
      pos hd = length (before g) + pos (Handle (hn hd) (hh hd) d (hi hd)) /\
      hpath hd = fidx g :: cpath d.
  Proof.
    intros (Hok & H0 & Hi). rewrite hok_any in Hok. destruct Hok as (Hp & Hh & Hk & Hc). rewrite H0 in *.
    destruct (hc hd) as [|g d] eqn:Ec using rev_ind; [discriminate|]. clear IHd.
    rewrite app_length in Hh. simpl in Hh. apply cok_snoc in Hc. destruct Hc as (Hc & Hf & Hl & Hr).
    exists d, g, (plug (hn hd) d). rewrite plug_app in Hp. cbn [plug] in Hp. split; auto. split; auto. split; auto.
    assert (HkT : kids any H (plug (hn hd) d)).
    { pose proof (proj1 (plug_ok any anyR d 0 (hn hd))) as Hx. cbn [Nat.add] in Hx. replace (length d) with H in Hx by lia.
      apply Hx. split; [apply bound_any|auto]. }
    split; auto. split; [|split].
    - split; [|split; auto]. rewrite hok_any. cbn [hn hh hc]. repeat (split; auto). lia.
    - unfold pos. cbn [hc hi]. rewrite Ec, cbefore_app. cbn [cbefore app]. rewrite app_length. lia.
    - unfold hpath. rewrite Ec, cpath_app. reflexivity.
  Qed.

  (** children further right start later *)
  Lemma before_later (g1 g2 : frame) (n1 n2 : node) : frame_ok g1 -> frame_ok g2 -> fill g1 n1 = fill g2 n2 -> fidx g1 < fidx g2 ->
    length (before g1) + length (inorder n1) < length (before g2).
  Proof.
    unfold frame_ok, fill, fidx, before. intros H1 H2 E Hlt. injection E; intros Ee Ek.
    set (k := fk g2) in *. rewrite Ek in *. clear Ek E.
    assert (Hs : exists mid, fl g2 = fl g1 ++ n1 :: mid).
    { assert (Hf : firstn (length (fl g2)) (fl g1 ++ n1 :: fr g1) = fl g2) by (rewrite Ee; now apply firstn_app_len).
      rewrite firstn_app in Hf. rewrite firstn_all2 in Hf by lia.
      destruct (length (fl g2) - length (fl g1)) eqn:Ed; [lia|]. cbn [firstn] in Hf. eexists. symmetry. exact Hf. }
    destruct Hs as (mid & Es). unfold fidx. rewrite Es, map_app. cbn [map].
    rewrite Es in H2. rewrite app_length in *. cbn [length] in *.
    rewrite <- (firstn_skipn (length (fl g1)) k) at 2. rewrite firstn_app, firstn_firstn.
    rewrite Nat.min_r by lia. rewrite firstn_length. rewrite Nat.min_l by lia.
    rewrite wl_app by (rewrite map_length, firstn_length; lia).
    destruct (skipn (length (fl g1)) k) as [|y ys] eqn:Ey.
    { apply (f_equal (@length _)) in Ey. rewrite skipn_length in Ey. simpl in Ey. lia. }
    replace (length (fl g1) + S (length mid) - length (fl g1)) with (S (length mid)) by lia.
    cbn [firstn wl]. rewrite !app_length. cbn [length]. lia.
  Qed.

  Lemma fill_same_idx (g1 g2 : frame) (n1 n2 : node) : fill g1 n1 = fill g2 n2 -> fidx g1 = fidx g2 -> g1 = g2 /\ n1 = n2.
  Proof.
    unfold fill, fidx. intros E Hi. injection E; intros Ee Ek.
    assert (El : fl g1 = fl g2).
    { assert (Hx : firstn (length (fl g1)) (fl g1 ++ n1 :: fr g1) = firstn (length (fl g1)) (fl g2 ++ n2 :: fr g2)) by now rewrite Ee.
      rewrite !firstn_app_len in Hx by auto. exact Hx. }
    rewrite El in Ee. apply app_inv_head in Ee. injection Ee; intros. destruct g1, g2. simpl in *. subst. auto.
  Qed.

  Lemma dless_pos H : forall T hd1 hd2, leaf_edge H T hd1 -> leaf_edge H T hd2 ->
    dless (hpath hd1) (hpath hd2) -> pos hd1 < pos hd2.
  Proof.
    induction H as [|H IH]; intros T hd1 hd2 H1 H2 Hd.
    - apply leaf_path_length in H1. destruct Hd as (pre & a & b & s & t & E & _). rewrite E, app_length in H1. simpl in H1. lia.
    - destruct (peel H1) as (d1 & g1 & T1 & Ec1 & ET1 & Hf1 & Hk1 & Hl1 & Hp1 & Hh1).
      destruct (peel H2) as (d2 & g2 & T2 & Ec2 & ET2 & Hf2 & Hk2 & Hl2 & Hp2 & Hh2).
      rewrite Hh1, Hh2 in Hd. destruct (dless_head Hd) as [Hlt|[Heq Hd']].
      + rewrite ET1 in ET2. pose proof (@before_later g1 g2 T1 T2 Hf1 Hf2 ET2 Hlt). pose proof (pos_le Hl1). lia.
      + rewrite ET1 in ET2. destruct (fill_same_idx ET2 Heq) as [-> ->].
        pose proof (IH T2 _ _ Hl1 Hl2 Hd'). lia.
  Qed.

  Lemma same_path H : forall T hd1 hd2, leaf_edge H T hd1 -> leaf_edge H T hd2 -> hpath hd1 = hpath hd2 ->
    hc hd1 = hc hd2 /\ hn hd1 = hn hd2.
  Proof.
    induction H as [|H IH]; intros T hd1 hd2 H1 H2 Hp.
    - destruct H1 as (Ho1 & Hh1 & _), H2 as (Ho2 & Hh2 & _). rewrite hok_any in *.
      destruct Ho1 as (E1 & El1 & _), Ho2 as (E2 & El2 & _). rewrite Hh1, Hh2 in *.
      destruct (hc hd1), (hc hd2); try discriminate. simpl in *. split; congruence.
    - destruct (peel H1) as (d1 & g1 & T1 & Ec1 & ET1 & Hf1 & Hk1 & Hl1 & Hp1 & Hh1).
      destruct (peel H2) as (d2 & g2 & T2 & Ec2 & ET2 & Hf2 & Hk2 & Hl2 & Hp2 & Hh2).
      rewrite Hh1, Hh2 in Hp. injection Hp; intros Hd Hi. rewrite ET1 in ET2.
      destruct (fill_same_idx ET2 Hi) as [-> ->].
      destruct (IH T2 _ _ Hl1 Hl2) as [E1 E2]; [exact Hd|]. cbn [hc hn] in *. split; congruence.
  Qed.

  Lemma same_pos H T hd1 hd2 : leaf_edge H T hd1 -> leaf_edge H T hd2 -> pos hd1 = pos hd2 ->
    hc hd1 = hc hd2 /\ hn hd1 = hn hd2 /\ hi hd1 = hi hd2.
  Proof.
    intros H1 H2 Hp. assert (E : hpath hd1 = hpath hd2).
    { destruct (list_eq_dec Nat.eq_dec (hpath hd1) (hpath hd2)) as [|n]; auto.
      destruct (@dless_total (hpath hd1) (hpath hd2)) as [Hd|Hd]; auto.
      - now rewrite (leaf_path_length H1), (leaf_path_length H2).
      - pose proof (dless_pos H1 H2 Hd). lia.
      - pose proof (dless_pos H2 H1 Hd). lia. }
    destruct (same_path H1 H2 E) as [E1 E2]. split; auto. split; auto. unfold pos in Hp. rewrite E1 in Hp. lia.
  Qed.
  Lemma handle_eqb_pos H T hd1 hd2 : leaf_edge H T hd1 -> leaf_edge H T hd2 ->
    handle_eqb hd1 hd2 = (pos hd1 =? pos hd2).
  Proof.
    intros H1 H2. unfold handle_eqb. destruct (Nat.eqb_spec (pos hd1) (pos hd2)) as [E|E].
    - destruct (same_pos H1 H2 E) as (E1 & _ & E2). unfold hpath. rewrite E1, E2, Nat.eqb_refl.
      destruct (path_eqb_spec (cpath (hc hd2)) (cpath (hc hd2))); [reflexivity|congruence].
    - destruct (path_eqb_spec (hpath hd1) (hpath hd2)) as [Ep|]; auto.
      destruct (Nat.eqb_spec (hi hd1) (hi hd2)) as [Ei|]; auto. exfalso. apply E.
      destruct (same_path H1 H2 Ep) as [E1 _]. unfold pos. now rewrite E1, Ei.
  Qed.

  (** ** Nodes left and right of a context *)
  Fixpoint allpaths (pre : path) (n : node) : list path :=
    match n with
    | Node _ es => pre :: (fix go i es := match es with [] => [] | e :: es' => allpaths (pre ++ [i]) e ++ go (S i) es' end) 0 es
    end.
  Fixpoint pathsfrom (pre : path) (i : nat) (es : list node) : list path :=
    match es with [] => [] | e :: es' => allpaths (pre ++ [i]) e ++ pathsfrom pre (S i) es' end.
  Lemma allpaths_eq pre n : allpaths pre n = pre :: pathsfrom pre 0 (edges n).
  Proof.
    destruct n as [k es]. cbn [allpaths edges]. f_equal. generalize 0. induction es as [|e es IH]; intros i; cbn [pathsfrom]; auto.
    f_equal. apply IH.
  Qed.
  Lemma pathsfrom_app pre es1 es2 : forall i, pathsfrom pre i (es1 ++ es2) = pathsfrom pre i es1 ++ pathsfrom pre (i + length es1) es2.
  Proof.
    induction es1 as [|e es1 IH]; intros i; cbn [pathsfrom app length].
    - now rewrite Nat.add_0_r.
    - rewrite IH, app_assoc. do 2 f_equal. lia.
  Qed.
  Fixpoint lpaths c : list path :=
    match c with [] => [] | f :: c' => lpaths c' ++ pathsfrom (cpath c') 0 (fl f) end.
  Fixpoint rpaths c : list path :=
    match c with [] => [] | f :: c' => pathsfrom (cpath c') (S (fidx f)) (fr f) ++ rpaths c' end.

  Lemma allpaths_fill pre f n : allpaths pre (fill f n) =
    pre :: pathsfrom pre 0 (fl f) ++ allpaths (pre ++ [fidx f]) n ++ pathsfrom pre (S (fidx f)) (fr f).
  Proof. rewrite allpaths_eq. cbn [fill edges]. now rewrite pathsfrom_app. Qed.

  Lemma allpaths_plug c : forall n,
    Permutation (allpaths [] (plug n c))
      (lpaths c ++ allpaths (cpath c) n ++ rpaths c ++ match c with [] => [] | _ :: c' => spine c' end).
  Proof.
    induction c as [|f c IH]; intros n.
    - cbn. now rewrite app_nil_r.
    - cbn [plug lpaths rpaths]. rewrite IH, allpaths_fill, cpath_cons.
      set (A := lpaths c). set (B := pathsfrom (cpath c) 0 (fl f)). set (C := allpaths (cpath c ++ [fidx f]) n).
      set (D := pathsfrom (cpath c) (S (fidx f)) (fr f)). set (E := rpaths c).
      assert (Hs : spine c = cpath c :: match c with [] => [] | _ :: c' => spine c' end) by (destruct c; reflexivity).
      rewrite Hs. set (F := match c with [] => [] | _ :: c' => spine c' end).
      cbn [app]. rewrite <- !app_assoc. apply Permutation_app_head.
      transitivity ((B ++ C ++ D ++ E) ++ cpath c :: F).
      + rewrite <- !app_assoc. transitivity (cpath c :: B ++ C ++ D ++ E ++ F); auto.
        rewrite !app_assoc. apply Permutation_middle.
      + rewrite <- !app_assoc. reflexivity.
  Qed.

  Lemma allpaths_prefix q : forall n pre, In q (allpaths pre n) -> exists s, q = pre ++ s.
  Proof.
    assert (Hg : forall h n pre, (fix depth n := match n with Node _ es => S (list_max (map depth es)) end) n <= h ->
      In q (allpaths pre n) -> exists s, q = pre ++ s).
    { induction h as [|h IH]; intros [k es] pre Hd Hin; [simpl in Hd; lia|].
      cbn [allpaths] in Hin. destruct Hin as [<-|Hin]; [exists []; now rewrite app_nil_r|].
      rewrite (eq_refl : _ = pathsfrom pre 0 es) in Hin || idtac.
      assert (Hp : In q (pathsfrom pre 0 es)).
      { pose proof (allpaths_eq pre (Node k es)) as E. cbn [allpaths edges] in E. injection E; intros E'. now rewrite <- E'. }
      clear Hin. assert (Hd' : list_max (map (fix depth n := match n with Node _ es => S (list_max (map depth es)) end) es) <= h) by lia.
      clear Hd. revert Hp Hd'. generalize 0. induction es as [|e es IHe]; intros i Hp Hd'; cbn [pathsfrom] in Hp; [contradiction|].
      cbn [map list_max fold_right] in Hd'. apply in_app_or in Hp. destruct Hp as [Hp|Hp].
      - destruct (IH e (pre ++ [i])) as [s ->]; auto; [unfold list_max in *; simpl in Hd'; lia|].
        exists (i :: s). now rewrite <- app_assoc.
      - apply (IHe (S i)); auto. unfold list_max in *; simpl in Hd'; lia. }
    intros n pre. eapply Hg. apply le_n.
  Qed.
  Lemma pathsfrom_prefix q pre es : forall i, In q (pathsfrom pre i es) ->
    exists j s, i <= j < i + length es /\ q = pre ++ j :: s.
  Proof.
    induction es as [|e es IH]; intros i H; cbn [pathsfrom] in H; [contradiction|].
    apply in_app_or in H. destruct H as [H|H].
    - apply allpaths_prefix in H. destruct H as [s ->]. exists i, s. simpl. split; [lia|]. now rewrite <- app_assoc.
    - destruct (IH _ H) as (j & s & Hj & ->). exists j, s. simpl. split; [lia|auto].
  Qed.
  Lemma lpaths_dless q c : In q (lpaths c) -> dless q (cpath c).
  Proof.
    induction c as [|f c IH]; cbn [lpaths]; intros H; [contradiction|].
    rewrite cpath_cons. apply in_app_or in H. destruct H as [H|H].
    - apply dless_app_r. auto.
    - apply pathsfrom_prefix in H. destruct H as (j & s & Hj & ->). exists (cpath c), j, (fidx f), s, [].
      repeat split; auto. unfold fidx. lia.
  Qed.
  Lemma rpaths_dless q c : In q (rpaths c) -> dless (cpath c) q.
  Proof.
    induction c as [|f c IH]; cbn [rpaths]; intros H; [contradiction|].
    rewrite cpath_cons. apply in_app_or in H. destruct H as [H|H].
    - apply pathsfrom_prefix in H. destruct H as (j & s & Hj & ->). exists (cpath c), (fidx f), j, [], s.
      repeat split; auto. lia.
    - apply dless_app_l. auto.
  Qed.
  Lemma spine_prefix q c : In q (spine c) -> exists s, cpath c = q ++ s.
  Proof.
    induction c as [|f c IH]; cbn [spine]; intros [<-|H]; try (exists []; now rewrite app_nil_r).
    - destruct (IH H) as [s E]. rewrite cpath_cons, E. exists (s ++ [fidx f]). now rewrite <- app_assoc.
  Qed.
  Lemma spine_length c q : In q (spine c) -> length q <= length c.
  Proof.
    intros H. apply spine_prefix in H. destruct H as [s E]. apply (f_equal (@length _)) in E.
    unfold cpath in E. rewrite rev_length, map_length, app_length in E. lia.
  Qed.
  Lemma spine_NoDup c : NoDup (spine c).
  Proof.
    induction c as [|f c IH]; cbn [spine]; constructor; auto; try constructor.
    intros H. apply spine_length in H. unfold cpath in H. rewrite rev_length, map_length in H. simpl in H. lia.
  Qed.
  Lemma spine_alive_ok freed c : (forall q, In q (spine c) -> ~ In q freed) -> spine_alive freed c = true.
  Proof.
    induction c as [|f c IH]; cbn [spine spine_alive]; intros H.
    - destruct (freed_mem_spec (cpath ([] : ctx)) freed); auto. exfalso. eapply H; [|exact i]. now left.
    - destruct (freed_mem_spec (cpath (f :: c)) freed); [exfalso; eapply H; [|exact i]; now left|].
      apply IH. intros q Hq. apply H. now right.
  Qed.
  Lemma dealloc_all_ok l : forall freed, NoDup l -> (forall q, In q l -> ~ In q freed) ->
    dealloc_all false l freed = Some (rev l ++ freed).
  Proof.
    induction l as [|p l IH]; intros freed Hn Hd; cbn [dealloc_all orb]; auto.
    destruct (freed_mem_spec p freed); [exfalso; eapply Hd; [|exact i]; now left|].
    inversion Hn; subst. rewrite IH; auto.
    - cbn [rev]. now rewrite <- app_assoc.
    - intros q Hq [<-|Hi]; [contradiction|]. eapply Hd; [|exact Hi]. now right.
  Qed.

  (** ** First and last leaf below a node *)
  Lemma first_leaf h : forall n c, kids any h n -> cok any anyR h c ->
    exists lf, first_leaf_edge h n c = Some lf /\ leaf_edge (h + length c) (plug n c) lf /\ hi lf = 0 /\
      cbefore (hc lf) = cbefore c /\ lpaths (hc lf) = lpaths c.
  Proof.
    induction h as [|h IH]; intros n c Hk Hc.
    - exists (Handle n 0 c 0). cbn [first_leaf_edge hc hi]. repeat (split; auto); cbn [hn hh hc hi]; auto; try lia.
      apply bound_any.
    - cbn [first_leaf_edge]. destruct (@descend_ok K V any h n 0 Hk ltac:(lia)) as (e & f & Hd). rewrite Hd.
      destruct (@cok_descend K V any anyR h n 0 e f c (bound_any _ _ _) Hk Hc Hd) as (_ & Hk' & Hc' & Hp').
      destruct (@descend_kids K V any anyR h n 0 e f Hk Hd) as (En & Hfi & Hfo & _).
      destruct (IH e (f :: c) Hk' Hc') as (lf & E & Hl & Hi & Hcb & Hlp).
      exists lf. split; auto. split.
      { rewrite <- Hp'. now replace (S h + length c) with (h + length (f :: c)) by (simpl; lia). }
      split; auto. assert (Hz : fl f = []) by (unfold fidx in Hfi; destruct (fl f); [auto|discriminate]).
      rewrite Hcb, Hlp. cbn [cbefore lpaths]. unfold before. rewrite Hz. cbn [pathsfrom map wl]. now rewrite !app_nil_r.
  Qed.
  Lemma last_leaf h : forall n c, kids any h n -> cok any anyR h c ->
    exists lf, last_leaf_edge h n c = Some lf /\ leaf_edge (h + length c) (plug n c) lf /\ hi lf = nlen (hn lf) /\
      pos lf = length (cbefore c) + length (inorder n) /\ rpaths (hc lf) = rpaths c.
  Proof.
    induction h as [|h IH]; intros n c Hk Hc.
    - exists (Handle n 0 c (nlen n)). cbn [last_leaf_edge hc hi hn]. repeat (split; auto); cbn [hn hh hc hi]; auto; try lia.
      + apply bound_any.
      + unfold pos. cbn [hc hi]. rewrite leaf_inorder by auto. reflexivity.
    - cbn [last_leaf_edge]. destruct (@descend_ok K V any h n (nlen n) Hk ltac:(lia)) as (e & f & Hd). rewrite Hd.
      destruct (@cok_descend K V any anyR h n (nlen n) e f c (bound_any _ _ _) Hk Hc Hd) as (_ & Hk' & Hc' & Hp').
      destruct (@descend_kids K V any anyR h n (nlen n) e f Hk Hd) as (En & Hfi & Hfo & _ & _ & _ & Hfk).
      destruct (IH e (f :: c) Hk' Hc') as (lf & E & Hl & Hi & Hps & Hrp).
      exists lf. split; auto. split.
      { rewrite <- Hp'. now replace (S h + length c) with (h + length (f :: c)) by (simpl; lia). }
      split; auto. assert (Hz : fr f = []).
      { unfold frame_ok in Hfo. unfold nlen, fidx in Hfi. rewrite Hfk in Hfo. destruct (fr f); auto. simpl in Hfo. lia. }
      rewrite Hps, Hrp. rewrite En at 1. rewrite inorder_fill by auto. cbn [cbefore rpaths].
      unfold after. rewrite Hz. cbn [pathsfrom map app]. rewrite !app_length.
      split; auto. destruct (skipn (fidx f) (fk f)); cbn [wr length]; lia.
  Qed.
End Iter.
