(** * HeapNode: the operations of node.rs on one node or on a pair of siblings
    keep the heap a representation of the tree, and are free of undefined
    behaviour. *)
From Coq Require Import List Arith Lia Bool Permutation.
From Verif Require Import Base BTreeModel BTreeInv HeapModel HeapArr HeapRep HeapWp.
Import ListNotations.
Set Implicit Arguments.
Unset Strict Implicit.

Section NodeOps.
  Variables (K V : Type).
  Notation kv := (K * V)%type.
  Notation cell := (cell K V).
  Notation heap := (heap K V).
  Notation HM := (HM K V).
  Notation ltree := (ltree K V).
  Implicit Types (hp : heap) (c : cell) (r : nref) (t e : ltree).

  (** the link of [l] to its parent is untouched *)
  Definition keeps hp hp' (l : loc) : Prop := forall par, hung hp l par -> hung hp' l par.

  Lemma keeps_refl hp l : keeps hp hp l.
  Proof. intros par H. exact H. Qed.
  Lemma keeps_trans hp hp1 hp2 l : keeps hp hp1 l -> keeps hp1 hp2 l -> keeps hp hp2 l.
  Proof. intros H1 H2 par H. auto. Qed.
  Lemma keeps_get hp hp' l : hget hp' l = hget hp l -> keeps hp hp' l.
  Proof. intros E par (c & G & L). exists c. rewrite E. auto. Qed.
  Lemma keeps_cell hp hp' l c c' :
    hget hp l = Some c -> hget hp' l = Some c' -> cpar c' = cpar c -> cpidx c' = cpidx c -> keeps hp hp' l.
  Proof.
    intros G G' E1 E2 par (c0 & G0 & L1 & L2). rewrite G in G0. injection G0 as <-.
    exists c'. split; [exact G'|]. split; [congruence|]. intros p i E. rewrite E2. eauto.
  Qed.

  (** what is allocated and not in the footprint stays *)
  Lemma frame_locs hp ts hp' ts' x c : evolves hp ts hp' ts' -> hget hp x = Some c -> ~ In x (flocs ts) ->
    ~ In x (flocs ts') /\ hget hp' x = hget hp x.
  Proof.
    intros [O F D N] G Hn. assert (~ In x (flocs ts')) as Hn'.
    { intro Q. rewrite (N _ Q Hn) in G. discriminate. }
    split; auto.
  Qed.

  Lemma perm_mid (A : Type) (l : A) (a t z u : list A) :
    Permutation ((l :: a ++ t ++ z) ++ u) ((t ++ u) ++ l :: a ++ z).
  Proof.
    cbn. etransitivity; [|apply Permutation_middle]. constructor.
    rewrite <- !app_assoc. etransitivity; [apply Permutation_app_swap_app|].
    apply Permutation_app_head. rewrite !app_assoc. etransitivity; [apply Permutation_app_comm|]. now rewrite app_assoc.
  Qed.

  Lemma owned_child hp l ks a t z us :
    owned hp (LN l ks (a ++ t :: z) :: us) ->
    owned hp (t :: us) /\ hung hp (lroot t) (Some (l, length a)) /\ l <> sroot /\
    (exists c, hget hp l = Some c /\ content c true ks (map (@lroot K V) (a ++ t :: z))) /\
    kids_ok hp l 0 a /\ kids_ok hp l (S (length a)) z /\
    NoDup (l :: flocs a ++ flocs z) /\
    (forall x, In x (flocs (t :: us)) -> ~ In x (l :: flocs a ++ flocs z)).
  Proof.
    intros [H1 H2]. inversion H1 as [|? ? Hb Hu]; subst. apply body_eq in Hb as (N & Hc & Hk).
    assert (is_int (a ++ t :: z) = true) as Hi by now destruct a. rewrite Hi in Hc.
    apply kids_app in Hk as [Ka Kt]. cbn [kids_ok Nat.add] in Kt. destruct Kt as (Ht & Hbt & Kz).
    assert (NoDup ((locs t ++ flocs us) ++ l :: flocs a ++ flocs z)) as ND.
    { eapply Permutation_NoDup; [|exact H2]. rewrite flocs_cons, locs_eq, flocs_app, flocs_cons. apply perm_mid. }
    apply nodup_app in ND as (N1 & N2 & N3).
    split; [constructor; [constructor; auto|exact N1]|]. repeat (split; [assumption|]). assumption.
  Qed.

  (** a change below an edge is a change of the whole *)
  Lemma evolves_child hp l ks a t z us hp' t' us' :
    owned hp (LN l ks (a ++ t :: z) :: us) ->
    evolves hp (t :: us) hp' (t' :: us') -> lroot t' = lroot t -> keeps hp hp' (lroot t) ->
    evolves hp (LN l ks (a ++ t :: z) :: us) hp' (LN l ks (a ++ t' :: z) :: us') /\ hget hp' l = hget hp l.
  Proof.
    intros O E R Kp. destruct (owned_child O) as (Ot & Ht & N & (c & G & C) & Ka & Kz & ND & D).
    assert (forall x, In x (l :: flocs a ++ flocs z) -> exists cx, hget hp x = Some cx) as AL.
    { intros x [<- | Hx]; [eauto|]. apply in_app_or in Hx as [Hx | Hx].
      - apply (bodies_alive (kids_body Ka) Hx).
      - apply (bodies_alive (kids_body Kz) Hx). }
    assert (forall x, In x (l :: flocs a ++ flocs z) -> ~ In x (flocs (t' :: us')) /\ hget hp' x = hget hp x) as FR.
    { intros x Hx. destruct (AL x Hx) as [cx Gx]. eapply frame_locs; [exact E|exact Gx|]. intro Q. exact (D x Q Hx). }
    destruct (FR l (or_introl eq_refl)) as [_ Gl]. split; [|exact Gl].
    destruct E as [[Eb End] EF ED EN].
    assert (forall x, In x (flocs (LN l ks (a ++ t' :: z) :: us')) <-> In x (flocs (t' :: us')) \/ In x (l :: flocs a ++ flocs z)) as M'.
    { intro x. rewrite <- in_app_iff. rewrite (flocs_cons t'). split; apply Permutation_in; [|symmetry];
      rewrite flocs_cons, locs_eq, flocs_app, flocs_cons; apply perm_mid. }
    assert (forall x, In x (flocs (LN l ks (a ++ t :: z) :: us)) <-> In x (flocs (t :: us)) \/ In x (l :: flocs a ++ flocs z)) as M.
    { intro x. rewrite <- in_app_iff. rewrite (flocs_cons t). split; apply Permutation_in; [|symmetry];
      rewrite flocs_cons, locs_eq, flocs_app, flocs_cons; apply perm_mid. }
    constructor.
    - constructor.
      + inversion Eb as [|? ? Hbt' Hu']; subst. constructor; [|exact Hu'].
        apply body_eq. split; [exact N|]. split.
        * exists c. rewrite Gl. split; [exact G|]. assert (is_int (a ++ t' :: z) = true) as -> by now destruct a.
          rewrite map_app in *. cbn [map] in *. rewrite R. exact C.
        * apply kids_app. split.
          -- apply (kids_ext Ka). intros x Hx. apply FR. right. apply in_or_app. now left.
          -- cbn [kids_ok Nat.add]. split; [rewrite R; now apply Kp|]. split; [exact Hbt'|].
             apply (kids_ext Kz). intros x Hx. apply FR. right. apply in_or_app. now right.
      + eapply Permutation_NoDup; [symmetry; rewrite flocs_cons, locs_eq, flocs_app, flocs_cons; apply perm_mid|].
        apply nodup_app. split; [exact End|]. split; [exact ND|]. intros x Hx Hx'. destruct (FR x Hx') as [Q _]. auto.
    - intros x H1 H2. rewrite M in H1. rewrite M' in H2. apply EF; tauto.
    - intros x H1 H2. rewrite M in H1. rewrite M' in H2. apply ED; tauto.
    - intros x H1 H2. rewrite M' in H1. rewrite M in H2. apply EN; tauto.
  Qed.

  (** ** A change of one cell that keeps the edges *)
  Lemma evolves_cell hp hp' l ks ks' es c' :
    owned hp [LN l ks es] -> hup hp l (Some c') hp' -> content c' (is_int es) ks' (map (@lroot K V) es) ->
    evolves hp [LN l ks es] hp' [LN l ks' es].
  Proof.
    intros [Hb ND] U C. inversion Hb as [|? ? Hb0 _]; subst. apply body_eq in Hb0 as (N & _ & Hk).
    unfold flocs in *. cbn [flat_map] in *. rewrite app_nil_r in *. rewrite !locs_eq in *.
    inversion ND as [|? ? ND1 ND2]; subst.
    assert (flocs [LN l ks es] = flocs [LN l ks' es]) as F.
    { unfold flocs. cbn [flat_map]. now rewrite !app_nil_r. }
    constructor.
    - constructor.
      + constructor; [|constructor]. apply body_eq. split; [exact N|]. split; [exists c'; split; [apply (hup_same U)|exact C]|].
        apply (kids_ext Hk). intros x Hx. apply (hup_other U). intros ->. contradiction.
      + unfold flocs. cbn [flat_map]. rewrite app_nil_r, locs_eq. exact ND.
    - intros x H1 _. apply (hup_other U). intros ->. apply H1. left. reflexivity.
    - intros x H1 H2. rewrite F in H1. contradiction.
    - intros x H1 H2. rewrite F in H2. contradiction.
  Qed.

  (** ** Cell level: insertion of a pair (leaf or internal node) *)
  Lemma map_slice_insert (A C : Type) (f : A -> C) i x l : map f (slice_insert i x l) = slice_insert i (f x) (map f l).
  Proof. unfold slice_insert. rewrite map_app. cbn [map]. now rewrite firstn_map, skipn_map. Qed.
  Lemma length_slice_insert (A : Type) i (x : A) l : length (slice_insert i x l) = S (length l).
  Proof.
    unfold slice_insert. rewrite app_length. cbn. rewrite <- (firstn_skipn i l) at 3. rewrite app_length. lia.
  Qed.

  (** the pair arrays hold [ks] *)
  Definition pairs c (ks : list kv) : Prop :=
    holds (ckeys c) (map fst ks) CAPACITY /\ holds (cvals c) (map snd ks) CAPACITY.

  Lemma wp_leaf_insert_fit r i x c ks hp (Q : loc * nat -> heap -> Prop) :
    rl r <> sroot -> hget hp (rl r) = Some c -> pairs c ks -> clen c = length ks ->
    i <= length ks -> length ks < CAPACITY ->
    (forall ka va hp', hup hp (rl r) (Some (Cell (cint c) (cpar c) (cpidx c) (S (length ks)) ka va (cedges c))) hp' ->
       holds ka (map fst (slice_insert i x ks)) CAPACITY -> holds va (map snd (slice_insert i x ks)) CAPACITY ->
       Q (rl r, i) hp') ->
    wp (h_leaf_insert_fit r i x) hp Q.
  Proof.
    intros N G [PK PV] L Li Lc H.
    destruct (@slice_insert_holds K _ _ _ i (fst x) PK) as (ka & Ek & Hk); [now rewrite map_length|now rewrite map_length|].
    destruct (@slice_insert_holds V _ _ _ i (snd x) PV) as (va & Ev & Hv); [now rewrite map_length|now rewrite map_length|].
    rewrite map_length in Ek, Ev.
    st wp_len; [exact G|]. rewrite L. st wp_check; [now apply Nat.ltb_lt|]. st wp_not_shared; [exact N|].
    st wp_keys; [exact G|exact PK|now rewrite map_length|].
    st wp_slice_ins; [exact N|exact G|exact Ek|]. intros hp1 U1. cbn in U1.
    st wp_vals; [exact N|hgs|exact PV|cbn; now rewrite map_length|].
    st wp_slice_ins; [exact N|hgs|exact Ev|]. intros hp2 U2. cbn in U2.
    st wp_len_add; [exact N|hgs|]. intros hp3 U3. cbn in U3. unfold with_len in U3. cbn in U3.
    rewrite <- map_slice_insert in Hk, Hv.
    st wp_vals; [exact N|hgs|exact Hv|cbn; rewrite map_length, length_slice_insert; lia|].
    apply wp_ret. apply H with (ka := ka) (va := va); auto.
    rewrite L, Nat.add_1_r in U3. exact (hup_trans (hup_trans U1 U2) U3).
  Qed.

  (** ** Putting a changed forest together *)
  Lemma kids_iff hp l i es :
    kids_ok hp l i es <-> Forall (body hp) es /\
      forall j x, nth_error (map (@lroot K V) es) j = Some x -> hung hp x (Some (l, i + j)).
  Proof.
    revert i. induction es as [|e es IH]; intro i; cbn [kids_ok map].
    - split; [|tauto]. intros _. split; [constructor|]. intros [|j] x Hx; discriminate Hx.
    - rewrite IH. split.
      + intros (H1 & H2 & H3 & H4). split; [constructor; auto|]. intros [|j] x Hx; cbn in Hx.
        * injection Hx as <-. now rewrite Nat.add_0_r.
        * replace (i + S j) with (S i + j) by lia. auto.
      + intros (H1 & H2). inversion H1; subst. split; [|split; [assumption|split; [assumption|]]].
        * rewrite <- (Nat.add_0_r i). apply H2. reflexivity.
        * intros j x Hx. replace (S i + j) with (i + S j) by lia. apply (H2 (S j)). exact Hx.
  Qed.

  (** subtrees that were not touched, except for the link of their roots *)
  Definition relinked hp hp' (S : list ltree) : Prop :=
    forall x, In x (flocs S) -> hget hp' x = hget hp x \/
      (In x (map (@lroot K V) S) /\ exists p i, hget hp' x = option_map (set_link p i) (hget hp x)).

  Lemma roots_in (S : list ltree) x : In x (map (@lroot K V) S) -> In x (flocs S).
  Proof. intro H. apply in_map_iff in H as (t & <- & Ht). apply in_flocs. exists t. split; [exact Ht|apply root_in]. Qed.

  Lemma relinked_bodies hp hp' S : Forall (body hp) S -> NoDup (flocs S) -> relinked hp hp' S -> Forall (body hp') S.
  Proof.
    intros H ND R. rewrite Forall_forall in *. intros t Ht. specialize (H t Ht).
    assert (NoDup (locs t) /\ forall x, In x (locs t) -> In x (map (@lroot K V) S) -> x = lroot t) as [ND1 D].
    { apply in_split in Ht as (a & z & ->). rewrite flocs_app, flocs_cons in ND.
      apply nodup_app in ND as (N1 & N2 & N3). apply nodup_app in N2 as (N4 & N5 & N6). split; [exact N4|].
      intros x Hx Hr. rewrite map_app in Hr. apply in_app_or in Hr as [Hr | [Hr | Hr]]; [| congruence |].
      - destruct (N3 x); [now apply roots_in|]. apply in_or_app. now left.
      - destruct (N6 x Hx). now apply roots_in. }
    assert (forall x, In x (locs t) -> In x (flocs S)) as I by (intros x Hx; apply in_flocs; eauto).
    destruct (body_root H) as (_ & c & G & _).
    destruct (R (lroot t) (I _ (root_in t))) as [E | (_ & p & i & E)].
    - apply (body_ext H). intros x Hx. destruct (R x (I x Hx)) as [E' | (Hr & _)]; [exact E'|].
      rewrite (D x Hx Hr). exact E.
    - rewrite G in E. cbn in E. eapply body_relink; eauto. intros x Hx Hn.
      destruct (R x (I x Hx)) as [E' | (Hr & _)]; [exact E'|]. destruct Hn. auto.
  Qed.

  Lemma assemble hp hp' ts ts' T T' S :
    owned hp ts -> Permutation (flocs ts) (T ++ flocs S) -> Permutation (flocs ts') (T' ++ flocs S) ->
    NoDup T' -> (forall x, In x T' -> ~ In x T -> hget hp x = None) ->
    (forall x, In x T -> ~ In x T' -> hget hp' x = None) ->
    (forall x, ~ In x T -> ~ In x T' -> ~ In x (flocs S) -> hget hp' x = hget hp x) ->
    Forall (body hp) S -> relinked hp hp' S ->
    (Forall (body hp') S -> Forall (body hp') ts') ->
    evolves hp ts hp' ts'.
  Proof.
    intros [Hb ND] P P' NT Hnew Hfreed Hframe HS R HB.
    assert (NoDup (T ++ flocs S)) as ND1 by (eapply Permutation_NoDup; eauto).
    apply nodup_app in ND1 as (N1 & N2 & N3).
    pose proof (relinked_bodies HS N2 R) as HS'.
    assert (forall x, In x (flocs ts) <-> In x T \/ In x (flocs S)) as M.
    { intro x. rewrite <- in_app_iff. split; apply Permutation_in; [exact P|now symmetry]. }
    assert (forall x, In x (flocs ts') <-> In x T' \/ In x (flocs S)) as M'.
    { intro x. rewrite <- in_app_iff. split; apply Permutation_in; [exact P'|now symmetry]. }
    constructor.
    - constructor; [auto|]. eapply Permutation_NoDup; [symmetry; exact P'|]. apply nodup_app. split; [exact NT|].
      split; [exact N2|]. intros x H1 H2. destruct (in_dec Nat.eq_dec x T) as [I | I]; [exact (N3 x I H2)|].
      destruct (bodies_alive HS H2) as (_ & c & G). rewrite (Hnew x H1 I) in G. discriminate G.
    - intros x H1 H2. rewrite M in H1. rewrite M' in H2. apply Hframe; tauto.
    - intros x H1 H2. rewrite M in H1. rewrite M' in H2. apply Hfreed; tauto.
    - intros x H1 H2. rewrite M' in H1. rewrite M in H2. apply Hnew; tauto.
  Qed.

  (** what is known about one node *)
  Lemma owned_node hp l ks es us :
    owned hp (LN l ks es :: us) ->
    l <> sroot /\ (exists c, hget hp l = Some c /\ content c (is_int es) ks (map (@lroot K V) es)) /\
    kids_ok hp l 0 es /\ NoDup (flocs es) /\ ~ In l (flocs es) /\ ~ In l (flocs us) /\ owned hp us /\
    (forall x, In x (flocs es) -> ~ In x (flocs us)).
  Proof.
    intros [Hb ND]. inversion Hb as [|? ? Hb0 Hu]; subst. apply body_eq in Hb0 as (N & Hc & Hk).
    rewrite flocs_cons, locs_eq in ND. cbn in ND. inversion ND as [|? ? N1 N2]; subst.
    apply nodup_app in N2 as (N3 & N4 & N5). rewrite in_app_iff in N1.
    repeat (split; [first [assumption | tauto | constructor; assumption]|]). assumption.
  Qed.

  Lemma keeps_hup hp hp' l c c' : hget hp l = Some c -> hup hp l (Some c') hp' -> cpar c' = cpar c -> cpidx c' = cpidx c -> keeps hp hp' l.
  Proof. intros G U E1 E2. eapply keeps_cell; eauto. apply (hup_same U). Qed.

  (** *** Insertion into a leaf *)
  Lemma leaf_insert_fit_ok l h i x ks hp :
    owned hp [LN l ks []] -> i <= length ks -> length ks < CAPACITY ->
    wp (h_leaf_insert_fit (NR h l) i x) hp (fun p hp' =>
      p = (l, i) /\ evolves hp [LN l ks []] hp' [LN l (slice_insert i x ks) []] /\ keeps hp hp' l).
  Proof.
    intros O Li Lc. destruct (owned_node O) as (N & (c & G & C) & _). destruct C as [C1 C2 C3 C4 C5 C6].
    eapply wp_leaf_insert_fit; eauto; [now split|]. cbn [rl]. intros ka va hp' U Hk Hv. split; [reflexivity|]. split.
    - eapply evolves_cell; [exact O|exact U|]. constructor; cbn; auto. now rewrite length_slice_insert.
    - eapply keeps_hup; [exact G|exact U|reflexivity|reflexivity].
  Qed.

  (** *** The children after correct_childrens_parent_links of a suffix *)
  Lemma relinks_hung hp0 l first els hp' k x :
    relinks hp0 l first els hp' -> nth_error els k = Some x -> (exists c, hget hp0 x = Some c) -> hung hp' x (Some (l, first + k)).
  Proof.
    intros [_ R] Hk (c & G). specialize (R k x Hk). rewrite G in R. cbn in R. eexists. split; [exact R|].
    split; [reflexivity|]. intros p i E. injection E as _ <-. reflexivity.
  Qed.

  Lemma kids_suffix hp hp0 hp' l a z :
    kids_ok hp l 0 a -> (forall x, In x (map (@lroot K V) a) -> hget hp' x = hget hp x) ->
    relinks hp0 l (length a) (map (@lroot K V) z) hp' ->
    (forall x, In x (map (@lroot K V) z) -> exists c, hget hp0 x = Some c) ->
    Forall (body hp') (a ++ z) -> kids_ok hp' l 0 (a ++ z).
  Proof.
    intros Ka E R AL HB. apply kids_iff. split; [exact HB|]. intros j x Hj. rewrite map_app in Hj.
    apply kids_iff in Ka as [_ Ka]. destruct (Nat.lt_ge_cases j (length a)) as [L | L].
    - rewrite nth_error_app1 in Hj by now rewrite map_length. cbn [Nat.add].
      eapply keeps_get; [apply E; eapply nth_error_In; eauto|]. exact (Ka j x Hj).
    - rewrite nth_error_app2 in Hj by now rewrite map_length. rewrite map_length in Hj.
      replace (0 + j) with (length a + (j - length a)) by lia.
      eapply relinks_hung; eauto. apply AL. eapply nth_error_In; eauto.
  Qed.

  Lemma nodup_roots (S : list ltree) : NoDup (flocs S) -> NoDup (map (@lroot K V) S).
  Proof.
    induction S as [|t S IH]; intro ND; [constructor|]. rewrite flocs_cons in ND. apply nodup_app in ND as (N1 & N2 & N3).
    cbn. constructor; [|auto]. intro Q. apply (N3 (lroot t)); [apply root_in|now apply roots_in].
  Qed.

  (** the roots of owned trees, seen from a heap that only differs at [l] *)
  Lemma roots_alive hp (S : list ltree) x : Forall (body hp) S -> In x (map (@lroot K V) S) -> x <> sroot /\ exists c, hget hp x = Some c.
  Proof. intros H Hx. apply (bodies_alive H). now apply roots_in. Qed.


  (** equal up to the link to the parent *)
  Definition linkeq (a b : option cell) : Prop := b = a \/ exists p i, b = option_map (set_link p i) a.
  Lemma linkeq_refl a : linkeq a a.
  Proof. now left. Qed.
  Lemma linkeq_trans a b d : linkeq a b -> linkeq b d -> linkeq a d.
  Proof.
    intros [-> | (p & i & ->)] [-> | (p' & i' & ->)]; [now left|right; eauto|right; eauto|].
    right. exists p', i'. now destruct a.
  Qed.
  Lemma relinks_linkeq hp l first els hp' x : relinks hp l first els hp' -> linkeq (hget hp x) (hget hp' x).
  Proof.
    intros [R1 R2]. destruct (in_dec Nat.eq_dec x els) as [I | I].
    - right. apply In_nth_error in I as (k & E). eauto.
    - left. auto.
  Qed.

  (** the addresses an operation looks at: its nodes [T] and the roots of the
      trees [S] below them *)
  Lemma prep hp ts T S :
    owned hp ts -> Permutation (flocs ts) (T ++ flocs S) ->
    NoDup (T ++ map (@lroot K V) S) /\
    (forall x, In x (T ++ map (@lroot K V) S) -> x <> sroot /\ exists c, hget hp x = Some c).
  Proof.
    intros [Hb ND] P. assert (NoDup (T ++ flocs S)) as ND1 by (eapply Permutation_NoDup; eauto). split.
    - apply nodup_app in ND1 as (N1 & N2 & N3). apply nodup_app. split; [exact N1|]. split; [now apply nodup_roots|].
      intros x H1 H2. apply (N3 x H1). now apply roots_in.
    - intros x Hx. apply (bodies_alive Hb). eapply Permutation_in; [symmetry; exact P|].
      apply in_app_or in Hx as [Hx | Hx]; apply in_or_app; [now left|right; now apply roots_in].
  Qed.

  Lemma assemble2 hp hp' ts ts' T T' S :
    owned hp ts -> Permutation (flocs ts) (T ++ flocs S) -> Permutation (flocs ts') (T' ++ flocs S) ->
    NoDup T' -> (forall x, In x T' -> ~ In x T -> hget hp x = None) ->
    (forall x, In x T -> ~ In x T' -> hget hp' x = None) ->
    (forall x, ~ In x T -> ~ In x T' -> ~ In x (map (@lroot K V) S) -> hget hp' x = hget hp x) ->
    (forall x, In x (map (@lroot K V) S) -> linkeq (hget hp x) (hget hp' x)) ->
    Forall (body hp) S -> 
    (Forall (body hp') S -> Forall (body hp') ts') ->
    evolves hp ts hp' ts'.
  Proof.
    intros O P P' NT Hnew Hfreed Hframe Hlk HS HB.
    assert (NoDup (T ++ flocs S)) as ND by (eapply Permutation_NoDup; [exact P|apply O]).
    apply nodup_app in ND as (N1 & N2 & N3).
    eapply assemble with (T := T) (T' := T') (S := S); auto.
    - intros x H1 H2 H3. apply Hframe; auto. intro Q. apply H3. now apply roots_in.
    - intros x Hx. destruct (in_dec Nat.eq_dec x (map (@lroot K V) S)) as [I | I].
      + destruct (Hlk x I) as [E | E]; [now left|right; auto].
      + left. apply Hframe; [intro Q; exact (N3 x Q Hx)| |exact I].
        intro Q. destruct (in_dec Nat.eq_dec x T) as [J | J]; [exact (N3 x J Hx)|].
        destruct (bodies_alive HS Hx) as (_ & c & G). rewrite (Hnew x Q J) in G. discriminate G.
  Qed.
End NodeOps.

(** disjointness of addresses *)
Ltac explode := repeat match goal with
  | H : NoDup (_ :: _) |- _ => apply NoDup_cons_iff in H; destruct H
  | H : NoDup (_ ++ _) |- _ => apply nodup_app in H; destruct H as (? & ? & ?)
  | H : NoDup [] |- _ => clear H
  end.
Ltac spec_dis y := repeat match goal with
  | H : forall x, In x _ -> ~ In x _ |- _ => specialize (H y)
  end.
Ltac memn := rewrite ?map_app, ?in_app_iff in *; cbn [map In app] in *; rewrite ?in_app_iff in *.
Ltac dis y := solve [spec_dis y; repeat (progress memn); (tauto || intuition congruence)].
