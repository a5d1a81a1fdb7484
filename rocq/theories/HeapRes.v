(** * HeapRes: the pieces a heap is made of.  Besides whole trees there are
    trees that an IntoIter is taking apart and nodes that were lost. *)
From Coq Require Import List Arith Lia Bool Permutation.
From Verif Require Import Base MapSpec BTreeModel BTreeInv BTreeLemmas BTreeInsert BTreeIterModel BTreeIter.
From Verif Require Import HeapModel HeapArr HeapRep HeapWp HeapNode HeapOps HeapOps2 HeapOps3 HeapOps4 HeapZip HeapRemove HeapSearch HeapInsert.
Import ListNotations.
Set Implicit Arguments.
Unset Strict Implicit.

Section Res.
  Variables (K V : Type).
  Notation kv := (K * V)%type.
  Notation cell := (cell K V).
  Notation heap := (heap K V).
  Notation HM := (HM K V).
  Notation ltree := (ltree K V).
  Notation lroot := (@lroot K V).
  Notation erase := (@erase K V).
  Implicit Types (hp : heap).

  (** the nodes of a tree: path and address *)
  Fixpoint nodes (pre : path) (t : ltree) : list (path * loc) :=
    let 'LN l _ es := t in
    (pre, l) :: (fix go i es := match es with [] => [] | e :: es' => nodes (pre ++ [i]) e ++ go (S i) es' end) 0 es.
  Fixpoint nodesfrom (pre : path) (i : nat) (es : list ltree) : list (path * loc) :=
    match es with [] => [] | e :: es' => nodes (pre ++ [i]) e ++ nodesfrom pre (S i) es' end.
  Lemma nodes_eq pre l ks es : nodes pre (LN l ks es) = (pre, l) :: nodesfrom pre 0 es.
  Proof. cbn [nodes]. f_equal. generalize 0. induction es as [|e es IH]; intro i; cbn [nodesfrom]; auto. now rewrite IH. Qed.

  Lemma nodes_fst t : forall pre, map fst (nodes pre t) = allpaths pre (erase t).
  Proof.
    induction t as [l ks es IH] using ltree_ind2. intro pre. rewrite nodes_eq, allpaths_eq. cbn [map fst erase edges]. f_equal.
    generalize 0. induction IH as [|e es He _ IHes]; intro i; [reflexivity|]. cbn [nodesfrom map pathsfrom]. rewrite map_app, He, IHes. reflexivity.
  Qed.
  Lemma nodes_snd t : forall pre, map snd (nodes pre t) = locs t.
  Proof.
    induction t as [l ks es IH] using ltree_ind2. intro pre. rewrite nodes_eq, locs_eq. cbn [map snd]. f_equal.
    generalize 0. unfold flocs. induction IH as [|e es He _ IHes]; intro i; [reflexivity|]. cbn [nodesfrom flat_map]. rewrite map_app, He, IHes. reflexivity.
  Qed.
  Lemma nodes_lat p : forall t s pre, lat t p = Some s -> In (pre ++ p, lroot s) (nodes pre t).
  Proof.
    induction p as [|j p IH]; intros [l ks es] s pre H; cbn [lat les] in H.
    - injection H as <-. rewrite app_nil_r. now left.
    - destruct (nth_error es j) as [e|] eqn:E; [|discriminate H]. rewrite nodes_eq. right.
      assert (forall i, In (pre ++ (i + j) :: p, lroot s) (nodesfrom pre i es)) as G.
      { clear ks l. revert j E. induction es as [|e0 es IHe]; intros [|j] E i; try discriminate E; cbn [nodesfrom]; apply in_or_app.
        - left. injection E as ->. rewrite Nat.add_0_r. replace (pre ++ i :: p) with ((pre ++ [i]) ++ p) by now rewrite <- app_assoc. now apply IH.
        - right. replace (i + S j) with (S i + j) by lia. now apply IHe. }
      exact (G 0).
  Qed.
  Lemma nodes_plug t s c : t = lplug s c -> In (cpath (ectx c), lroot s) (nodes [] t).
  Proof.
    intros ->. apply (@nodes_lat (cpath (ectx c)) (lplug s c) s []). rewrite <- (app_nil_r (cpath (ectx c))). rewrite lat_plug. reflexivity.
  Qed.
  Lemma nodup_fst A C (l : list (A * C)) a b x : NoDup (map snd l) -> In (a, x) l -> In (b, x) l -> a = b.
  Proof.
    induction l as [|[p y] l IH]; cbn [map snd In]; intros N Ha Hb; [contradiction|]. inversion N as [|? ? N1 N2]; subst.
    destruct Ha as [Ha | Ha], Hb as [Hb | Hb].
    - congruence.
    - exfalso. apply N1. injection Ha as -> ->. apply in_map_iff. exists (b, x). auto.
    - exfalso. apply N1. injection Hb as -> ->. apply in_map_iff. exists (a, x). auto.
    - auto.
  Qed.

  (** ** Resources *)
  Inductive res :=
  | Tree (t : ltree)                       (* a tree; the parent of its root is whatever it is *)
  | Root (t : ltree)                       (* a tree whose root has no parent *)
  | Part (t : ltree) (F : list path)       (* a tree without the nodes at the paths in [F] *)
  | Lost (ls : list loc).                  (* allocated nodes *)

  Definition live (F : list path) (x : path * loc) : bool := negb (freed_mem (fst x) F).
  Definition plocs (t : ltree) (F : list path) : list loc := map snd (filter (live F) (nodes [] t)).
  Definition rlocs (r : res) : list loc :=
    match r with Tree t | Root t => locs t | Part t F => plocs t F | Lost ls => ls end.
  Definition rflocs (rs : list res) : list loc := flat_map rlocs rs.

  Definition part_ok hp (t : ltree) (F : list path) : Prop :=
    NoDup (locs t) /\
    forall s c, t = lplug s c -> ~ In (cpath (ectx c)) F ->
      lroot s <> sroot /\ exists cl, hget hp (lroot s) = Some cl /\ content cl (is_int (les s)) (lks s) (map lroot (les s)) /\ linked cl (lpar c).
  Definition rok hp (r : res) : Prop :=
    match r with
    | Tree t => body hp t
    | Root t => body hp t /\ hung hp (lroot t) None
    | Part t F => part_ok hp t F
    | Lost ls => forall l, In l ls -> l <> sroot /\ exists c, hget hp l = Some c
    end.

  Lemma freed_mem_In p F : freed_mem p F = true <-> In p F.
  Proof.
    unfold freed_mem. rewrite existsb_exists. split.
    - intros (x & Hx & E). unfold path_eqb in E. destruct (list_eq_dec Nat.eq_dec p x); [now subst|discriminate E].
    - intro H. exists p. split; [exact H|]. unfold path_eqb. now destruct (list_eq_dec Nat.eq_dec p p).
  Qed.
  Lemma plocs_In t F l : In l (plocs t F) <-> exists p, In (p, l) (nodes [] t) /\ ~ In p F.
  Proof.
    unfold plocs. rewrite in_map_iff. split.
    - intros ([p l'] & <- & H). apply filter_In in H as [H1 H2]. exists p. split; [exact H1|]. intro H. apply freed_mem_In in H.
      unfold live in H2. cbn [fst] in H2. now rewrite H in H2.
    - intros (p & H1 & H2). exists (p, l). split; [reflexivity|]. apply filter_In. split; [exact H1|]. unfold live. cbn [fst].
      destruct (freed_mem p F) eqn:E; [apply freed_mem_In in E; contradiction|reflexivity].
  Qed.
  Lemma plocs_nil t : plocs t [] = locs t.
  Proof.
    unfold plocs. rewrite <- (nodes_snd t []). f_equal. induction (nodes [] t) as [|x l IH]; [reflexivity|]. cbn [filter live freed_mem existsb negb]. now rewrite IH.
  Qed.
  Lemma plocs_nodup t F : NoDup (locs t) -> NoDup (plocs t F).
  Proof.
    unfold plocs. rewrite <- (nodes_snd t []). induction (nodes [] t) as [|x l IH]; intro N; [constructor|]. cbn [map] in N. inversion N as [|? ? N1 N2]; subst.
    cbn [filter]. destruct (live F x); [|auto]. cbn [map]. constructor; [|auto]. intro H. apply N1. apply in_map_iff in H as (y & <- & Hy).
    apply filter_In in Hy as [Hy _]. apply in_map_iff. eauto.
  Qed.
  Lemma plocs_live t F s c : t = lplug s c -> ~ In (cpath (ectx c)) F -> In (lroot s) (plocs t F).
  Proof. intros E H. apply plocs_In. exists (cpath (ectx c)). split; [now apply nodes_plug|exact H]. Qed.

  Lemma rok_ext hp hp' r : rok hp r -> (forall x, In x (rlocs r) -> hget hp' x = hget hp x) -> rok hp' r.
  Proof.
    destruct r as [t|t|t F|ls]; cbn [rok rlocs].
    - intros B E. exact (body_ext B E).
    - intros [B (c & G & L)] E. split; [exact (body_ext B E)|]. exists c. split; [|exact L]. rewrite E by apply root_in. exact G.
    - intros [N H] E. split; [exact N|]. intros s c Et Hf. destruct (H s c Et Hf) as (H1 & cl & H2 & H3). split; [exact H1|].
      exists cl. split; [|exact H3]. rewrite E; [exact H2|]. now apply plocs_live with (c := c).
    - intros H E l Hl. destruct (H l Hl) as (H1 & c & H2). split; [exact H1|]. exists c. now rewrite E.
  Qed.
  Lemma rok_nodes t s c : t = lplug s c -> In (cpath (ectx c)) (map fst (nodes [] t)).
  Proof. intro E. apply in_map_iff. eexists. split; [|exact (nodes_plug E)]. reflexivity. Qed.
  Lemma nodes_ctx t : forall p l, In (p, l) (nodes [] t) -> exists s c, t = lplug s c /\ p = cpath (ectx c) /\ l = lroot s.
  Proof.
    assert (forall t c p l, In (p, l) (nodes (cpath (ectx c)) t) -> exists s c', lplug t c = lplug s c' /\ p = cpath (ectx c') /\ l = lroot s) as G.
    { clear t. intro t. induction t as [l0 ks es IH] using ltree_ind2. intros c p l H. rewrite nodes_eq in H. destruct H as [H | H].
      - injection H as <- <-. exists (LN l0 ks es), c. auto.
      - assert (forall a z, es = a ++ z -> In (p, l) (nodesfrom (cpath (ectx c)) (length a) z) ->
          exists s c', lplug (LN l0 ks es) c = lplug s c' /\ p = cpath (ectx c') /\ l = lroot s) as G.
        { clear H. intros a z. revert a. induction z as [|e z IHz]; intros a Ee H; [destruct H|]. cbn [nodesfrom] in H.
          apply in_app_or in H as [H | H].
          - rewrite Forall_forall in IH. specialize (IH e). rewrite Ee in IH at 1.
            destruct (IH ltac:(apply in_or_app; right; now left) (LF l0 ks a z :: c) p l) as (s & c' & E1 & E2 & E3).
            + cbn [ectx map]. fold (ectx c). rewrite cpath_cons, fidx_eframe. exact H.
            + exists s, c'. split; [|auto]. rewrite <- E1. cbn [lplug]. unfold lfill. cbn [lfl lfk lfa lfz]. now rewrite Ee.
          - apply (IHz (a ++ [e])); [now rewrite <- app_assoc|]. rewrite app_length. cbn [length]. now rewrite Nat.add_1_r. }
        exact (G [] es eq_refl H). }
    intros p l H. exact (G t [] p l H).
  Qed.
  Lemma rok_alive hp r x : rok hp r -> In x (rlocs r) -> x <> sroot /\ exists c, hget hp x = Some c.
  Proof.
    destruct r as [t|t|t F|ls]; cbn [rok rlocs].
    - apply body_alive.
    - intros [B _]. now apply body_alive.
    - intros [_ H] Hx. apply plocs_In in Hx as (p & Hp & HF). destruct (nodes_ctx Hp) as (s & c & E & -> & ->).
      destruct (H s c E HF) as (H1 & cl & H2 & _). eauto.
    - auto.
  Qed.

  Record own hp (rs : list res) : Prop := Own { on_ok : Forall (rok hp) rs; on_nodup : NoDup (rflocs rs) }.
  Record goes hp (rs : list res) hp' (rs' : list res) : Prop := Goes {
    go_own : own hp' rs';
    go_frame : forall l, ~ In l (rflocs rs) -> ~ In l (rflocs rs') -> hget hp' l = hget hp l;
    go_freed : forall l, In l (rflocs rs) -> ~ In l (rflocs rs') -> hget hp' l = None;
    go_new : forall l, In l (rflocs rs') -> ~ In l (rflocs rs) -> hget hp l = None
  }.

  Lemma goes_refl hp rs : own hp rs -> goes hp rs hp rs.
  Proof. intro O. constructor; auto; intros; contradiction. Qed.
  Lemma goes_trans hp ts hp1 ts1 hp2 ts2 : goes hp ts hp1 ts1 -> goes hp1 ts1 hp2 ts2 -> goes hp ts hp2 ts2.
  Proof.
    intros [O1 F1 D1 N1] [O2 F2 D2 N2]. constructor; [exact O2| | |]; intros l H1 H2.
    - destruct (in_dec Nat.eq_dec l (rflocs ts1)) as [I | I].
      + rewrite (D2 _ I H2). symmetry. auto.
      + rewrite (F2 _ I H2). auto.
    - destruct (in_dec Nat.eq_dec l (rflocs ts1)) as [I | I]; [auto|]. rewrite (F2 _ I H2). auto.
    - destruct (in_dec Nat.eq_dec l (rflocs ts1)) as [I | I]; [auto|]. rewrite <- (F1 _ H2 I). auto.
  Qed.
  Lemma rflocs_app a b : rflocs (a ++ b) = rflocs a ++ rflocs b.
  Proof. apply flat_map_app. Qed.
  Lemma own_app hp a b : own hp (a ++ b) <-> own hp a /\ own hp b /\ forall x, In x (rflocs a) -> ~ In x (rflocs b).
  Proof.
    split.
    - intros [H1 H2]. apply Forall_app in H1 as [A1 A2]. rewrite rflocs_app in H2. apply nodup_app in H2 as (B1 & B2 & B3).
      repeat split; auto.
    - intros ([A1 B1] & [A2 B2] & D). constructor; [apply Forall_app; auto|]. rewrite rflocs_app. apply nodup_app. auto.
  Qed.
  Lemma own_perm hp a b : Permutation a b -> own hp a -> own hp b.
  Proof.
    intros P [H1 H2]. constructor; [eapply Permutation_Forall; eauto|].
    eapply Permutation_NoDup; [|exact H2]. unfold rflocs. now apply Permutation_flat_map.
  Qed.
  Lemma rflocs_perm a b x : Permutation a b -> In x (rflocs a) -> In x (rflocs b).
  Proof. intros P H. eapply Permutation_in; [|exact H]. unfold rflocs. now apply Permutation_flat_map. Qed.
  Lemma goes_perm hp a hp' b a' b' : Permutation a a' -> Permutation b b' -> goes hp a hp' b -> goes hp a' hp' b'.
  Proof.
    intros Pa Pb [O F D N]. constructor.
    - exact (own_perm Pb O).
    - intros l H1 H2. apply F; intro H; [apply H1|apply H2]; eapply rflocs_perm; eauto.
    - intros l H1 H2. apply D; [eapply rflocs_perm; [symmetry; exact Pa|exact H1]|intro H; apply H2; eapply rflocs_perm; eauto].
    - intros l H1 H2. apply N; [eapply rflocs_perm; [symmetry; exact Pb|exact H1]|intro H; apply H2; eapply rflocs_perm; eauto].
  Qed.
  Lemma own_alive hp rs x : own hp rs -> In x (rflocs rs) -> x <> sroot /\ exists c, hget hp x = Some c.
  Proof.
    intros [H _] Hx. unfold rflocs in Hx. apply in_flat_map in Hx as (r & Hr & Hx). rewrite Forall_forall in H. exact (rok_alive (H r Hr) Hx).
  Qed.
  Lemma goes_frame hp rs hp' rs' us : goes hp rs hp' rs' -> own hp (rs ++ us) ->
    goes hp (rs ++ us) hp' (rs' ++ us) /\ (forall x, In x (rflocs us) -> hget hp' x = hget hp x).
  Proof.
    intros [O F D N] Ou. apply own_app in Ou as (O1 & O2 & Dis).
    assert (forall x, In x (rflocs us) -> hget hp' x = hget hp x) as Same.
    { intros x Hx. destruct (in_dec Nat.eq_dec x (rflocs rs')) as [I | I].
      - assert (~ In x (rflocs rs)) as I2 by (intro H; exact (Dis x H Hx)).
        destruct (own_alive O2 Hx) as (_ & c & G). rewrite (N x I I2) in G. discriminate G.
      - apply F; [intro H; exact (Dis x H Hx)|exact I]. }
    split; [|exact Same]. constructor.
    - apply own_app. split; [exact O|]. split.
      + destruct O2 as [H1 H2]. constructor; [|exact H2]. apply Forall_forall. intros r Hr. rewrite Forall_forall in H1.
        eapply rok_ext; [exact (H1 r Hr)|]. intros x Hx. apply Same. apply in_flat_map. eauto.
      + intros x H1 H2. assert (~ In x (rflocs rs)) as I2 by (intro H; exact (Dis x H H2)).
        destruct (own_alive O2 H2) as (_ & c & G). rewrite (N x H1 I2) in G. discriminate G.
    - intros l H1 H2. rewrite rflocs_app, in_app_iff in *. apply F; tauto.
    - intros l H1 H2. rewrite rflocs_app, in_app_iff in *. apply D; tauto.
    - intros l H1 H2. rewrite rflocs_app, in_app_iff in *. apply N; tauto.
  Qed.
  Lemma own_sub hp rs us : own hp (rs ++ us) -> own hp rs.
  Proof. intro O. apply own_app in O. apply O. Qed.

  (** trees *)
  Lemma rflocs_trees ts : rflocs (map Tree ts) = flocs ts.
  Proof. unfold rflocs, flocs. induction ts as [|t ts IH]; [reflexivity|]. cbn. now rewrite IH. Qed.
  Lemma own_trees hp ts : own hp (map Tree ts) <-> owned hp ts.
  Proof.
    split; intros [H1 H2]; constructor; rewrite ?rflocs_trees in *; auto.
    - rewrite Forall_forall in *. intros t Ht. apply (H1 (Tree t)). now apply in_map.
    - rewrite Forall_forall in *. intros r Hr. apply in_map_iff in Hr as (t & <- & Ht). now apply H1.
  Qed.
  Lemma goes_trees hp ts hp' ts' : evolves hp ts hp' ts' <-> goes hp (map Tree ts) hp' (map Tree ts').
  Proof.
    split; intros [O F D N]; constructor; rewrite ?rflocs_trees in *; auto; now apply own_trees.
  Qed.
  Lemma own_root hp t us : own hp (Root t :: us) <-> own hp (Tree t :: us) /\ hung hp (lroot t) None.
  Proof.
    split.
    - intros [H1 H2]. inversion H1 as [|? ? H34 H5]; subst. destruct H34 as [H3 H4]. split; [constructor; [constructor; auto|exact H2]|exact H4].
    - intros [[H1 H2] H]. inversion H1; subst. constructor; [constructor; [split|]; auto|exact H2].
  Qed.
  (** what a change of a tree is as a change of roots *)
  Lemma goes_roots hp t hp' t' leak : evolves hp [t] hp' (t' :: leak) -> hung hp' (lroot t') None ->
    goes hp [Root t] hp' (Root t' :: map Tree leak).
  Proof.
    intros E H. apply goes_trees in E. destruct E as [O F D N]. constructor.
    - cbn [map] in O. apply own_root. auto.
    - exact F.
    - exact D.
    - exact N.
  Qed.
  Lemma own_lost hp ts us : own hp (map Tree ts ++ us) -> own hp (Lost (flocs ts) :: us).
  Proof.
    intro O. pose proof O as [H1 H2]. constructor.
    - apply Forall_app in H1 as [A B]. constructor; [|exact B]. intros l Hl. rewrite <- rflocs_trees in Hl.
      apply (@own_alive hp (map Tree ts)); [constructor; [exact A|]|exact Hl].
      rewrite rflocs_app in H2. apply nodup_app in H2. apply H2.
    - rewrite rflocs_app, rflocs_trees in H2. exact H2.
  Qed.
  Lemma goes_eq hp rs hp' rs1 rs2 : goes hp rs hp' rs1 -> own hp' rs2 -> (forall x, In x (rflocs rs1) <-> In x (rflocs rs2)) -> goes hp rs hp' rs2.
  Proof. intros [O F D N] O2 E. constructor; auto; intros l H1 H2; [apply F|apply D|apply N]; auto; now rewrite E. Qed.
  Lemma goes_eq_l hp rs1 rs2 hp' rs : goes hp rs1 hp' rs -> (forall x, In x (rflocs rs1) <-> In x (rflocs rs2)) -> goes hp rs2 hp' rs.
  Proof. intros [O F D N] E. constructor; auto; intros l H1 H2; [apply F|apply D|apply N]; auto; try (now rewrite E); now rewrite <- E in *. Qed.

  (** the memory consists of these pieces and nothing else *)
  Definition exact_heap hp (rs : list res) : Prop := forall l, l <> sroot -> hget hp l <> None -> In l (rflocs rs).
  Lemma goes_exact hp rs hp' rs' : goes hp rs hp' rs' -> exact_heap hp rs -> exact_heap hp' rs'.
  Proof.
    intros [O F D N] E l Hl Hg. destruct (in_dec Nat.eq_dec l (rflocs rs')) as [I | I]; [exact I|exfalso].
    destruct (in_dec Nat.eq_dec l (rflocs rs)) as [J | J].
    - apply Hg. auto.
    - apply J. apply E; [exact Hl|]. now rewrite <- (F l J I).
  Qed.

  (** ** Taking a tree apart *)
  Lemma own_part hp t us : own hp (Root t :: us) -> own hp (Part t [] :: us).
  Proof.
    intro O. pose proof O as [H1 H2]. inversion H1 as [|? ? BHR H5]; subst. destruct BHR as [B HR].
    assert (owned hp [t]) as Ot.
    { apply own_trees. apply own_root in O as [O _]. apply (@own_sub hp [Tree t] us). exact O. }
    constructor.
    - constructor; [|exact H5]. split.
      + destruct Ot as [_ N]. unfold flocs in N. cbn [flat_map] in N. now rewrite app_nil_r in N.
      + intros s c E _. rewrite E in Ot, HR. pose proof (hung_focus Ot HR) as (cl & G & L).
        pose proof (owned_focus Ot) as Of. destruct Of as [Fb _]. inversion Fb as [|? ? Bs _]; subst.
        destruct (body_root Bs) as (N & cl' & G' & C). split; [exact N|]. rewrite G in G'. injection G' as <-. eauto.
    - unfold rflocs in *. cbn [flat_map rlocs] in *. now rewrite plocs_nil.
  Qed.
  Lemma plocs_same t F F' x : (forall p, In p F <-> In p F') -> (In x (plocs t F) <-> In x (plocs t F')).
  Proof. intro E. rewrite !plocs_In. split; intros (p & H1 & H2); exists p; split; auto; intro H; apply H2; now apply E. Qed.
  (** freeing one node *)
  Lemma goes_free hp t F s c hp' : part_ok hp t F -> t = lplug s c -> ~ In (cpath (ectx c)) F -> hup hp (lroot s) None hp' ->
    goes hp [Part t F] hp' [Part t (cpath (ectx c) :: F)].
  Proof.
    intros [N H] E HF U.
    assert (forall x, In x (plocs t (cpath (ectx c) :: F)) <-> In x (plocs t F) /\ x <> lroot s) as EX.
    { intro x. rewrite !plocs_In. split.
      - intros (p & H1 & H2). split; [exists p; split; [exact H1|intro; apply H2; now right]|]. intros ->. apply H2. left.
        eapply nodup_fst; [rewrite nodes_snd; exact N|exact (nodes_plug E)|exact H1].
      - intros ((p & H1 & H2) & H3). exists p. split; [exact H1|]. intros [<- | H4]; [|contradiction]. apply H3.
        destruct (nodes_ctx H1) as (s' & c' & E' & Ep & ->).
        assert (lat t (cpath (ectx c)) = Some s) as L1 by (rewrite E, <- (app_nil_r (cpath (ectx c))), lat_plug; reflexivity).
        assert (lat t (cpath (ectx c)) = Some s') as L2 by (rewrite Ep, E', <- (app_nil_r (cpath (ectx c'))), lat_plug; reflexivity).
        congruence. }
    assert (forall rs x, In x (rflocs [rs]) <-> In x (rlocs rs)) as E1.
    { intros rs x. unfold rflocs. cbn [flat_map]. now rewrite app_nil_r. }
    constructor.
    - constructor; [|unfold rflocs; cbn [flat_map rlocs]; rewrite app_nil_r; now apply plocs_nodup]. constructor; [|constructor]. split; [exact N|].
      intros s' c' E' HF'. destruct (H s' c' E') as (H1 & cl & H2 & H3); [intro; apply HF'; now right|]. split; [exact H1|].
      exists cl. split; [|exact H3]. rewrite (hup_other U); [exact H2|]. intro Es. apply HF'. left.
      eapply nodup_fst; [rewrite nodes_snd; exact N|exact (nodes_plug E)|rewrite <- Es; exact (nodes_plug E')].
    - intros l H1 H2. rewrite E1 in *. cbn [rlocs] in *. apply (hup_other U). intros ->. apply H1. now apply plocs_live with (c := c).
    - intros l H1 H2. rewrite E1 in *. cbn [rlocs] in *. rewrite EX in H2. destruct (Nat.eq_dec l (lroot s)) as [-> | Hn]; [exact (hup_same U)|].
      exfalso. apply H2. auto.
    - intros l H1 H2. rewrite E1 in *. cbn [rlocs] in *. rewrite EX in H1. tauto.
  Qed.
  Lemma part_done t F x : (forall p, In p (allpaths [] (erase t)) -> In p F) -> ~ In x (plocs t F).
  Proof. intros H I. apply plocs_In in I as (p & H1 & H2). apply H2, H. rewrite <- nodes_fst. apply in_map_iff. exists (p, x). auto. Qed.
End Res.
