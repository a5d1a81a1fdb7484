(** * HeapRep: which heaps represent which trees, and how to reason about
    programs on the heap. *)
From Coq Require Import List Arith Lia Bool Permutation.
From Verif Require Import Base BTreeModel BTreeInv HeapModel HeapArr.
Import ListNotations.
Set Implicit Arguments.
Unset Strict Implicit.

Section Rep.
  Variables (K V : Type).
  Notation kv := (K * V)%type.
  Notation cell := (cell K V).
  Notation heap := (heap K V).
  Notation HM := (HM K V).

  (** a tree whose nodes have addresses *)
  Inductive ltree := LN (l : loc) (ks : list kv) (es : list ltree).
  Definition lroot (t : ltree) : loc := let 'LN l _ _ := t in l.
  Definition lks (t : ltree) : list kv := let 'LN _ k _ := t in k.
  Definition les (t : ltree) : list ltree := let 'LN _ _ e := t in e.
  (** the tree of layer 1 *)
  Fixpoint erase (t : ltree) : node K V := let 'LN _ ks es := t in Node ks (map erase es).
  (** its addresses *)
  Fixpoint locs (t : ltree) : list loc := let 'LN l _ es := t in l :: flat_map locs es.
  Definition flocs (ts : list ltree) : list loc := flat_map locs ts.
  Definition is_int (es : list ltree) : bool := match es with [] => false | _ => true end.

  Section LtreeInd.
    Variable P : ltree -> Prop.
    Hypothesis IH : forall l ks es, Forall P es -> P (LN l ks es).
    Fixpoint ltree_ind2 (t : ltree) : P t :=
      let 'LN l ks es := t in
      IH l ks ((fix go es : Forall P es :=
                  match es with [] => Forall_nil _ | e :: es' => Forall_cons e (ltree_ind2 e) (go es') end) es).
  End LtreeInd.

  (** the cell holds the pairs [ks] and the edges [els] *)
  Record content (c : cell) (int : bool) (ks : list kv) (els : list loc) : Prop := Content {
    ct_len : clen c = length ks;
    ct_int : cint c = int;
    ct_keys : holds (ckeys c) (map fst ks) CAPACITY;
    ct_vals : holds (cvals c) (map snd ks) CAPACITY;
    ct_edges : holds (cedges c) els (if int then 2 * B_ else 0);
    ct_arity : if int then length els = S (length ks) else els = []
  }.

  (** [par]: the parent's address and the index of the edge *)
  Definition linked (c : cell) (par : option (loc * nat)) : Prop :=
    cpar c = option_map fst par /\ forall p i, par = Some (p, i) -> cpidx c = Some i.
  Definition hung (hp : heap) (l : loc) (par : option (loc * nat)) : Prop :=
    exists c, hget hp l = Some c /\ linked c par.

  (** the heap holds the tree; the parent of its root is left open *)
  Fixpoint body (hp : heap) (t : ltree) : Prop :=
    let 'LN l ks es := t in
    l <> sroot /\
    (exists c, hget hp l = Some c /\ content c (is_int es) ks (map lroot es)) /\
    (fix go i es := match es with
                    | [] => True
                    | e :: es' => hung hp (lroot e) (Some (l, i)) /\ body hp e /\ go (S i) es'
                    end) 0 es.
  Fixpoint kids_ok (hp : heap) (l : loc) (i : nat) (es : list ltree) : Prop :=
    match es with
    | [] => True
    | e :: es' => hung hp (lroot e) (Some (l, i)) /\ body hp e /\ kids_ok hp l (S i) es'
    end.

  Lemma body_eq hp l ks es :
    body hp (LN l ks es) <->
    l <> sroot /\ (exists c, hget hp l = Some c /\ content c (is_int es) ks (map lroot es)) /\ kids_ok hp l 0 es.
  Proof.
    assert (forall i, (fix go i es := match es with
                    | [] => True
                    | e :: es' => hung hp (lroot e) (Some (l, i)) /\ body hp e /\ go (S i) es'
                    end) i es <-> kids_ok hp l i es) as H.
    { induction es as [|e es IH]; intro i; [reflexivity|].
      cbn [kids_ok]. rewrite <- IH. reflexivity. }
    cbn [body]. rewrite H. reflexivity.
  Qed.

  Lemma kids_app hp l i a b : kids_ok hp l i (a ++ b) <-> kids_ok hp l i a /\ kids_ok hp l (i + length a) b.
  Proof.
    revert i. induction a as [|e a IH]; intro i; cbn [app kids_ok length].
    - rewrite Nat.add_0_r. tauto.
    - rewrite IH. replace (S i + length a) with (i + S (length a)) by lia. tauto.
  Qed.

  Lemma kids_body hp l i es : kids_ok hp l i es -> Forall (body hp) es.
  Proof. revert i. induction es; intros i H; constructor; [apply H|]. destruct H as (_ & _ & H). eauto. Qed.

  Lemma body_root hp t : body hp t -> lroot t <> sroot /\ exists c, hget hp (lroot t) = Some c /\ content c (is_int (les t)) (lks t) (map lroot (les t)).
  Proof. destruct t as [l ks es]. intro H. apply body_eq in H. cbn. tauto. Qed.

  Lemma root_in t : In (lroot t) (locs t).
  Proof. destruct t. now left. Qed.

  Lemma in_flocs x ts : In x (flocs ts) <-> exists t, In t ts /\ In x (locs t).
  Proof. unfold flocs. rewrite in_flat_map. reflexivity. Qed.

  Lemma flocs_app a b : flocs (a ++ b) = flocs a ++ flocs b.
  Proof. unfold flocs. induction a; cbn; [reflexivity|]. now rewrite IHa, app_assoc. Qed.
  Lemma flocs_cons a b : flocs (a :: b) = locs a ++ flocs b.
  Proof. reflexivity. Qed.
  Lemma locs_eq l ks es : locs (LN l ks es) = l :: flocs es.
  Proof. reflexivity. Qed.

  (** what the heap holds outside the tree does not matter *)
  Lemma body_ext hp hp' t : body hp t -> (forall x, In x (locs t) -> hget hp' x = hget hp x) -> body hp' t.
  Proof.
    revert t. induction t as [l ks es IH] using ltree_ind2. intros H E.
    apply body_eq in H as (N & (c & G & C) & Hk). apply body_eq. split; [exact N|]. split.
    - exists c. rewrite E by (left; reflexivity). auto.
    - assert (forall x, In x (flocs es) -> hget hp' x = hget hp x) as E' by (intros x Hx; apply E; right; exact Hx).
      clear E C G c N. revert Hk. generalize 0 as i.
      induction IH as [|e es He _ IHes]; intros i Hk; [exact I|].
      destruct Hk as ((c & G & C) & Hb & Hk). split; [|split].
      + exists c. rewrite E'; [auto|]. apply in_or_app. left. apply root_in.
      + apply He; [exact Hb|]. intros x Hx. apply E'. apply in_or_app. now left.
      + apply IHes; [|exact Hk]. intros x Hx. apply E'. apply in_or_app. now right.
  Qed.
  Arguments body_ext {hp hp' t}.

  Lemma kids_ext hp hp' l i es :
    kids_ok hp l i es -> (forall x, In x (flocs es) -> hget hp' x = hget hp x) -> kids_ok hp' l i es.
  Proof.
    revert i. induction es as [|e es IH]; intros i H E; [exact I|].
    destruct H as ((c & G & C) & Hb & Hk). split; [|split].
    - exists c. rewrite E; [auto|]. apply in_or_app. left. apply root_in.
    - apply (body_ext Hb). intros x Hx. apply E. apply in_or_app. now left.
    - apply IH; [exact Hk|]. intros x Hx. apply E. apply in_or_app. now right.
  Qed.
  Arguments kids_ext {hp hp' l i es}.

  Lemma bodies_ext hp hp' ts :
    Forall (body hp) ts -> (forall x, In x (flocs ts) -> hget hp' x = hget hp x) -> Forall (body hp') ts.
  Proof.
    intros H E. induction H as [|t ts H _ IH]; constructor.
    - apply (body_ext H). intros x Hx. apply E. apply in_or_app. now left.
    - apply IH. intros x Hx. apply E. apply in_or_app. now right.
  Qed.
  Arguments bodies_ext {hp hp' ts}.

  (** every node of the tree is allocated *)
  Lemma body_alive hp t x : body hp t -> In x (locs t) -> x <> sroot /\ exists c, hget hp x = Some c.
  Proof.
    revert t. induction t as [l ks es IH] using ltree_ind2. intros H Hx.
    apply body_eq in H as (N & (c & G & C) & Hk). destruct Hx as [<- | Hx]; [split; eauto|].
    apply kids_body in Hk. apply in_flocs in Hx as (e & He & Hx).
    rewrite Forall_forall in IH, Hk. eauto.
  Qed.
  Arguments body_alive {hp t x}.
  Lemma bodies_alive hp ts x : Forall (body hp) ts -> In x (flocs ts) -> x <> sroot /\ exists c, hget hp x = Some c.
  Proof.
    intros H Hx. apply in_flocs in Hx as (t & Ht & Hx). rewrite Forall_forall in H. eapply body_alive; eauto.
  Qed.
  Arguments bodies_alive {hp ts x}.

  (** ** Changing the link of a root *)
  Definition set_link (par : option loc) (pi : option nat) (c : cell) : cell :=
    Cell (cint c) par pi (clen c) (ckeys c) (cvals c) (cedges c).
  Lemma content_link c int ks els par pi : content c int ks els -> content (set_link par pi c) int ks els.
  Proof. intros [H1 H2 H3 H4 H5 H6]. constructor; assumption. Qed.

  Lemma body_relink hp hp' t p pi c :
    body hp t -> NoDup (locs t) ->
    (forall x, In x (locs t) -> x <> lroot t -> hget hp' x = hget hp x) ->
    hget hp (lroot t) = Some c -> hget hp' (lroot t) = Some (set_link p pi c) ->
    body hp' t.
  Proof.
    destruct t as [l ks es]. cbn [lroot]. intros H ND E G G'. apply body_eq in H as (N & (c0 & G0 & C) & Hk).
    rewrite G in G0. injection G0 as <-.
    apply body_eq. split; [exact N|]. split.
    - exists (set_link p pi c). split; [exact G'|]. now apply content_link.
    - apply (kids_ext Hk). intros x Hx. apply E; [now right|]. intros ->. rewrite locs_eq in ND.
      inversion ND; contradiction.
  Qed.

  Lemma kids_relink hp hp' l i es :
    Forall (body hp) es -> NoDup (flocs es) ->
    (forall x, In x (flocs es) -> ~ In x (map lroot es) -> hget hp' x = hget hp x) ->
    (forall j e, nth_error (map lroot es) j = Some e -> hget hp' e = option_map (set_link (Some l) (Some (i + j))) (hget hp e)) ->
    kids_ok hp' l i es.
  Proof.
    revert i. induction es as [|e es IH]; intros i H ND E L; [exact I|].
    inversion H as [|? ? Hb Hr]; subst. rewrite flocs_cons in ND.
    destruct (body_root Hb) as (N & c & G & C).
    pose proof (L 0 (lroot e) eq_refl) as L0. rewrite G in L0. cbn in L0. rewrite Nat.add_0_r in L0.
    assert (NoDup (locs e) /\ NoDup (flocs es) /\ forall x, In x (locs e) -> ~ In x (flocs es)) as (ND1 & ND2 & D).
    { clear - ND. induction (locs e) as [|y ys IHy]; cbn in *; [repeat split; auto; constructor|].
      inversion ND as [|? ? A1 A2]; subst. destruct (IHy A2) as (B1 & B2 & B3). split; [|split; auto].
      - constructor; auto. intro. apply A1. apply in_or_app. now left.
      - intros x [<- | Hx]; [|auto]. intro. apply A1. apply in_or_app. now right. }
    assert (forall x, In x (map lroot es) -> In x (flocs es)) as RI.
    { intros x Hx. apply in_map_iff in Hx as (t & <- & Ht). apply in_flocs. exists t. split; [auto|apply root_in]. }
    split; [|split].
    - eexists. split; [exact L0|]. split; [reflexivity|]. intros p j Hp. injection Hp as <- <-. reflexivity.
    - eapply body_relink; eauto. intros x Hx Hn. apply E; [apply in_or_app; now left|].
      cbn. intros [Hr0 | Hr0]; [congruence|]. apply (D x Hx). auto.
    - apply IH; auto.
      + intros x Hx Hn. apply E; [apply in_or_app; now right|]. cbn. intros [Hr0 | Hr0]; [|auto].
        subst x. apply (D (lroot e)); [apply root_in|exact Hx].
      + intros j x Hj. rewrite (L (S j) x Hj). replace (S i + j) with (i + S j) by lia. reflexivity.
  Qed.

  (** ** Ownership and change of ownership *)
  Record owned (hp : heap) (ts : list ltree) : Prop := Owned {
    ow_body : Forall (body hp) ts;
    ow_nodup : NoDup (flocs ts)
  }.

  (** [ts] becomes [ts']: everything else in the heap stays; what is no longer
      in [ts'] has been freed, what is new was not allocated before *)
  Record evolves (hp : heap) (ts : list ltree) (hp' : heap) (ts' : list ltree) : Prop := Evolves {
    ev_own : owned hp' ts';
    ev_frame : forall l, ~ In l (flocs ts) -> ~ In l (flocs ts') -> hget hp' l = hget hp l;
    ev_freed : forall l, In l (flocs ts) -> ~ In l (flocs ts') -> hget hp' l = None;
    ev_new : forall l, In l (flocs ts') -> ~ In l (flocs ts) -> hget hp l = None
  }.

  Lemma evolves_refl hp ts : owned hp ts -> evolves hp ts hp ts.
  Proof. intro H. constructor; auto; intros; contradiction. Qed.

  Lemma evolves_trans hp ts hp1 ts1 hp2 ts2 :
    evolves hp ts hp1 ts1 -> evolves hp1 ts1 hp2 ts2 -> evolves hp ts hp2 ts2.
  Proof.
    intros [O1 F1 D1 N1] [O2 F2 D2 N2]. constructor; [exact O2| | |]; intros l H1 H2.
    - destruct (in_dec Nat.eq_dec l (flocs ts1)) as [I | I].
      + rewrite (D2 _ I H2). symmetry. auto.
      + rewrite (F2 _ I H2). auto.
    - destruct (in_dec Nat.eq_dec l (flocs ts1)) as [I | I]; [auto|]. rewrite (F2 _ I H2). auto.
    - destruct (in_dec Nat.eq_dec l (flocs ts1)) as [I | I]; [auto|]. rewrite <- (F1 _ H2 I). auto.
  Qed.

  Lemma nodup_app A (a b : list A) : NoDup (a ++ b) <-> NoDup a /\ NoDup b /\ forall x, In x a -> ~ In x b.
  Proof.
    induction a as [|y a IH]; cbn.
    - split; [intro H; repeat split; auto; constructor|tauto].
    - split.
      + intro H. inversion H as [|? ? H1 H2]; subst. apply IH in H2 as (A1 & A2 & A3). rewrite in_app_iff in H1.
        split; [constructor; tauto|]. split; [exact A2|]. intros x [<- | Hx]; [tauto|auto].
      + intros (H1 & H2 & H3). inversion H1; subst. constructor; [rewrite in_app_iff; intros [?|?]; [auto|eapply H3; eauto]|].
        apply IH. repeat split; auto.
  Qed.

  Lemma owned_app hp a b : owned hp (a ++ b) <-> owned hp a /\ owned hp b /\ forall x, In x (flocs a) -> ~ In x (flocs b).
  Proof.
    split.
    - intros [H1 H2]. apply Forall_app in H1 as [A1 A2]. rewrite flocs_app in H2. apply nodup_app in H2 as (B1 & B2 & B3).
      repeat split; auto.
    - intros ([A1 B1] & [A2 B2] & D). constructor; [apply Forall_app; auto|]. rewrite flocs_app. apply nodup_app. auto.
  Qed.

  Lemma owned_perm hp a b : Permutation a b -> owned hp a -> owned hp b.
  Proof.
    intros P [H1 H2]. constructor; [eapply Permutation_Forall; eauto|].
    eapply Permutation_NoDup; [|exact H2]. unfold flocs. now apply Permutation_flat_map.
  Qed.

  Lemma flocs_perm a b x : Permutation a b -> In x (flocs a) -> In x (flocs b).
  Proof. intros P H. eapply Permutation_in; [|exact H]. unfold flocs. now apply Permutation_flat_map. Qed.

  Lemma evolves_perm hp a hp' b a' b' : Permutation a a' -> Permutation b b' -> evolves hp a hp' b -> evolves hp a' hp' b'.
  Proof.
    intros P Q [O F D N]. assert (Permutation a' a) as P' by now symmetry. assert (Permutation b' b) as Q' by now symmetry.
    constructor.
    - eapply owned_perm; eauto.
    - intros l H1 H2. apply F; intro I; [apply H1|apply H2]; eapply flocs_perm; eauto.
    - intros l H1 H2. apply D; [|intro I; apply H2]; eapply flocs_perm; eauto.
    - intros l H1 H2. apply N; [|intro I; apply H2]; eapply flocs_perm; eauto.
  Qed.

  (** the frame rule *)
  Lemma evolves_frame hp ts hp' ts' us :
    evolves hp ts hp' ts' -> owned hp (ts ++ us) ->
    evolves hp (ts ++ us) hp' (ts' ++ us) /\ (forall x, In x (flocs us) -> hget hp' x = hget hp x).
  Proof.
    intros [O F D N] H. apply owned_app in H as (H1 & H2 & H3).
    assert (forall x, In x (flocs us) -> ~ In x (flocs ts')) as X.
    { intros x Hx Hx'. assert (~ In x (flocs ts)) as Hn by (intro Q; exact (H3 _ Q Hx)).
      destruct (bodies_alive (ow_body H2) Hx) as (_ & c & G). rewrite (N _ Hx' Hn) in G. discriminate. }
    assert (forall x, In x (flocs us) -> hget hp' x = hget hp x) as E.
    { intros x Hx. apply F; [intro Q; exact (H3 _ Q Hx)|auto]. }
    split; [|exact E]. constructor.
    - apply owned_app. split; [exact O|]. split; [|intros x Hx Q; exact (X x Q Hx)].
      constructor; [exact (bodies_ext (ow_body H2) E)|exact (ow_nodup H2)].
    - intros l A B. rewrite flocs_app, in_app_iff in A, B. apply F; tauto.
    - intros l A B. rewrite flocs_app, in_app_iff in A, B. destruct A as [A | A]; [apply D; tauto|tauto].
    - intros l A B. rewrite flocs_app, in_app_iff in A, B. destruct A as [A | A]; [apply N; tauto|tauto].
  Qed.

  (** ** Programs *)
  Definition wp {A} (m : HM A) (hp : heap) (Q : A -> heap -> Prop) : Prop :=
    match m hp with Some (a, hp') => Q a hp' | None => False end.

  Lemma wp_bind A B (m : HM A) (f : A -> HM B) hp Q :
    wp m hp (fun a hp' => wp (f a) hp' Q) -> wp (hbind m f) hp Q.
  Proof. unfold wp, hbind. destruct (m hp) as [[a hp']|]; auto. Qed.
  Lemma wp_ret A (a : A) hp (Q : A -> heap -> Prop) : Q a hp -> wp (hret a) hp Q.
  Proof. auto. Qed.
  Lemma wp_mono A (m : HM A) hp (Q Q' : A -> heap -> Prop) : wp m hp Q -> (forall a hp', Q a hp' -> Q' a hp') -> wp m hp Q'.
  Proof. unfold wp. destruct (m hp) as [[a hp']|]; auto. Qed.
  Lemma wp_check b hp (Q : unit -> heap -> Prop) : b = true -> Q tt hp -> wp (check b) hp Q.
  Proof. intros ->. auto. Qed.
  Lemma wp_option A (o : option A) a hp (Q : A -> heap -> Prop) : o = Some a -> Q a hp -> wp (of_option o) hp Q.
  Proof. intros ->. auto. Qed.
  Lemma wp_read l c hp (Q : cell -> heap -> Prop) : hget hp l = Some c -> Q c hp -> wp (hread l) hp Q.
  Proof. unfold wp, hread. intros ->. auto. Qed.

  (** the heap changed at one address only *)
  Definition hup (hp : heap) (l : loc) (c : option cell) (hp' : heap) : Prop :=
    forall x, hget hp' x = if x =? l then c else hget hp x.
  Lemma hup_set hp l c : l <> sroot -> hup hp l c (hset hp l c).
  Proof.
    intros N x. unfold hget, hset. cbn [hfind]. destruct (Nat.eqb_spec x sroot) as [-> | Hx].
    - destruct (Nat.eqb_spec sroot l); [congruence|reflexivity].
    - rewrite (Nat.eqb_sym l x). destruct (x =? l); reflexivity.
  Qed.
  Lemma hup_same hp l c hp' : hup hp l c hp' -> hget hp' l = c.
  Proof. intro H. now rewrite H, Nat.eqb_refl. Qed.
  Lemma hup_other hp l c hp' x : hup hp l c hp' -> x <> l -> hget hp' x = hget hp x.
  Proof. intros H N. rewrite H. now destruct (Nat.eqb_spec x l). Qed.
  Lemma hup_trans hp l c hp1 c' hp2 : hup hp l c hp1 -> hup hp1 l c' hp2 -> hup hp l c' hp2.
  Proof. intros H1 H2 x. rewrite H2, H1. now destruct (x =? l). Qed.

  Lemma wp_write l c0 c hp (Q : unit -> heap -> Prop) :
    l <> sroot -> hget hp l = Some c0 -> (forall hp', hup hp l (Some c) hp' -> Q tt hp') -> wp (hwrite l c) hp Q.
  Proof.
    intros N G H. unfold wp, hwrite. destruct (Nat.eqb_spec l sroot); [contradiction|]. rewrite G.
    apply H. now apply hup_set.
  Qed.
  Lemma wp_free l c int hp (Q : unit -> heap -> Prop) :
    l <> sroot -> hget hp l = Some c -> cint c = int -> (forall hp', hup hp l None hp' -> Q tt hp') -> wp (hfree l int) hp Q.
  Proof.
    intros N G E H. unfold wp, hfree. destruct (Nat.eqb_spec l sroot); [contradiction|]. rewrite G, E, eqb_reflx.
    apply H. now apply hup_set.
  Qed.
End Rep.
