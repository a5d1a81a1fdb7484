(** * HeapZip: positions in an owned tree. *)
From Coq Require Import List Arith Lia Bool Permutation.
From Verif Require Import Base BTreeModel BTreeInv BTreeLemmas HeapModel HeapArr HeapRep HeapWp HeapNode HeapOps HeapOps2 HeapOps3 HeapOps4.
Import ListNotations.
Set Implicit Arguments.
Unset Strict Implicit.

Section Zip.
  Variables (K V : Type).
  Notation kv := (K * V)%type.
  Notation cell := (cell K V).
  Notation heap := (heap K V).
  Notation HM := (HM K V).
  Notation ltree := (ltree K V).
  Notation lroot := (@lroot K V).
  Notation erase := (@erase K V).
  Implicit Types (hp : heap).

  (** an ancestor with its address *)
  Record lframe := LF { lfl : loc; lfk : list kv; lfa : list ltree; lfz : list ltree }.
  Definition lfill (f : lframe) (t : ltree) : ltree := LN (lfl f) (lfk f) (lfa f ++ t :: lfz f).
  Definition lctx := list lframe.
  Fixpoint lplug (t : ltree) (c : lctx) : ltree :=
    match c with [] => t | f :: c' => lplug (lfill f t) c' end.
  Definition eframe (f : lframe) : frame K V := Frame (lfk f) (map erase (lfa f)) (map erase (lfz f)).
  Definition ectx (c : lctx) : ctx K V := map eframe c.
  Definition lpar (c : lctx) : option (loc * nat) :=
    match c with [] => None | f :: _ => Some (lfl f, length (lfa f)) end.

  Lemma erase_eq l ks es : erase (LN l ks es) = Node ks (map erase es).
  Proof. reflexivity. Qed.
  Lemma kvs_erase (t : ltree) : kvs (erase t) = lks t.
  Proof. now destruct t. Qed.
  Lemma edges_erase (t : ltree) : edges (erase t) = map erase (les t).
  Proof. now destruct t. Qed.
  Lemma nlen_erase (t : ltree) : nlen (erase t) = length (lks t).
  Proof. unfold nlen. now rewrite kvs_erase. Qed.
  Lemma ltree_eta (t : ltree) : t = LN (lroot t) (lks t) (les t).
  Proof. now destruct t. Qed.

  Lemma erase_fill f t : erase (lfill f t) = fill (eframe f) (erase t).
  Proof. unfold lfill, fill. rewrite erase_eq, map_app. reflexivity. Qed.
  Lemma erase_plug c : forall t, erase (lplug t c) = plug (erase t) (ectx c).
  Proof. induction c as [|f c IH]; intro t; [reflexivity|]. cbn [lplug ectx map plug]. now rewrite IH, erase_fill. Qed.
  Lemma lplug_app c1 c2 : forall t, lplug t (c1 ++ c2) = lplug (lplug t c1) c2.
  Proof. induction c1 as [|f c1 IH]; intro t; [reflexivity|]. cbn. apply IH. Qed.
  Lemma fidx_eframe f : fidx (eframe f) = length (lfa f).
  Proof. unfold fidx, eframe. cbn. apply map_length. Qed.
  Lemma ectx_app c1 c2 : ectx (c1 ++ c2) = ectx c1 ++ ectx c2.
  Proof. apply map_app. Qed.
  Lemma ectx_length c : length (ectx c) = length c.
  Proof. apply map_length. Qed.

  Lemma lplug_root c : forall t t', lroot t' = lroot t -> lroot (lplug t' c) = lroot (lplug t c).
  Proof. induction c as [|f c IH]; intros t t' H; [exact H|]. cbn. now apply IH. Qed.
  Lemma lplug_root_ne c f t t' : lroot (lplug t' (f :: c)) = lroot (lplug t (f :: c)).
  Proof. apply (@lplug_root c). reflexivity. Qed.

  (** ** What is below an owned root is owned *)
  Lemma owned_focus hp c : forall t us, owned hp (lplug t c :: us) -> owned hp (t :: us).
  Proof.
    induction c as [|f c IH]; intros t us O; [exact O|]. cbn [lplug] in O. apply IH in O.
    unfold lfill in O. destruct (owned_child O) as (Q & _). exact Q.
  Qed.
  Lemma hung_focus hp c t us :
    owned hp (lplug t c :: us) -> hung hp (lroot (lplug t c)) None -> hung hp (lroot t) (lpar c).
  Proof.
    destruct c as [|f c]; intros O H; [exact H|]. cbn [lplug] in O. apply owned_focus in O.
    unfold lfill in O. destruct (owned_child O) as (_ & Q & _). exact Q.
  Qed.

  (** a change at the focus is a change of the whole *)
  Lemma evolves_plug hp hp' c : forall t us t' us',
    owned hp (lplug t c :: us) ->
    evolves hp (t :: us) hp' (t' :: us') -> lroot t' = lroot t -> keeps hp hp' (lroot t) ->
    evolves hp (lplug t c :: us) hp' (lplug t' c :: us') /\ keeps hp hp' (lroot (lplug t c)).
  Proof.
    induction c as [|f c IH]; intros t us t' us' O E R Kp; [split; assumption|].
    cbn [lplug] in *. pose proof (owned_focus O) as O1. unfold lfill in O1.
    destruct (@evolves_child K V _ _ _ _ _ _ _ _ _ _ O1 E R Kp) as [E1 G1].
    apply (IH (lfill f t) us (lfill f t') us'); [exact O|exact E1|reflexivity|].
    cbn [HeapRep.lroot lfill]. now apply keeps_get.
  Qed.

  (** the same with the parent unlinked: a rooted tree stays rooted *)
  Definition rooted hp (t : ltree) : Prop := owned hp [t] /\ hung hp (lroot t) None.

  Lemma keeps_none hp hp' l : keeps hp hp' l -> hung hp l None -> hung hp' l None.
  Proof. intros H. apply H. Qed.

  (** ** ascend *)
  Lemma wp_ascend h t c us hp (Q : option hhandle -> heap -> Prop) :
    owned hp (lplug t c :: us) -> hung hp (lroot (lplug t c)) None ->
    Q (match lpar c with Some (p, i) => Some (NR (S h) p, i) | None => None end) hp ->
    wp (ascend (NR h (lroot t))) hp Q.
  Proof.
    intros O H P. destruct (hung_focus O H) as (ce & G & L1 & L2). unfold ascend. cbn [rl rh].
    st wp_read; [exact G|]. rewrite L1. destruct (lpar c) as [[p i]|]; cbn [option_map fst].
    - st wp_option; [exact (L2 p i eq_refl)|]. exact P.
    - exact P.
  Qed.

  (** navigation in a tree given by its root *)
  Lemma wp_len_t h t us hp (Q : nat -> heap -> Prop) :
    owned hp (t :: us) -> Q (length (lks t)) hp -> wp (n_len (NR h (lroot t))) hp Q.
  Proof. destruct t. apply wp_len_of. Qed.
  Lemma wp_edge_t h t us i hp (Q : hhandle -> heap -> Prop) :
    owned hp (t :: us) -> i <= length (lks t) -> Q (NR h (lroot t), i) hp -> wp (new_edge (NR h (lroot t)) i) hp Q.
  Proof. destruct t. apply wp_edge_of. Qed.
  Lemma wp_kv_t h t us i hp (Q : hhandle -> heap -> Prop) :
    owned hp (t :: us) -> i < length (lks t) -> Q (NR h (lroot t), i) hp -> wp (new_kv (NR h (lroot t)) i) hp Q.
  Proof. destruct t. apply wp_kv_of. Qed.
  Lemma wp_keys_t h t us hp (Q : list K -> heap -> Prop) :
    owned hp (t :: us) -> Q (map fst (lks t)) hp -> wp (n_keys (NR h (lroot t))) hp Q.
  Proof.
    destruct t as [l ks es]. intros O H. destruct (owned_node O) as (_ & (c & G & C) & _).
    eapply wp_keys; [exact G|exact (ct_keys C)|rewrite map_length; exact (ct_len C)|exact H].
  Qed.
  Lemma wp_vals_t h t us hp (Q : list V -> heap -> Prop) :
    owned hp (t :: us) -> Q (map snd (lks t)) hp -> wp (n_vals (NR h (lroot t))) hp Q.
  Proof.
    destruct t as [l ks es]. intros O H. destruct (owned_node O) as (N & (c & G & C) & _).
    eapply wp_vals; [exact N|exact G|exact (ct_vals C)|rewrite map_length; exact (ct_len C)|exact H].
  Qed.
  Lemma wp_not_shared_t h t us hp (Q : unit -> heap -> Prop) :
    owned hp (t :: us) -> Q tt hp -> wp (not_shared (NR h (lroot t))) hp Q.
  Proof. destruct t as [l ks es]. intros O H. destruct (owned_node O) as (N & _). now apply wp_not_shared. Qed.
  Lemma wp_read_kv h t us i x hp (Q : kv -> heap -> Prop) :
    owned hp (t :: us) -> nth_error (lks t) i = Some x -> Q x hp -> wp (h_into_kv (NR h (lroot t), i)) hp Q.
  Proof.
    intros O E H. unfold h_into_kv. st wp_keys_t; [exact O|]. st wp_vals_t; [exact O|]. cbn [rl].
    destruct t as [l ks es]. destruct (owned_node O) as (N & (c & G & C) & _). cbn [HeapRep.lroot lks] in *.
    apply nth_error_split in E as (a & z & -> & La).
    st wp_a_read; [exact G| |].
    { cbn. rewrite <- La, <- (map_length fst a). eapply holds_mid. pose proof (ct_keys C) as X. rewrite map_app in X. cbn [map] in X. exact X. }
    st wp_a_read; [exact G| |].
    { cbn. rewrite <- La, <- (map_length snd a). eapply holds_mid. pose proof (ct_vals C) as X. rewrite map_app in X. cbn [map] in X. exact X. }
    apply wp_ret. rewrite pair_eta. exact H.
  Qed.

  Lemma map_pick (es : list ltree) i a e z :
    pick i (map erase es) = Some (a, e, z) ->
    exists a' t z', es = a' ++ t :: z' /\ length a' = i /\ a = map erase a' /\ e = erase t /\ z = map erase z'.
  Proof.
    intro H. apply pick_some in H as [E L]. apply map_eq_app in E as (a' & r & -> & Ea & Er).
    destruct r as [|t z']; [discriminate Er|]. cbn in Er. injection Er as E1 E2.
    exists a', t, z'. repeat split; auto. rewrite <- L, <- Ea. now rewrite map_length.
  Qed.

  (** descending *)
  Lemma descend_loc (t : ltree) i e f :
    descend (erase t) i = Some (e, f) ->
    exists t' lf, t = lfill lf t' /\ e = erase t' /\ f = eframe lf /\ length (lfa lf) = i.
  Proof.
    unfold descend. rewrite edges_erase, kvs_erase. destruct (pick i (map erase (les t))) as [[[a x] z]|] eqn:P; [|discriminate].
    intro H. injection H as <- <-. apply map_pick in P as (a' & t' & z' & E & L & -> & -> & ->).
    exists t', (LF (lroot t) (lks t) a' z'). cbn. split; [|auto]. rewrite (ltree_eta t). unfold lfill. cbn. now rewrite E.
  Qed.
  Lemma wp_down_t h lf t us i hp (Q : nref -> heap -> Prop) :
    owned hp (lfill lf t :: us) -> length (lfa lf) = i -> Q (NR h (lroot t)) hp -> wp (h_descend (NR (S h) (lfl lf), i)) hp Q.
  Proof. intros O L H. unfold lfill in O. eapply wp_down; eauto. Qed.
End Zip.
