(** * HeapOps4: stealing from a sibling (node.rs 1399-1428). *)
From Coq Require Import List Arith Lia Bool Permutation.
From Verif Require Import Base BTreeModel BTreeInv HeapModel HeapArr HeapRep HeapWp HeapNode HeapOps HeapOps2 HeapOps3.
Import ListNotations.
Set Implicit Arguments.
Unset Strict Implicit.

Section Ops.
  Variables (K V : Type).
  Notation kv := (K * V)%type.
  Notation cell := (cell K V).
  Notation heap := (heap K V).
  Notation HM := (HM K V).
  Notation ltree := (ltree K V).
  Notation lroot := (@lroot K V).
  Implicit Types (hp : heap) (c : cell).

  (** *** Navigation in an owned tree *)
  Lemma wp_len_of h l ks es us hp (Q : nat -> heap -> Prop) :
    owned hp (LN l ks es :: us) -> Q (length ks) hp -> wp (n_len (NR h l)) hp Q.
  Proof.
    intros O H. destruct (owned_node O) as (_ & (c & G & C) & _). eapply wp_len; [exact G|]. now rewrite (ct_len C).
  Qed.
  Lemma wp_edge_of h l ks es us i hp (Q : hhandle -> heap -> Prop) :
    owned hp (LN l ks es :: us) -> i <= length ks -> Q (NR h l, i) hp -> wp (new_edge (NR h l) i) hp Q.
  Proof.
    intros O L H. destruct (owned_node O) as (_ & (c & G & C) & _). eapply wp_new_edge; [exact G|now rewrite (ct_len C)|exact H].
  Qed.
  Lemma wp_kv_of h l ks es us i hp (Q : hhandle -> heap -> Prop) :
    owned hp (LN l ks es :: us) -> i < length ks -> Q (NR h l, i) hp -> wp (new_kv (NR h l) i) hp Q.
  Proof.
    intros O L H. destruct (owned_node O) as (_ & (c & G & C) & _). eapply wp_new_kv; [exact G|now rewrite (ct_len C)|exact H].
  Qed.
  Lemma wp_down h l ks a t z us i hp (Q : nref -> heap -> Prop) :
    owned hp (LN l ks (a ++ t :: z) :: us) -> length a = i -> Q (NR h (lroot t)) hp -> wp (h_descend (NR (S h) l, i)) hp Q.
  Proof.
    intros O L H. destruct (owned_node O) as (_ & (c & G & C) & _). rewrite is_int_app in C.
    eapply wp_descend; [reflexivity|exact G|apply (ct_int C)|rewrite <- L; exact (holds_edge C)|exact H].
  Qed.
  (** arity of an owned node *)
  Lemma owned_arity hp l ks es us : owned hp (LN l ks es :: us) -> length ks <= CAPACITY /\ (es = [] \/ length es = S (length ks)).
  Proof.
    intros O. destruct (owned_node O) as (_ & (c & G & C) & _). split.
    - pose proof (holds_len (ct_keys C)) as Q. now rewrite map_length in Q.
    - pose proof (ct_arity C) as Q. destruct es; [now left|right]. cbn [is_int] in Q. rewrite map_length in Q. exact Q.
  Qed.

  Lemma evolves_frame1 hp hp' t t' us : evolves hp [t] hp' [t'] -> owned hp (t :: us) -> evolves hp (t :: us) hp' (t' :: us).
  Proof. intros E O. exact (proj1 (evolves_frame E (us := us) O)). Qed.

  Lemma owned_one hp t us : owned hp (t :: us) -> owned hp [t].
  Proof. intro O. change (t :: us) with ([t] ++ us) in O. apply owned_app in O. tauto. Qed.
  Lemma owned_hd hp l ks a t z us : owned hp (LN l ks (a ++ t :: z) :: us) -> owned hp [t].
  Proof. intros O. eapply owned_one. destruct (owned_child O) as (Q & _). exact Q. Qed.

  Definition taken (h : nat) (oe : list ltree) : option nref :=
    match h, oe with S h', e :: _ => Some (NR h' (lroot e)) | _, _ => None end.

  (** pop, for leaves and internal nodes: the pair and the edge go out *)
  Lemma pop_ok l h x oe ks es hp :
    owned hp [LN l (ks ++ [x]) (es ++ oe)] ->
    (h = 0 /\ es = [] /\ oe = []) \/ (0 < h /\ length oe = 1) ->
    wp (h_pop (NR h l)) hp (fun r hp' =>
      r = (x, taken h oe) /\ evolves hp [LN l (ks ++ [x]) (es ++ oe)] hp' (LN l ks es :: oe) /\ keeps hp hp' l).
  Proof.
    intros O [(-> & -> & ->) | (Hh & Lo)].
    - apply (@leaf_pop_ok K V). exact O.
    - destruct h as [|h]; [lia|]. destruct oe as [|e [|]]; cbn in Lo; try lia. apply (@internal_pop_ok K V). exact O.
  Qed.
  Lemma pop_front_ok l h x oe ks es hp :
    owned hp [LN l (x :: ks) (oe ++ es)] ->
    (h = 0 /\ es = [] /\ oe = []) \/ (0 < h /\ length oe = 1) ->
    wp (h_pop_front (NR h l)) hp (fun r hp' =>
      r = (x, taken h oe) /\ evolves hp [LN l (x :: ks) (oe ++ es)] hp' (LN l ks es :: oe) /\ keeps hp hp' l).
  Proof.
    intros O [(-> & -> & ->) | (Hh & Lo)].
    - apply (@leaf_pop_front_ok K V). exact O.
    - destruct h as [|h]; [lia|]. destruct oe as [|e [|]]; cbn in Lo; try lia. apply (@internal_pop_front_ok K V). exact O.
  Qed.

  Lemma steal_left_ok lp h i x y ka kz a z ll k1 e1 oe lr k2 e2 hp :
    owned hp [LN lp (ka ++ x :: kz) (a ++ LN ll (k1 ++ [y]) (e1 ++ oe) :: LN lr k2 e2 :: z)] ->
    length ka = i -> length a = i -> length k2 < CAPACITY ->
    (h = 0 /\ e1 = [] /\ oe = [] /\ e2 = []) \/ (0 < h /\ length oe = 1 /\ e2 <> []) ->
    wp (h_steal_left (NR (S h) lp, i)) hp (fun _ hp' =>
      evolves hp [LN lp (ka ++ x :: kz) (a ++ LN ll (k1 ++ [y]) (e1 ++ oe) :: LN lr k2 e2 :: z)] hp'
                 [LN lp (ka ++ y :: kz) (a ++ LN ll k1 e1 :: LN lr (x :: k2) (oe ++ e2) :: z)] /\ keeps hp hp' lp).
  Proof.
    intros O Lk La Lc Hh. unfold h_steal_left, left_edge, right_edge. cbn [fst snd].
    st wp_edge_of; [exact O|lens|]. st wp_down; [exact O|exact La|]. cbn [HeapRep.lroot].
    apply wp_bind. eapply wp_mono; [apply (@pop_ok ll h y oe k1 e1); [exact (owned_hd O)|tauto]|].
    intros r hp1 (-> & E1 & KP1). cbn [fst snd].
    destruct (@evolves_child K V _ _ _ _ _ _ _ _ _ _ O E1 eq_refl KP1) as [E1' G1]. clear E1 KP1.
    pose proof (keeps_get G1) as KP1. pose proof (ev_own E1') as O1.
    apply wp_bind. eapply wp_mono; [apply (@replace_kv_ok K V lp (S h) i x y ka kz); [exact (owned_one O1)|exact Lk]|].
    intros r hp2 (-> & E2 & KP2). pose proof (evolves_frame1 E2 O1) as E2'. clear E2. pose proof (ev_own E2') as O2.
    st wp_edge_of; [exact O2|lens|].
    replace (a ++ LN ll k1 e1 :: LN lr k2 e2 :: z) with ((a ++ [LN ll k1 e1]) ++ LN lr k2 e2 :: z) in * by now rewrite <- app_assoc.
    st wp_down; [exact O2|lens|]. cbn [HeapRep.lroot rh].
    assert (wp (match h with
       | 0 => leaf_push_front (NR h lr) x
       | S _ => hbind (of_option (taken h oe)) (fun e => internal_push_front (NR h lr) x e)
       end) hp2 (fun _ hp3 => evolves hp2 (LN lr k2 e2 :: oe) hp3 [LN lr (x :: k2) (oe ++ e2)] /\ keeps hp2 hp3 lr)) as W.
    { destruct (owned_child O2) as (Oc & _).
      destruct Hh as [(-> & -> & -> & ->) | (Hh & Lo & He)].
      - apply (@leaf_push_front_ok K V); [exact Oc|exact Lc].
      - destruct h as [|h]; [lia|]. destruct oe as [|e [|]]; cbn in Lo; try lia. apply wp_bind. eapply wp_option; [reflexivity|].
        eapply internal_push_front_ok; [exact Oc|destruct e2; [congruence|reflexivity]|reflexivity|reflexivity|exact Lc]. }
    eapply wp_mono; [exact W|]. intros _ hp3 [E3 KP3].
    destruct (@evolves_child K V _ _ _ _ _ _ _ _ _ _ O2 E3 eq_refl KP3) as [E3' G3].
    split; [|exact (keeps_trans KP1 (keeps_trans KP2 (keeps_get G3)))].
    pose proof (evolves_trans E1' (evolves_trans E2' E3')) as E. rewrite <- app_assoc in E. exact E.
  Qed.

  Lemma steal_right_ok lp h i x y ka kz a z ll k1 e1 oe lr k2 e2 hp :
    owned hp [LN lp (ka ++ x :: kz) (a ++ LN ll k1 e1 :: LN lr (y :: k2) (oe ++ e2) :: z)] ->
    length ka = i -> length a = i -> length k1 < CAPACITY ->
    (h = 0 /\ e1 = [] /\ oe = [] /\ e2 = []) \/ (0 < h /\ length oe = 1 /\ e1 <> []) ->
    wp (h_steal_right (NR (S h) lp, i)) hp (fun _ hp' =>
      evolves hp [LN lp (ka ++ x :: kz) (a ++ LN ll k1 e1 :: LN lr (y :: k2) (oe ++ e2) :: z)] hp'
                 [LN lp (ka ++ y :: kz) (a ++ LN ll (k1 ++ [x]) (e1 ++ oe) :: LN lr k2 e2 :: z)] /\ keeps hp hp' lp).
  Proof.
    intros O Lk La Lc Hh. unfold h_steal_right, left_edge, right_edge. cbn [fst snd].
    st wp_edge_of; [exact O|lens|].
    replace (a ++ LN ll k1 e1 :: LN lr (y :: k2) (oe ++ e2) :: z) with ((a ++ [LN ll k1 e1]) ++ LN lr (y :: k2) (oe ++ e2) :: z) in * by now rewrite <- app_assoc.
    st wp_down; [exact O|lens|]. cbn [HeapRep.lroot].
    apply wp_bind. eapply wp_mono; [apply (@pop_front_ok lr h y oe k2 e2); [exact (owned_hd O)|tauto]|].
    intros r hp1 (-> & E1 & KP1). cbn [fst snd].
    destruct (@evolves_child K V _ _ _ _ _ _ _ _ _ _ O E1 eq_refl KP1) as [E1' G1]. clear E1 KP1.
    pose proof (keeps_get G1) as KP1. pose proof (ev_own E1') as O1.
    apply wp_bind. eapply wp_mono; [apply (@replace_kv_ok K V lp (S h) i x y ka kz); [exact (owned_one O1)|exact Lk]|].
    intros r hp2 (-> & E2 & KP2). pose proof (evolves_frame1 E2 O1) as E2'. clear E2. pose proof (ev_own E2') as O2.
    st wp_edge_of; [exact O2|lens|].
    replace ((a ++ [LN ll k1 e1]) ++ LN lr k2 e2 :: z) with (a ++ LN ll k1 e1 :: LN lr k2 e2 :: z) in * by now rewrite <- app_assoc.
    st wp_down; [exact O2|exact La|]. cbn [HeapRep.lroot rh].
    assert (wp (match h with
       | 0 => leaf_push (NR h ll) x
       | S _ => hbind (of_option (taken h oe)) (fun e => internal_push (NR h ll) x e)
       end) hp2 (fun _ hp3 => evolves hp2 (LN ll k1 e1 :: oe) hp3 [LN ll (k1 ++ [x]) (e1 ++ oe)] /\ keeps hp2 hp3 ll)) as W.
    { destruct (owned_child O2) as (Oc & _).
      destruct Hh as [(-> & -> & -> & ->) | (Hh & Lo & He)].
      - apply (@leaf_push_ok K V); [exact Oc|exact Lc].
      - destruct h as [|h]; [lia|]. destruct oe as [|e [|]]; cbn in Lo; try lia. apply wp_bind. eapply wp_option; [reflexivity|].
        eapply internal_push_ok; [exact Oc|destruct e1; [congruence|reflexivity]|reflexivity|reflexivity|exact Lc]. }
    eapply wp_mono; [exact W|]. intros _ hp3 [E3 KP3].
    destruct (@evolves_child K V _ _ _ _ _ _ _ _ _ _ O2 E3 eq_refl KP3) as [E3' G3].
    split; [|exact (keeps_trans KP1 (keeps_trans KP2 (keeps_get G3)))].
    exact (evolves_trans E1' (evolves_trans E2' E3')).
  Qed.
End Ops.
