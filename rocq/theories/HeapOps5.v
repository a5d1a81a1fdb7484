(** * HeapOps5: moving many pairs (node.rs 1431-1542, 1602-1633). *)
From Coq Require Import List Arith Lia Bool Permutation.
From Verif Require Import Base BTreeModel BTreeInv HeapModel HeapArr HeapRep HeapWp HeapNode HeapOps HeapOps2 HeapOps3 HeapOps4.
Import ListNotations.
Set Implicit Arguments.
Unset Strict Implicit.

(** ** Arrays *)
Section Arr.
  Variable A : Type.
  Implicit Types (r l p : slots A).

  Lemma cpy src so dst d n : so + n <= length src -> d + n <= length dst ->
    exists a, arr_copy src so dst d n = Some a /\ length a = length dst /\
      (forall xs : list A, at_ src so xs -> length xs <= n -> at_ a d xs) /\
      (forall o (xs : list A), at_ dst o xs -> o + length xs <= d \/ d + n <= o -> at_ a o xs).
  Proof.
    intros H1 H2. destruct (@copy_ex A src so dst d n H1 H2) as (a & E). exists a. split; [exact E|]. split; [exact (proj1 (@nth_copy A src so dst d n a E))|]. split.
    - intros xs Hx L. eapply copy_at; eauto.
    - intros o xs Hx L. eapply copy_other; eauto.
  Qed.

  Lemma at_mid (a : slots A) xs x ys : at_ a 0 (xs ++ x :: ys) -> at_ a 0 xs /\ at_ a (length xs) [x] /\ at_ a (length xs + 1) ys.
  Proof.
    intro H. apply at_app in H as [H1 H2]. cbn [Nat.add] in H2. change (x :: ys) with ([x] ++ ys) in H2. apply at_app in H2 as [H2 H3].
    auto.
  Qed.
  Lemma at_join (a : slots A) xs x ys : at_ a 0 xs -> at_ a (length xs) [x] -> at_ a (length xs + 1) ys -> at_ a 0 (xs ++ x :: ys).
  Proof.
    intros H1 H2 H3. apply at_app. split; [exact H1|]. cbn [Nat.add]. change (x :: ys) with ([x] ++ ys). apply at_app. auto.
  Qed.

  Lemma shift_right r l p cap k1 y m k2 ka x kz :
    holds r k2 cap -> holds l (k1 ++ y :: m) cap -> holds p (ka ++ x :: kz) cap -> length m + 1 + length k2 <= cap ->
    exists a1 a2 a3 p',
      arr_copy r 0 r (length m + 1) (length k2) = Some a1 /\
      arr_copy l (length k1 + 1) a1 0 (length m) = Some a2 /\
      arr_copy p (length ka) a2 (length m) 1 = Some a3 /\
      arr_copy l (length k1) p (length ka) 1 = Some p' /\
      holds a3 (m ++ x :: k2) cap /\ holds p' (ka ++ y :: kz) cap.
  Proof.
    intros [R1 R2] Hl Hp Lc. pose proof (holds_len Hl) as Ll. pose proof (holds_len Hp) as Lp.
    destruct Hl as [L1 L2]. destruct Hp as [P1 P2]. rewrite app_length in Ll, Lp. cbn [length] in Ll, Lp.
    apply at_mid in L2 as (L2 & L3 & L4). apply at_mid in P2 as (P2 & P3 & P4).
    destruct (@cpy r 0 r (length m + 1) (length k2)) as (a1 & E1 & N1 & A1 & B1); [lia|lia|].
    destruct (@cpy l (length k1 + 1) a1 0 (length m)) as (a2 & E2 & N2 & A2 & B2); [lia|lia|].
    destruct (@cpy p (length ka) a2 (length m) 1) as (a3 & E3 & N3 & A3 & B3); [lia|lia|].
    destruct (@cpy l (length k1) p (length ka) 1) as (p' & E4 & N4 & A4 & B4); [lia|lia|].
    exists a1, a2, a3, p'. repeat (split; [assumption|]). split.
    - split; [lia|]. apply at_join.
      + apply B3; [|lia]. apply A2; [exact L4|lia].
      + apply A3; [exact P3|cbn; lia].
      + apply B3; [|lia]. apply B2; [|lia]. apply A1; [exact R2|lia].
    - split; [lia|]. apply at_join.
      + apply B4; [exact P2|lia].
      + apply A4; [exact L3|cbn; lia].
      + apply B4; [exact P4|lia].
  Qed.

  Lemma shift_left l r p cap k1 m y k2 ka x kz :
    holds l k1 cap -> holds r (m ++ y :: k2) cap -> holds p (ka ++ x :: kz) cap -> length k1 + 1 + length m <= cap ->
    exists a1 a2 p' r',
      arr_copy p (length ka) l (length k1) 1 = Some a1 /\
      arr_copy r 0 a1 (length k1 + 1) (length m) = Some a2 /\
      arr_copy r (length m) p (length ka) 1 = Some p' /\
      arr_copy r (length m + 1) r 0 (length k2) = Some r' /\
      holds a2 (k1 ++ x :: m) cap /\ holds p' (ka ++ y :: kz) cap /\ holds r' k2 cap.
  Proof.
    intros [L1 L2] Hr Hp Lc. pose proof (holds_len Hr) as Lr. pose proof (holds_len Hp) as Lp.
    destruct Hr as [R1 R2]. destruct Hp as [P1 P2]. rewrite app_length in Lr, Lp. cbn [length] in Lr, Lp.
    apply at_mid in R2 as (R2 & R3 & R4). apply at_mid in P2 as (P2 & P3 & P4).
    destruct (@cpy p (length ka) l (length k1) 1) as (a1 & E1 & N1 & A1 & B1); [lia|lia|].
    destruct (@cpy r 0 a1 (length k1 + 1) (length m)) as (a2 & E2 & N2 & A2 & B2); [lia|lia|].
    destruct (@cpy r (length m) p (length ka) 1) as (p' & E3 & N3 & A3 & B3); [lia|lia|].
    destruct (@cpy r (length m + 1) r 0 (length k2)) as (r' & E4 & N4 & A4 & B4); [lia|lia|].
    exists a1, a2, p', r'. repeat (split; [assumption|]). split; [|split].
    - split; [lia|]. apply at_join.
      + apply B2; [|lia]. apply B1; [exact L2|lia].
      + apply B2; [|cbn; lia]. apply A1; [exact P3|cbn; lia].
      + apply A2; [exact R2|lia].
    - split; [lia|]. apply at_join.
      + apply B3; [exact P2|lia].
      + apply A3; [exact R3|cbn; lia].
      + apply B3; [exact P4|lia].
    - split; [lia|]. apply A4; [exact R4|lia].
  Qed.
End Arr.

Section Ops.
  Variables (K V : Type).
  Notation kv := (K * V)%type.
  Notation cell := (cell K V).
  Notation heap := (heap K V).
  Notation HM := (HM K V).
  Notation ltree := (ltree K V).
  Notation lroot := (@lroot K V).
  Implicit Types (hp : heap) (c : cell).

  Lemma wp_kv_pointers r c ks hp (Q : unit -> heap -> Prop) :
    rl r <> sroot -> hget hp (rl r) = Some c -> clen c = length ks ->
    holds (ckeys c) (map fst ks) CAPACITY -> holds (cvals c) (map snd ks) CAPACITY -> Q tt hp -> wp (kv_pointers r) hp Q.
  Proof.
    intros N G L H1 H2 H. unfold kv_pointers. st wp_keys; [exact G|exact H1|now rewrite map_length|].
    st wp_vals; [exact N|exact G|exact H2|now rewrite map_length|]. apply wp_ret. exact H.
  Qed.

  Lemma wp_move_kv src cs so dst cd d n ka va hp (Q : unit -> heap -> Prop) :
    src <> dst -> dst <> sroot -> hget hp src = Some cs -> hget hp dst = Some cd ->
    arr_copy (ckeys cs) so (ckeys cd) d n = Some ka -> arr_copy (cvals cs) so (cvals cd) d n = Some va ->
    (forall hp', hup hp dst (Some (Cell (cint cd) (cpar cd) (cpidx cd) (clen cd) ka va (cedges cd))) hp' -> Q tt hp') ->
    wp (move_kv (K := K) (V := V) src so dst d n) hp Q.
  Proof.
    intros D N Gs Gd Ek Ev H. unfold move_kv. st wp_a_copy; [exact D|exact N|exact Gs|exact Gd|exact Ek|].
    intros hp1 U1. cbn in U1. eapply wp_a_copy; [exact D|exact N|hgs|hgs|exact Ev|]. intros hp2 U2. cbn in U2.
    apply H. exact (hup_trans U1 U2).
  Qed.

  (** the two children and their parent *)
  Lemma owned_two hp lp ks a ll k1 e1 lr k2 e2 z :
    owned hp [LN lp ks (a ++ LN ll k1 e1 :: LN lr k2 e2 :: z)] ->
    exists c cl cr, lp <> sroot /\ ll <> sroot /\ lr <> sroot /\
      hget hp lp = Some c /\ hget hp ll = Some cl /\ hget hp lr = Some cr /\
      content c true ks (map lroot a ++ ll :: lr :: map lroot z) /\
      content cl (is_int e1) k1 (map lroot e1) /\ content cr (is_int e2) k2 (map lroot e2) /\
      kids_ok hp lp 0 a /\ kids_ok hp lp (S (S (length a))) z /\ kids_ok hp ll 0 e1 /\ kids_ok hp lr 0 e2 /\
      hung hp ll (Some (lp, length a)) /\ hung hp lr (Some (lp, S (length a))) /\
      arr_read (cedges c) (length a) = Some ll /\ arr_read (cedges c) (length a + 1) = Some lr.
  Proof.
    intros O. destruct (owned_node O) as (N & (c & G & C) & Hk & _). rewrite is_int_app in C.
    assert (arr_read (cedges c) (length a) = Some ll) as EL by exact (holds_edge C).
    assert (arr_read (cedges c) (length a + 1) = Some lr) as ER.
    { replace (a ++ LN ll k1 e1 :: LN lr k2 e2 :: z) with ((a ++ [LN ll k1 e1]) ++ LN lr k2 e2 :: z) in C by now rewrite <- app_assoc.
      replace (length a + 1) with (length (a ++ [LN ll k1 e1])) by lens. exact (holds_edge C). }
    rewrite map_app in C. cbn [map HeapRep.lroot] in C.
    apply kids_app in Hk as [Hka Hkb]. cbn [kids_ok HeapRep.lroot Nat.add] in Hkb. destruct Hkb as (Hhl & HBl & Hhr & HBr & Hkz).
    apply body_eq in HBl as (Nl & (cl & Gl & Cl) & Hk1). apply body_eq in HBr as (Nr & (cr & Gr & Cr) & Hk2).
    exists c, cl, cr. repeat (split; [assumption|]). assumption.
  Qed.

  Definition setk c n ka va ea : cell := Cell (cint c) (cpar c) (cpidx c) n ka va ea.

  (** what two siblings and their parent have become, when the links of the
      edges [e1'] and [e2'] are right *)
  Lemma siblings hp hp' lp ks ks' a ll k1 k1' e1 e1' lr k2 k2' e2 e2' z c cl cr c' cl' cr' :
    owned hp [LN lp ks (a ++ LN ll k1 e1 :: LN lr k2 e2 :: z)] ->
    Permutation (e1 ++ e2) (e1' ++ e2') ->
    hget hp lp = Some c -> hget hp ll = Some cl -> hget hp lr = Some cr ->
    hget hp' lp = Some c' -> hget hp' ll = Some cl' -> hget hp' lr = Some cr' ->
    cpar c' = cpar c -> cpidx c' = cpidx c -> cpar cl' = cpar cl -> cpidx cl' = cpidx cl -> cpar cr' = cpar cr -> cpidx cr' = cpidx cr ->
    content c' true ks' (map lroot a ++ ll :: lr :: map lroot z) ->
    content cl' (is_int e1') k1' (map lroot e1') -> content cr' (is_int e2') k2' (map lroot e2') ->
    (forall y, y <> lp -> y <> ll -> y <> lr -> ~ In y (map lroot (e1 ++ e2)) -> hget hp' y = hget hp y) ->
    (forall y, In y (map lroot (e1 ++ e2)) -> linkeq (hget hp y) (hget hp' y)) ->
    (forall j y, nth_error (map lroot e1') j = Some y -> hung hp' y (Some (ll, j))) ->
    (forall j y, nth_error (map lroot e2') j = Some y -> hung hp' y (Some (lr, j))) ->
    evolves hp [LN lp ks (a ++ LN ll k1 e1 :: LN lr k2 e2 :: z)] hp' [LN lp ks' (a ++ LN ll k1' e1' :: LN lr k2' e2' :: z)] /\ keeps hp hp' lp.
  Proof.
    intros O PE G Gl Gr G' Gl' Gr' P1 P2 P3 P4 P5 P6 C Cl Cr X XL H1 H2.
    destruct (@prep K V hp _ [lp; ll; lr] (a ++ z ++ e1 ++ e2) O) as [ND AL]; [perm|].
    destruct (owned_two O) as (c0 & cl0 & cr0 & N & Nl & Nr & _ & _ & _ & _ & _ & _ & Ka & Kz & K1 & K2 & Hl & Hr & _).
    assert (Permutation (flocs (e1 ++ e2)) (flocs (e1' ++ e2'))) as PF by (unfold flocs; now apply Permutation_flat_map).
    assert (Forall (body hp) (a ++ z ++ e1 ++ e2)) as HS.
    { apply Forall_app. split; [eapply kids_body; eauto|]. apply Forall_app. split; [eapply kids_body; eauto|].
      apply Forall_app. split; eapply kids_body; eauto. }
    pose proof ND as ND0. rewrite !map_app in ND0. cbn [app] in ND0. explode.
    assert (forall y, In y (map lroot (a ++ z ++ e1 ++ e2)) -> y <> lp /\ y <> ll /\ y <> lr) as NT.
    { intros y Hy. split; [|split]; intros ->; [dis lp|dis ll|dis lr]. }
    assert (forall y, In y (map lroot (a ++ z)) -> hget hp' y = hget hp y) as Y.
    { intros y Hy. destruct (NT y) as (? & ? & ?); [dis y|]. apply X; auto. dis y. }
    split; [|eapply keeps_cell; eauto].
    eapply assemble2 with (T := [lp; ll; lr]) (T' := [lp; ll; lr]) (S := a ++ z ++ e1 ++ e2); [exact O|perm| | | | | | |exact HS|].
    - etransitivity; [|apply Permutation_app_head; rewrite flocs_app; apply Permutation_app_head; rewrite flocs_app;
        apply Permutation_app_head; symmetry; exact PF]. perm.
    - constructor; [dis lp|]. constructor; [dis ll|]. constructor; [easy|constructor].
    - tauto.
    - tauto.
    - intros y Hy _ Hn. cbn in Hy. apply X; try (intuition; fail). dis y.
    - intros y Hy. destruct (in_dec Nat.eq_dec y (map lroot (e1 ++ e2))) as [J | J]; [auto|].
      left. apply Y. dis y.
    - intros HB. apply Forall_app in HB as [HBa HBz]. apply Forall_app in HBz as [HBz HBe].
      assert (Forall (body hp') (e1' ++ e2')) as HBe' by (eapply Permutation_Forall; [exact PE|exact HBe]).
      apply Forall_app in HBe' as [HB1 HB2].
      constructor; [|constructor]. apply body_eq. split; [exact N|]. split.
      + exists c'. split; [exact G'|]. rewrite is_int_app, map_app. exact C.
      + apply kids_app. split; [|cbn [kids_ok HeapRep.lroot Nat.add]; split; [|split; [|split; [|split]]]].
        * apply kids_iff. split; [exact HBa|]. intros j y Hj. pose proof (nth_error_In _ _ Hj). apply kids_iff in Ka as [_ Ka].
          eapply keeps_get; [|exact (Ka j y Hj)]. apply Y. dis y.
        * eapply keeps_cell; [exact Gl|exact Gl'|assumption|assumption|exact Hl].
        * apply body_eq. split; [exact Nl|]. split; [eauto|]. apply kids_iff. split; [exact HB1|exact H1].
        * eapply keeps_cell; [exact Gr|exact Gr'|assumption|assumption|exact Hr].
        * apply body_eq. split; [exact Nr|]. split; [eauto|]. apply kids_iff. split; [exact HB2|exact H2].
        * apply kids_iff. split; [exact HBz|]. intros j y Hj. pose proof (nth_error_In _ _ Hj). apply kids_iff in Kz as [_ Kz].
          eapply keeps_get; [|exact (Kz j y Hj)]. apply Y. dis y.
  Qed.
End Ops.
