(** * HashBooks: the books of HashHistorySpec balance, and keys stay distinct *)
From Coq Require Import List Arith Lia Bool Permutation.
Import ListNotations.
From Verif Require Import Base VecModel MiscModel MiscSpec HashHistoryModel HashHistorySpec.
Set Implicit Arguments.

Section B.
  Variable W : Type.
  Variable alloc : nat -> W -> answer * W.
  Variables K V : Type.
  Variable keq : K -> K -> bool.
  Variable esz : nat.
  Variable kclone : K -> W -> outcome reserve_error K * W.
  Variable vclone : V -> W -> outcome reserve_error V * W.
  Variable kdrop : K -> W -> W.
  Variable vdrop : V -> W -> W.
  Notation kv := (K * V)%type.
  Notation table := (nat -> list kv).
  Notation copies := (copies keq kclone vclone kdrop vdrop).
  Notation tspec := (tspec alloc keq esz kclone vclone kdrop vdrop).
  Notation thistory := (thistory alloc keq esz kclone vclone kdrop vdrop).

  Section Weights.
    Variable L : ledger W K V.
    Hypothesis HL : keeps alloc kclone vclone kdrop vdrop L.
    Variable kw : K -> nat.
    Variable vw : V -> nat.

    Definition wk (l : list K) : nat := list_sum (map kw l).
    Definition wv (l : list V) : nat := list_sum (map vw l).
    Definition pw (x : kv) : nat := kw (fst x) + vw (snd x).
    Definition lw (l : list kv) : nat := list_sum (map pw l).
    Definition mw (w : W) : nat := wk (k_made L w) + wv (v_made L w).
    Definition gw (w : W) : nat := wk (k_gone L w) + wv (v_gone L w).
    Definition dw (d : corpse K V) : nat := match d with DeadK _ k => kw k | DeadV _ v => vw v end.
    Definition ow (x : option kv) : nat := match x with Some x => pw x | None => 0 end.

    Lemma lw_app a b : lw (a ++ b) = lw a + lw b.
    Proof using. unfold lw. now rewrite map_app, list_sum_app. Qed.
    Lemma lw_cons x b : lw (x :: b) = pw x + lw b.
    Proof using. reflexivity. Qed.
    Lemma lw_perm a b : Permutation a b -> lw a = lw b.
    Proof using. induction 1; rewrite ?lw_cons; lia. Qed.
    Lemma wk_app a b : wk (a ++ b) = wk a + wk b.
    Proof using. unfold wk. now rewrite map_app, list_sum_app. Qed.
    Lemma wv_app a b : wv (a ++ b) = wv a + wv b.
    Proof using. unfold wv. now rewrite map_app, list_sum_app. Qed.
    Lemma wkv l : wk (map fst l) + wv (map snd l) = lw l.
    Proof using. induction l as [|x l IH]; [reflexivity|]. rewrite lw_cons. unfold wk, wv, pw, list_sum in *. cbn [map fold_right]. lia. Qed.

    Lemma bury_w w d : gw (bury kdrop vdrop w d) = gw w + dw d /\ mw (bury kdrop vdrop w d) = mw w.
    Proof using HL.
      destruct d as [k|v]; cbn [bury dw]; unfold gw, mw, wk, wv, list_sum.
      - destruct (on_kdrop HL k w) as (-> & -> & -> & ->). cbn [map fold_right]. lia.
      - destruct (on_vdrop HL v w) as (-> & -> & -> & ->). cbn [map fold_right]. lia.
    Qed.
    Lemma buries_w ds : forall w w', buries kdrop vdrop ds w w' -> gw w' = gw w + list_sum (map dw ds) /\ mw w' = mw w.
    Proof using HL.
      unfold buries. induction ds as [|d ds IH]; intros w w' ->; unfold list_sum; cbn [fold_left map fold_right]; [lia|].
      destruct (IH (bury kdrop vdrop w d) _ eq_refl) as [A B]. destruct (bury_w w d) as [C D]. unfold list_sum in *. lia.
    Qed.
    Lemma remains_w l : list_sum (map dw (remains l)) = lw l.
    Proof using. induction l as [|x l IH]; [reflexivity|]. rewrite lw_cons. unfold remains, pw, list_sum in *. cbn [flat_map app map fold_right dw]. lia. Qed.
    Lemma dies_w l w w' : dies kdrop vdrop l w w' -> gw w' = gw w + lw l /\ mw w' = mw w.
    Proof using HL. intros (ord & P & B). apply buries_w in B. rewrite remains_w, (lw_perm P) in B. exact B. Qed.

    Lemma alloc_w n w a w' : alloc n w = (a, w') -> gw w' = gw w /\ mw w' = mw w.
    Proof using HL.
      intros E. destruct (on_alloc HL n w) as (A & B & C & D). rewrite E in *. cbn in *.
      unfold gw, mw. rewrite A, B, C, D. auto.
    Qed.
    Lemma room_w n l w w' : room (K := K) (V := V) alloc esz n l w w' -> gw w' = gw w /\ mw w' = mw w.
    Proof using HL. intros [->|[x E]]; [auto|]. now apply alloc_w in E. Qed.
    Lemma no_room_w n l w w' : no_room (K := K) (V := V) alloc esz n l w w' -> gw w' = gw w /\ mw w' = mw w.
    Proof using HL. intros [_ [x E]]. now apply alloc_w in E. Qed.

    Lemma kclone_w k w o w' : kclone k w = (o, w') -> gw w' = gw w /\ mw w' = mw w + match o with Ret k' => kw k' | _ => 0 end.
    Proof using HL.
      intros E. pose proof (on_kclone HL k w) as H. rewrite E in H. destruct H as (A & B & C & D).
      unfold gw, mw, wk, list_sum. rewrite A, B, C, D. destruct o; cbn [map fold_right]; lia.
    Qed.
    Lemma vclone_w v w o w' : vclone v w = (o, w') -> gw w' = gw w /\ mw w' = mw w + match o with Ret v' => vw v' | _ => 0 end.
    Proof using HL.
      intros E. pose proof (on_vclone HL v w) as H. rewrite E in H. destruct H as (A & B & C & D).
      unfold gw, mw, wv, list_sum. rewrite A, B, C, D. destruct o; cbn [map fold_right]; lia.
    Qed.

    Lemma finds_w k l x rest : finds keq k l x rest -> lw l = lw rest + ow x.
    Proof using. intros F. inversion F; subst; cbn; [|lia]. rewrite (lw_perm H), lw_cons. lia. Qed.
    Lemma put_w k v x rest : lw (put k v x rest) = lw rest + vw v + match x with Some (k0, _) => kw k0 | None => kw k end.
    Proof using. destruct x as [[k0 v0]|]; cbn [put]; rewrite lw_cons; unfold pw; cbn; lia. Qed.

    Lemma copies_w l c w o c' w' : copies l c w o c' w' -> lw c + gw w + mw w' = lw c' + gw w' + mw w.
    Proof using HL.
      induction 1 as [c w|k v l c w k' w1 v' w2 x rest w3 o c' w' Ek Ev F B _ IH|k v l c w e w1 Ek|k v l c w w1 Ek|k v l c w k' w1 e w2 Ek Ev|k v l c w k' w1 w2 Ek Ev].
      - lia.
      - apply kclone_w in Ek. apply vclone_w in Ev. apply finds_w in F. apply buries_w in B. rewrite put_w in IH.
        destruct x as [[k0 v0]|]; cbn in *; unfold pw in *; cbn in *; lia.
      - apply kclone_w in Ek. lia.
      - apply kclone_w in Ek. lia.
      - apply kclone_w in Ek. apply vclone_w in Ev. destruct (bury_w w2 (DeadK V k')) as [A B]. cbn in *. lia.
      - apply kclone_w in Ek. apply vclone_w in Ev. destruct (bury_w w2 (DeadK V k')) as [A B]. cbn in *. lia.
    Qed.

    Lemma live_w N (S : table) : lw (live N S) = list_sum (map (fun r => lw (S r)) (seq 0 N)).
    Proof using. unfold live. induction (seq 0 N) as [|r l IH]; cbn [map List.concat]; [reflexivity|]. rewrite lw_app, IH. reflexivity. Qed.
    Lemma live_upd_seq (S : table) r l n : forall k, k <= r < k + n ->
      list_sum (map (fun i => lw (upd S r l i)) (seq k n)) + lw (S r) = list_sum (map (fun i => lw (S i)) (seq k n)) + lw l.
    Proof using.
      induction n as [|n IH]; intros k H; [lia|]. cbn [seq map list_sum fold_right].
      destruct (Nat.eq_dec k r) as [->|N].
      - assert (E : list_sum (map (fun i => lw (upd S r l i)) (seq (Datatypes.S r) n)) = list_sum (map (fun i => lw (S i)) (seq (Datatypes.S r) n))).
        { f_equal. apply map_ext_in. intros i Hi. apply in_seq in Hi. unfold upd. destruct (Nat.eqb_spec i r); [lia|reflexivity]. }
        unfold list_sum in *. rewrite E. unfold upd at 1. rewrite Nat.eqb_refl. lia.
      - specialize (IH (Datatypes.S k) ltac:(lia)). unfold list_sum in *.
        replace (upd S r l k) with (S k) by (unfold upd; destruct (Nat.eqb_spec k r); [lia|reflexivity]). lia.
    Qed.
    Lemma live_upd N (S : table) r l : r < N -> lw (live N (upd S r l)) + lw (S r) = lw (live N S) + lw l.
    Proof using. intros H. rewrite !live_w. apply live_upd_seq. lia. Qed.

    Definition tw (c : top K V) : nat := wk (taken_k c) + wv (taken_v c).
    Definition ginw (o : outcome reserve_error (tres K V)) : nat := wk (given_k o) + wv (given_v o).

    Lemma tspec_w N S w c o S' w' : below N c -> tspec S w c o S' w' ->
      tw c + lw (live N S) + gw w + mw w' = ginw o + lw (live N S') + gw w' + mw w.
    Proof using HL.
      intros Bl H. destruct H; cbn in Bl; unfold tw, ginw, wk, wv; cbn [taken_k taken_v given_k given_v map list_sum fold_right];
        repeat match goal with
        | H : dies _ _ _ _ _ |- _ => apply dies_w in H
        | H : room _ _ _ _ _ _ |- _ => apply room_w in H
        | H : no_room _ _ _ _ _ _ |- _ => apply no_room_w in H
        | H : finds _ _ _ _ _ |- _ => apply finds_w in H
        | H : buries _ _ _ _ _ |- _ => apply buries_w in H
        | H : HashHistorySpec.copies _ _ _ _ _ _ _ _ _ _ _ |- _ => apply copies_w in H
        | H : Permutation _ _ |- _ => apply lw_perm in H
        | H : _ /\ _ |- _ => destruct H
        end; rewrite ?remains_w, ?lw_app in *;
        try (match goal with |- context [live N (upd S ?r ?l)] => pose proof (live_upd S l (ltac:(assumption) : r < N)) end);
        rewrite ?put_w in *; change (lw []) with 0 in *; try lia.
      - destruct x as [[k0 v0]|]; cbn in *; unfold pw in *; cbn in *; lia.
      - unfold list_sum in *. cbn in *. lia.
      - destruct x as [[k0 v0]|]; cbn in *; unfold pw in *; cbn in *; lia.
      - pose proof (wkv l) as E. unfold wk, wv, list_sum in E. lia.
    Qed.

    Lemma thistory_w N cs S w os S' w' : thistory cs S w os S' w' -> Forall (@below K V N) cs ->
      list_sum (map tw cs) + lw (live N S) + gw w + mw w' = list_sum (map ginw os) + lw (live N S') + gw w' + mw w.
    Proof using HL.
      induction 1 as [S w|c cs S w o S1 w1 os S' w' T _ IH]; intros B; unfold list_sum in *; cbn [map fold_right]; [lia|].
      apply Forall_cons_iff in B as [B1 B2]. specialize (IH B2). pose proof (@tspec_w N S w c o S1 w1 B1 T). lia.
    Qed.
    Lemma tw_sum cs : list_sum (map tw cs) = wk (flat_map (@taken_k K V) cs) + wv (flat_map (@taken_v K V) cs).
    Proof using. induction cs as [|c cs IH]; [reflexivity|]. cbn [map flat_map]. rewrite wk_app, wv_app. unfold tw, list_sum in *. cbn [map fold_right]. lia. Qed.
    Lemma ginw_sum os : list_sum (map ginw os) = wk (flat_map (@given_k K V) os) + wv (flat_map (@given_v K V) os).
    Proof using. induction os as [|c cs IH]; [reflexivity|]. cbn [map flat_map]. rewrite wk_app, wv_app. unfold ginw, list_sum in *. cbn [map fold_right]. lia. Qed.
  End Weights.

  (** *** the last act: all maps dropped *)
  Lemma thistory_app cs1 : forall cs2 S w os S' w', thistory (cs1 ++ cs2) S w os S' w' ->
    exists os1 os2 S1 w1, os = os1 ++ os2 /\ thistory cs1 S w os1 S1 w1 /\ thistory cs2 S1 w1 os2 S' w'.
  Proof using.
    induction cs1 as [|c cs1 IH]; intros cs2 S w os S' w' H.
    - exists [], os, S, w. split; [reflexivity|]. split; [constructor|exact H].
    - inversion H as [|? ? ? ? ? ? ? ? ? ? HT H7]; subst. destruct (IH _ _ _ _ _ _ H7) as (os1 & os2 & S2 & w2 & -> & A & B).
      exists (o :: os1), os2, S2, w2. split; [reflexivity|]. split; [econstructor; eassumption|exact B].
  Qed.
  Lemma drop_all_empty n : forall k S w os S' w', thistory (map (@TNew K V) (seq k n)) S w os S' w' ->
    (forall r, r < k -> S r = []) -> forall r, r < k + n -> S' r = [].
  Proof using.
    induction n as [|n IH]; intros k S w os S' w' H E r Hr; cbn in H; inversion H; subst.
    - apply E. lia.
    - eapply (IH (Datatypes.S k)); [eassumption| |lia]. intros j Hj.
      match goal with T : HashHistorySpec.tspec _ _ _ _ _ _ _ _ _ (TNew _) _ _ _ |- _ => inversion T; subst end.
      unfold upd. destruct (Nat.eqb_spec j k); [reflexivity|]. apply E. lia.
  Qed.
  Lemma live_empty N (S : table) : (forall r, r < N -> S r = []) -> live N S = [].
  Proof using.
    intros H. unfold live. assert (G : forall l, (forall r, In r l -> r < N) -> List.concat (map S l) = []).
    { intros l. induction l as [|r l IH]; cbn; intros Hl; [reflexivity|]. rewrite H by auto. cbn. apply IH. auto. }
    apply G. intros r Hr. apply in_seq in Hr. lia.
  Qed.

  (** *** distinct keys *)
  Section Distinct.
    Hypothesis Hk : key_eq_laws keq.
    Notation dk := (distinct_keys keq).

    Lemma dk_cons (x : kv) l : dk (x :: l) <-> Forall (fun y => keq (fst x) (fst y) = false) l /\ dk l.
    Proof using. split; [intros H; now inversion H|intros [A B]; now constructor]. Qed.

    Lemma dk_perm (l l' : list kv) : Permutation l l' -> dk l -> dk l'.
    Proof using Hk.
      induction 1 as [|x l l' P IH|x y l|l l' l'' _ IH1 _ IH2]; intros H; auto.
      - apply dk_cons in H as [A B]. apply dk_cons. split; [|auto]. rewrite Forall_forall in *. intros z Hz. apply A. now apply (Permutation_in z (Permutation_sym P)).
      - apply dk_cons in H as [A B]. apply dk_cons in B as [B C]. apply Forall_cons_iff in A as [A1 A2].
        apply dk_cons. split; [constructor; [rewrite (keq_sym Hk); exact A1|exact B]|]. apply dk_cons. auto.
    Qed.

    Lemma dk_put k v (l : list kv) x rest : dk l -> finds keq k l x rest -> dk (put k v x rest).
    Proof using Hk.
      intros D F. inversion F as [[k0 v0] r P E|M]; subst; cbn [put].
      - pose proof (dk_perm P D) as D'. apply dk_cons in D'. apply dk_cons. exact D'.
      - apply dk_cons. auto.
    Qed.
    Lemma dk_rest k (l : list kv) x rest : dk l -> finds keq k l x rest -> dk rest.
    Proof using Hk. intros D F. inversion F as [y r P E|M]; subst; [|exact D]. pose proof (dk_perm P D) as D'. now apply dk_cons in D'. Qed.

    Lemma dk_copies l c w o c' w' : copies l c w o c' w' -> dk c -> dk c'.
    Proof using Hk. induction 1; auto. intros D. apply IHcopies. eapply dk_put; eassumption. Qed.

    Lemma dk_upd (S : table) r l : (forall r, dk (S r)) -> dk l -> forall r', dk (upd S r l r').
    Proof using. intros A B r'. unfold upd. now destruct (r' =? r). Qed.

    Lemma dk_step (S : table) w c o S' w' : tspec S w c o S' w' -> (forall r, dk (S r)) -> forall r, dk (S' r).
    Proof using Hk.
      assert (D0 : dk (@nil kv)) by constructor.
      intros T D. destruct T; auto; apply dk_upd; auto.
      - eapply dk_put; [apply D|eassumption].
      - eapply dk_rest; [apply D|eassumption].
      - eapply dk_copies; [eassumption|exact D0].
    Qed.
    Lemma dk_history cs S w os S' w' : thistory cs S w os S' w' -> (forall r, dk (S r)) -> forall r, dk (S' r).
    Proof using Hk. induction 1 as [|c cs S w o S1 w1 os S' w' T _ IH]; intros D; auto. apply IH. eapply dk_step; eassumption. Qed.
  End Distinct.
End B.
