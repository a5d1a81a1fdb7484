(** * CostSets: the calls of user code of the set algebra (C54) *)
From Coq Require Import List Arith Lia Bool.
From Verif Require Import Base IterSpec BTreeModel BTreeIterModel BTreeSetModel BTreeInv BTreeSplit HeapModel HistoryModel HistoryProofs HeapMapModel HeapMap HeapRes HeapHistory.
From Verif Require Import HostileModel HostileSpec HostileOps HostileSetModel CostHeap CostSpec CostLogic CostSteps.
Import ListNotations.
Set Implicit Arguments.

(** ** Functions that leave the memory as it is *)
Section Still.
  Variables (K V W : Type).
  Notation heap := (HeapModel.heap K V).
  Notation HM := (HM K V).
  Notation AM := (AM K V W).
  Definition still (A : Type) (m : HM A) : Prop := forall hp a hp', m hp = Some (a, hp') -> hp' = hp.
  Arguments still {A} m.
  Definition quiet (A : Type) (m : AM A) : Prop := forall hp w, snd (fst (m hp w)) = hp.
  Arguments quiet {A} m.
  Lemma t_ret A (a : A) : still (hret a). Proof. intros hp x hp' [= _ <-]. reflexivity. Qed.
  Lemma t_ub A : still (@hub K V A). Proof. intros hp x hp'. discriminate. Qed.
  Lemma t_bind A B (m : HM A) (f : A -> HM B) : still m -> (forall a, still (f a)) -> still (hbind m f).
  Proof. intros H1 H2 hp b hp'. unfold hbind. destruct (m hp) as [[a hp1]|] eqn:E; [|discriminate]. apply H1 in E. subst hp1. apply H2. Qed.
  Lemma t_check b : still (@check K V b). Proof. destruct b; [apply t_ret|apply t_ub]. Qed.
  Lemma t_of A (o : option A) : still (of_option o). Proof. destruct o; [apply t_ret|apply t_ub]. Qed.
  Lemma t_read l : still (@hread K V l).
  Proof. intros hp c hp'. unfold hread. destruct (hget hp l); [intros [= _ <-]; reflexivity|discriminate]. Qed.
  Lemma q_bind A B (m : AM A) (f : A -> AM B) : quiet m -> (forall a, quiet (f a)) -> quiet (abind m f).
  Proof.
    intros H1 H2 hp w. unfold abind. specialize (H1 hp w). destruct (m hp w) as [[o hp1] w1]. cbn in H1. subst hp1. destruct o; auto; apply H2.
  Qed.
  Lemma q_ret A (a : A) : quiet (aret a). Proof. intros hp w. reflexivity. Qed.
  Lemma q_ub A : quiet (@aub K V W A). Proof. intros hp w. reflexivity. Qed.
  Lemma q_ask A (q : asks W A) : quiet (ask q). Proof. intros hp w. unfold ask. destruct (q w) as [[a|] w']; reflexivity. Qed.
  Lemma q_lift A (m : HM A) : still m -> quiet (lift m).
  Proof. intros H hp w. unfold lift. destruct (m hp) as [[a hp1]|] eqn:E; [|reflexivity]. cbn. exact (H _ _ _ E). Qed.

  Hint Resolve t_ret t_ub t_bind t_check t_of t_read : still.
  Ltac t1 := match goal with
    | |- forall _, _ => intro
    | |- still (hbind _ _) => apply t_bind
    | |- still (match ?x with _ => _ end) => destruct x
    | |- still _ => solve [auto with still]
    end.
  Ltac ts := repeat t1; try solve [auto with still].
  Lemma t_aread A (f : field K V A) l i : still (a_read f l i). Proof. unfold a_read. ts. Qed.
  Lemma t_slice A (f : field K V A) l n : still (slice f l n). Proof. unfold slice. ts. Qed.
  Lemma t_nlen r : still (@n_len K V r). Proof. unfold n_len. ts. Qed.
  Lemma t_shared r : still (@not_shared K V r). Proof. unfold not_shared. ts. Qed.
  Hint Resolve t_aread t_slice t_nlen t_shared : still.
  Lemma t_nkeys r : still (@n_keys K V r). Proof. unfold n_keys. ts. Qed.
  Lemma t_nvals r : still (@n_vals K V r). Proof. unfold n_vals. ts. Qed.
  Lemma t_ascend r : still (@ascend K V r). Proof. unfold ascend. ts. Qed.
  Lemma t_nedge r i : still (@new_edge K V r i). Proof. unfold new_edge. ts. Qed.
  Lemma t_nkv r i : still (@new_kv K V r i). Proof. unfold new_kv. ts. Qed.
  Lemma t_descend h : still (@h_descend K V h). Proof. unfold h_descend. destruct h. ts. Qed.
  Hint Resolve t_nkeys t_nvals t_ascend t_nedge t_nkv t_descend : still.
  Lemma t_redge h : still (@right_edge K V h). Proof. unfold right_edge. ts. Qed.
  Lemma t_fedge r : still (@first_edge K V r). Proof. unfold first_edge. ts. Qed.
  Lemma t_ledge r : still (@last_edge K V r). Proof. unfold last_edge. ts. Qed.
  Lemma t_rkv h : still (@right_kv K V h). Proof. unfold right_kv. ts. Qed.
  Lemma t_ikv h : still (@h_into_kv K V h). Proof. unfold h_into_kv. destruct h. ts. Qed.
  Hint Resolve t_redge t_fedge t_ledge t_rkv t_ikv : still.
  Lemma t_fle n : forall r, still (@h_first_leaf_edge K V n r). Proof. induction n; intros; cbn [h_first_leaf_edge]; ts. Qed.
  Lemma t_lle n : forall r, still (@h_last_leaf_edge K V n r). Proof. induction n; intros; cbn [h_last_leaf_edge]; ts. Qed.
  Hint Resolve t_fle t_lle : still.
  Lemma t_climbr n : forall r, still (@h_climb_right K V n r). Proof. induction n; intros; cbn [h_climb_right]; ts. Qed.
  Hint Resolve t_climbr : still.
  Lemma t_nextu n h : still (@h_next_unchecked K V n h). Proof. unfold h_next_unchecked. ts. Qed.
  Hint Resolve t_nextu : still.
  Lemma t_inext f i : still (@h_iter_next K V f i). Proof. unfold h_iter_next. ts. Qed.
  Lemma t_iter m : still (@h_iter K V m). Proof. unfold h_iter. ts. Qed.
  Hint Resolve t_inext t_iter : still.
  Lemma q_linear q l : quiet (hx_linear (V := V) (W := W) q l).
  Proof. induction l as [|k l IH]; cbn [hx_linear]; [apply q_ret|]. apply q_bind; [apply q_ask|]. intros []; try apply q_ret. apply q_bind; [exact IH|]. intros ?. apply q_ret. Qed.
  Lemma q_node q r : quiet (hx_search_linear (V := V) (W := W) q r).
  Proof. apply q_bind; [apply q_lift; ts|]. intros l. apply q_linear. Qed.
  Lemma q_tree q n : forall r, quiet (hx_search_tree (V := V) (W := W) n q r).
  Proof.
    induction n as [|n IH]; intros r; cbn [hx_search_tree]; [apply q_ub|]. apply q_bind; [apply q_node|]. intros s.
    destruct (snd s); [apply q_lift; ts|]. apply q_bind; [apply q_lift; ts|]. intros e. destruct (rh r); [apply q_ret|].
    apply q_bind; [apply q_lift; ts|]. intros c. apply IH.
  Qed.
  Lemma q_get q m : quiet (hx_get_key_value (V := V) (W := W) q m).
  Proof. apply q_bind; [apply q_tree|]. intros [h|h]; [apply q_lift; ts|apply q_ret]. Qed.
End Still.
Global Hint Resolve t_inext t_iter : still.
Arguments quiet {K V W A} m.

Section Sets.
  Variables (T W : Type).
  Notation heap := (HeapModel.heap T unit).
  Notation AM := (AM T unit W).
  Variable kcmp : T -> T -> asks W comparison.
  Notation slim := (@slim T unit).
  Notation hsiter := (hsiter).
  Notation hlazy := (hlazy T).

  (** ** The lazy iterators only read *)
  Lemma q_siter m : quiet (hs_iter (T := T) (W := W) m).
  Proof. apply q_bind; [apply q_lift; auto with still|]. intros ?. apply q_ret. Qed.
  Lemma q_snext a : quiet (hs_next (T := T) (W := W) a).
  Proof. apply q_bind; [apply q_lift; auto with still|]. intros ?. apply q_ret. Qed.
  Lemma q_contains x m : quiet (hs_contains kcmp x m).
  Proof. apply q_bind; [apply q_get|]. intros ?. apply q_ret. Qed.
  Lemma q_peek p : quiet (hsp_peek (T := T) (W := W) p).
  Proof. unfold hsp_peek. destruct (hsp p); [apply q_ret|]. apply q_bind; [apply q_snext|]. intros ?. apply q_ret. Qed.
  Lemma q_pnext p : quiet (hsp_next (T := T) (W := W) p).
  Proof. unfold hsp_next. destruct (hsp p); [apply q_ret|]. apply q_bind; [apply q_snext|]. intros ?. apply q_ret. Qed.
  Lemma q_cmp x y a b : quiet (hs_cmp_opt kcmp x y a b).
  Proof. destruct x, y; try apply q_ret. apply q_ask. Qed.
  Ltac q1 := match goal with
    | |- forall _, _ => intro
    | |- quiet (abind _ _) => apply q_bind
    | |- quiet (match ?x with _ => _ end) => destruct x
    | |- quiet (aret _) => apply q_ret
    | |- quiet _ => solve [auto using q_siter, q_snext, q_contains, q_peek, q_pnext, q_cmp, q_ask, q_ub]
    end.
  Lemma q_dstitch n : forall x a b, quiet (hd_stitch kcmp n x a b). Proof. induction n; intros; cbn [hd_stitch]; repeat q1. Qed.
  Lemma q_dsearch n : forall a b, quiet (hd_search kcmp n a b). Proof. induction n; intros; cbn [hd_search]; repeat q1. Qed.
  Lemma q_sym n : forall a b, quiet (hsym_loop kcmp n a b). Proof. induction n; intros; cbn [hsym_loop]; repeat q1. Qed.
  Lemma q_istitch n : forall x y a b, quiet (hi_stitch kcmp n x y a b). Proof. induction n; intros; cbn [hi_stitch]; repeat q1. Qed.
  Lemma q_isearch n : forall a b, quiet (hi_search kcmp n a b). Proof. induction n; intros; cbn [hi_search]; repeat q1. Qed.
  Lemma q_lazy_next d : quiet (hlazy_next kcmp d).
  Proof.
    destruct d; cbn [hlazy_next]; try (unfold hunion_next); auto using q_dsearch, q_sym, q_isearch; repeat q1; try apply q_dstitch; try apply q_istitch.
  Qed.

  (** ** What is left in an iterator *)
  Definition psize (p : hspeek T) : nat := hs_len (hsin p) + match hsp p with Some (Some _) => 1 | _ => 0 end.

  Section Cost.
    Variable cnt : W -> nat.
    Notation pays := (pays (K := T) (V := unit) cnt).
    (** [m] makes no calls, and what it returns satisfies [P] *)
    Definition yields (A : Type) (m : AM A) (P : A -> Prop) : Prop :=
      forall hp w, slim hp -> let '(o, hp', w') := m hp w in slim hp' /\ cnt w' <= cnt w /\ match o with Ret a => P a | _ => True end.
    Arguments yields {A} m P.
    Lemma y_bind A B (m : AM A) (f : A -> AM B) P n R : yields m P -> (forall a, P a -> pays (f a) n R) -> pays (abind m f) n R.
    Proof.
      intros H1 H2 hp w SL. unfold abind. specialize (H1 hp w SL). destruct (m hp w) as [[o hp1] w1]. destruct H1 as (S1 & L1 & Q).
      destruct o as [a|e| | |]; try (split; [exact S1|lia]). specialize (H2 a Q hp1 w1 S1). destruct (f a hp1 w1) as [[o hp2] w2]. destruct H2 as [S2 L2]. split; [exact S2|lia].
    Qed.
    Lemma y_seq A B (m : AM A) (f : A -> AM B) P R : yields m P -> (forall a, P a -> yields (f a) R) -> yields (abind m f) R.
    Proof.
      intros H1 H2 hp w SL. unfold abind. specialize (H1 hp w SL). destruct (m hp w) as [[o hp1] w1]. destruct H1 as (S1 & L1 & Q).
      destruct o as [a|e| | |]; try (split; [exact S1|split; [lia|exact I]]). specialize (H2 a Q hp1 w1 S1). destruct (f a hp1 w1) as [[o hp2] w2]. destruct H2 as (S2 & L2 & Q2).
      split; [exact S2|split; [lia|exact Q2]].
    Qed.
    Lemma y_ret A (a : A) (P : A -> Prop) : P a -> yields (aret a) P.
    Proof. intros H hp w SL. cbn. auto. Qed.
    Lemma y_lift A (m : HM T unit A) (P : A -> Prop) : keeps m -> (forall hp a hp', m hp = Some (a, hp') -> P a) -> yields (lift m) P.
    Proof.
      intros H1 H2 hp w SL. unfold lift. destruct (m hp) as [[a hp1]|] eqn:E; (split; [|split; [lia|]]); [exact (H1 _ _ _ SL E)|exact (H2 _ _ _ E)|exact SL|exact I].
    Qed.
    Lemma y_siter m : yields (hs_iter (T := T) (W := W) m) (fun a => hs_len a = mlen m).
    Proof.
      eapply y_seq with (P := fun it => xlen it = mlen m); [apply y_lift; [auto with slim|]|].
      - intros hp it hp' E. exact (iter_len _ _ E).
      - intros it E. apply y_ret. exact E.
    Qed.
    Definition took (a : hsiter) (r : option T * hsiter) : Prop := hs_len a = hs_len (snd r) + match fst r with Some _ => 1 | None => 0 end.
    Lemma y_snext a : yields (hs_next (T := T) (W := W) a) (took a).
    Proof.
      eapply y_seq with (P := fun r => xlen (hsi a) = xlen (snd r) + match fst r with Some _ => 1 | None => 0 end); [apply y_lift; [auto with slim|]|].
      - intros hp [o it] hp' E. apply inext_len in E. cbn [fst snd]. destruct o; lia.
      - intros [o it] E. apply y_ret. unfold took, hs_len. cbn [fst snd hsi] in *. destruct o; exact E.
    Qed.
    Definition peeked (p : hspeek T) (r : option T * hspeek T) : Prop := psize (snd r) = psize p /\ hsp (snd r) = Some (fst r).
    Lemma y_peek p : yields (hsp_peek (T := T) (W := W) p) (peeked p).
    Proof.
      unfold hsp_peek, peeked. destruct (hsp p) as [o|] eqn:E; [apply y_ret; auto|].
      eapply y_seq; [apply y_snext|]. intros [o a] H. apply y_ret. unfold took, psize in *. rewrite E. cbn [fst snd hsp hsin] in *. destruct o; split; auto; lia.
    Qed.
    Lemma y_pnext p o : hsp p = Some o -> yields (hsp_next (T := T) (W := W) p) (fun r => fst r = o /\ psize p = psize (snd r) + match o with Some _ => 1 | None => 0 end).
    Proof. intros E. unfold hsp_next. rewrite E. apply y_ret. cbn [fst snd]. unfold psize. rewrite E. cbn [hsp hsin]. destruct o; split; auto; lia. Qed.
  End Cost.
  Arguments yields cnt {A} m P.

  Section Calls.
    Variable cnt : W -> nat.
    Hypothesis Hk : forall a b, single cnt (kcmp a b).
    Notation pays := (pays (K := T) (V := unit) cnt).
    Notation depth m := (CAPACITY * S (rh (mroot m))).
    Lemma contains_pays x m : pays (hs_contains kcmp x m) (depth m) (fun _ => 0).
    Proof. eapply p_bind; [apply get_pays; auto|]. intros ?. apply p_ret. lia. Qed.
    Lemma contains_pays_ x m n : pays (hs_contains kcmp x m) (depth m + n) (fun _ => n).
    Proof. eapply p_mono; [apply contains_pays|lia|intros; cbv beta; lia]. Qed.
    (** the comparisons that an iterator may still make *)
    Definition pot (d : hlazy) : nat :=
      match d with
      | HDStitch a b => hs_len a + psize b
      | HSym a b | HUnion a b => psize a + psize b
      | HIStitch a b => hs_len a + hs_len b
      | HDSearch a m | HISearch a m => hs_len a * depth m
      end.
    Notation ends r := (pot (snd r)).
    Lemma dstitch_pays n : forall x a b k, 1 + hs_len a + psize b <= k -> pays (hd_stitch kcmp n x a b) k (fun r => ends r).
    Proof.
      induction n as [|n IH]; intros x a b k L; cbn [hd_stitch]; [apply p_ub|]. eapply y_bind; [apply y_peek|]. intros [o p] [E1 E2]. cbn [fst snd] in *.
      destruct o as [y|]; [|eapply y_bind with (P := eq Lt); [apply y_ret; reflexivity|]; intros c <-; apply p_ret; cbn [pot snd]; lia].
      apply p_bind with (P := fun _ => k - 1). { destruct k as [|k]; [lia|]. replace (Datatypes.S k - 1) with k by lia. apply p_ask. apply Hk. }
      intros [].
      - eapply y_bind; [apply y_snext|]. intros [o a'] H. unfold took in H. cbn [fst snd] in *. destruct o as [x'|]; [|apply p_ret; cbn [pot snd]; lia].
        eapply y_bind; [apply (y_pnext cnt p E2)|]. intros [o p'] [_ E3]. cbn [fst snd] in *. apply IH. lia.
      - apply p_ret. cbn [pot snd]. lia.
      - eapply y_bind; [apply (y_pnext cnt p E2)|]. intros [o p'] [_ E3]. cbn [fst snd] in *. apply IH. lia.
    Qed.
    Lemma dsearch_pays n : forall a m, pays (hd_search kcmp n a m) (hs_len a * depth m) (fun r => ends r).
    Proof.
      induction n as [|n IH]; intros a m; cbn [hd_search]; [apply p_ub|]. eapply y_bind; [apply y_snext|]. intros [o a'] H. unfold took in H. cbn [fst snd] in *.
      destruct o as [x|]; [|apply p_ret; cbn [pot snd]; rewrite H, Nat.add_0_r; lia]. rewrite H, Nat.mul_add_distr_r, Nat.mul_1_l, Nat.add_comm.
      eapply p_bind; [apply contains_pays_|]. intros [|]; [apply IH|apply p_ret; cbn [pot snd]; lia].
    Qed.
    Lemma isearch_pays n : forall a m, pays (hi_search kcmp n a m) (hs_len a * depth m) (fun r => ends r).
    Proof.
      induction n as [|n IH]; intros a m; cbn [hi_search]; [apply p_ub|]. eapply y_bind; [apply y_snext|]. intros [o a'] H. unfold took in H. cbn [fst snd] in *.
      destruct o as [x|]; [|apply p_ret; cbn [pot snd]; rewrite H, Nat.add_0_r; lia]. rewrite H, Nat.mul_add_distr_r, Nat.mul_1_l, Nat.add_comm.
      eapply p_bind; [apply contains_pays_|]. intros [|]; [apply p_ret; cbn [pot snd]; lia|apply IH].
    Qed.
    (** a comparison of two peeked elements *)
    Lemma cmp_pays_ o1 o2 k a b : match o1, o2 with Some _, Some _ => 1 | _, _ => 0 end <= k ->
      pays (hs_cmp_opt kcmp o1 o2 a b) k (fun _ => k - match o1, o2 with Some _, Some _ => 1 | _, _ => 0 end).
    Proof.
      intros L. destruct o1 as [x|], o2 as [y|]; cbn [hs_cmp_opt]; try (apply p_ret; lia). destruct k as [|k]; [lia|]. replace (Datatypes.S k - 1) with k by lia. apply p_ask. apply Hk.
    Qed.
    Lemma peek_size (p : hspeek T) o : hsp p = Some o -> match o with Some _ => 1 | None => 0 end <= psize p.
    Proof. intros E. unfold psize. rewrite E. destruct o; lia. Qed.
    (** with one side empty, the answer is the other side *)
    Lemma cmp_free o1 o2 k a b R (f : comparison -> AM R) P : match o1, o2 with Some _, Some _ => False | _, _ => True end ->
      pays (f (match o1 with None => a | Some _ => b end)) k P -> pays (abind (hs_cmp_opt kcmp o1 o2 a b) f) k P.
    Proof. intros H1 H2. destruct o1 as [x|], o2 as [y|]; try contradiction; (eapply y_bind with (P := eq _); [apply y_ret; reflexivity|]; intros c <-; exact H2). Qed.
    Lemma sym_pays n : forall a b k, psize a + psize b <= k -> pays (hsym_loop kcmp n a b) k (fun r => ends r).
    Proof.
      induction n as [|n IH]; intros a b k L; cbn [hsym_loop]; [apply p_ub|].
      eapply y_bind; [apply y_peek|]. intros [o1 p1] [E1 F1]. eapply y_bind; [apply y_peek|]. intros [o2 p2] [E2 F2]. cbn [fst snd] in *.
      pose proof (peek_size p1 F1) as Z1. pose proof (peek_size p2 F2) as Z2.
      assert (forall k, psize p1 + psize p2 <= k + match o1 with Some _ => 1 | None => 0 end -> pays (abind (hsp_next p1) (fun n => aret (fst n, HSym (snd n) p2))) k (fun r => ends r)) as GL.
      { intros k' L'. eapply y_bind; [apply (y_pnext cnt p1 F1)|]. intros [o p'] [_ E]. cbn [fst snd] in *. apply p_ret. cbn [pot snd]. lia. }
      assert (forall k, psize p1 + psize p2 <= k + match o2 with Some _ => 1 | None => 0 end -> pays (abind (hsp_next p2) (fun n => aret (fst n, HSym p1 (snd n)))) k (fun r => ends r)) as GR.
      { intros k' L'. eapply y_bind; [apply (y_pnext cnt p2 F2)|]. intros [o p'] [_ E]. cbn [fst snd] in *. apply p_ret. cbn [pot snd]. lia. }
      destruct o1 as [x|]; [destruct o2 as [y|]|].
      - eapply p_bind; [apply cmp_pays_; lia|]. intros []; cbv beta iota.
        + eapply y_bind; [apply (y_pnext cnt p1 F1)|]. intros [o p'] [_ E]. eapply y_bind; [apply (y_pnext cnt p2 F2)|]. intros [o' p''] [_ E']. cbn [fst snd] in *. apply IH. lia.
        + apply GL. lia.
        + apply GR. lia.
      - apply cmp_free; [exact I|]. cbv beta iota. apply GL. lia.
      - apply cmp_free; [exact I|]. cbv beta iota. apply GR. lia.
    Qed.
    Lemma union_pays a b k : psize a + psize b <= k -> pays (hunion_next kcmp a b) k (fun r => ends r).
    Proof.
      intros L. unfold hunion_next.
      eapply y_bind; [apply y_peek|]. intros [o1 p1] [E1 F1]. eapply y_bind; [apply y_peek|]. intros [o2 p2] [E2 F2]. cbn [fst snd] in *.
      pose proof (peek_size p1 F1) as Z1. pose proof (peek_size p2 F2) as Z2.
      assert (forall k, psize p1 + psize p2 <= k + match o1 with Some _ => 1 | None => 0 end -> pays (abind (hsp_next p1) (fun n => aret (fst n, HUnion (snd n) p2))) k (fun r => ends r)) as GL.
      { intros k' L'. eapply y_bind; [apply (y_pnext cnt p1 F1)|]. intros [o p'] [_ E]. cbn [fst snd] in *. apply p_ret. cbn [pot snd]. lia. }
      assert (forall k, psize p1 + psize p2 <= k + match o2 with Some _ => 1 | None => 0 end -> pays (abind (hsp_next p2) (fun n => aret (fst n, HUnion p1 (snd n)))) k (fun r => ends r)) as GR.
      { intros k' L'. eapply y_bind; [apply (y_pnext cnt p2 F2)|]. intros [o p'] [_ E]. cbn [fst snd] in *. apply p_ret. cbn [pot snd]. lia. }
      destruct o1 as [x|]; [destruct o2 as [y|]|].
      - eapply p_bind; [apply cmp_pays_; lia|]. intros []; cbv beta iota.
        + eapply y_bind; [apply (y_pnext cnt p2 F2)|]. intros [o p'] [_ E]. eapply y_bind; [apply (y_pnext cnt p1 F1)|]. intros [o' p''] [_ E']. cbn [fst snd] in *. apply p_ret. cbn [pot snd]. lia.
        + apply GL. lia.
        + apply GR. lia.
      - apply cmp_free; [exact I|]. cbv beta iota. apply GL. lia.
      - apply cmp_free; [exact I|]. cbv beta iota. apply GR. lia.
    Qed.
    Lemma istitch_pays n : forall x y a b k, 1 + hs_len a + hs_len b <= k -> pays (hi_stitch kcmp n x y a b) k (fun r => ends r).
    Proof.
      induction n as [|n IH]; intros x y a b k L; cbn [hi_stitch]; [apply p_ub|].
      apply p_bind with (P := fun _ => k - 1). { destruct k as [|k]; [lia|]. replace (Datatypes.S k - 1) with k by lia. apply p_ask. apply Hk. }
      intros [].
      - apply p_ret. cbn [pot snd]. lia.
      - eapply y_bind; [apply y_snext|]. intros [o a'] H. unfold took in H. cbn [fst snd] in *. destruct o as [x'|]; [apply IH; lia|apply p_ret; cbn [pot snd]; lia].
      - eapply y_bind; [apply y_snext|]. intros [o a'] H. unfold took in H. cbn [fst snd] in *. destruct o as [x'|]; [apply IH; lia|apply p_ret; cbn [pot snd]; lia].
    Qed.
    Lemma lazy_next_pays d : pays (hlazy_next kcmp d) (pot d) (fun r => ends r).
    Proof.
      destruct d as [a b|a m|a b|a b|a b|a m]; cbn [hlazy_next pot]; [|apply dsearch_pays|apply sym_pays; lia|apply union_pays; lia| |apply isearch_pays].
      - eapply y_bind; [apply y_snext|]. intros [o a'] H. unfold took in H. cbn [fst snd] in *. destruct o as [x'|]; [apply dstitch_pays; lia|apply p_ret; cbn [pot snd]; lia].
      - eapply y_bind; [apply y_snext|]. intros [o a'] H. unfold took in H. cbn [fst snd] in *. destruct o as [x'|]; [|apply p_ret; cbn [pot snd]; lia].
        eapply y_bind; [apply y_snext|]. intros [o b'] H'. unfold took in H'. cbn [fst snd] in *. destruct o as [y'|]; [apply istitch_pays; lia|apply p_ret; cbn [pot snd]; lia].
    Qed.
    Lemma lazy_calls_pays n : forall d, pays (hlazy_calls kcmp n d) (pot d) (fun r => pot (snd r)).
    Proof.
      induction n as [|n IH]; intros d; cbn [hlazy_calls]; [apply p_ret; cbn [snd]; lia|]. eapply p_bind; [apply lazy_next_pays|]. intros x. eapply p_bind; [apply IH|].
      intros r. apply p_ret. cbn [snd]. lia.
    Qed.
    (** the first state *)
    Definition hlazy_price (k : algebra) (s o : hmap) : nat :=
      match k with
      | Difference => if mlen o / 16 <? mlen s then mlen s + mlen o else mlen s * depth o
      | SymmetricDifference | Union => mlen s + mlen o
      | Intersection => let '(small, other) := if mlen s <=? mlen o then (s, o) else (o, s) in
          if mlen other / 16 <? mlen small then mlen small + mlen other else mlen small * depth other
      end.
    Lemma y_lazy k s o : yields cnt (hs_lazy (T := T) (W := W) k s o) (fun d => pot d <= hlazy_price k s o).
    Proof.
      destruct k; cbn [hs_lazy hlazy_price]; unfold ITER_PERFORMANCE_TIPPING_SIZE_DIFF.
      - eapply y_seq; [apply y_siter|]. intros a E. destruct (_ <? _); [eapply y_seq; [apply y_siter|]; intros b E'|]; apply y_ret; cbn [pot]; unfold psize, hs_peekable; cbn [hsp hsin]; cbv beta in *; rewrite ?E; try apply le_n; lia.
      - eapply y_seq; [apply y_siter|]. intros a E. eapply y_seq; [apply y_siter|]; intros b E'; apply y_ret; cbn [pot]; unfold psize, hs_peekable; cbn [hsp hsin]; cbv beta in *; rewrite ?E; try apply le_n; lia.
      - destruct (mlen s <=? mlen o); (eapply y_seq; [apply y_siter|]; intros a E; destruct (_ <? _); [eapply y_seq; [apply y_siter|]; intros b E'|]; apply y_ret; cbn [pot]; cbv beta in *; rewrite ?E; try apply le_n; lia).
      - eapply y_seq; [apply y_siter|]. intros a E. eapply y_seq; [apply y_siter|]; intros b E'; apply y_ret; cbn [pot]; unfold psize, hs_peekable; cbn [hsp hsin]; cbv beta in *; rewrite ?E; try apply le_n; lia.
    Qed.
    Lemma disjoint_pays s o : pays (hs_is_disjoint kcmp s o) (hlazy_price Intersection s o) (fun _ => 0).
    Proof.
      eapply y_bind; [apply y_lazy|]. intros d L. eapply p_bind; [eapply p_weak; [apply lazy_next_pays|exact L]|]. intros r. apply p_ret. lia.
    Qed.
    Definition hsubset_price (s o : hmap) : nat := if mlen o <? mlen s then 0 else if mlen o / 16 <? mlen s then mlen s + mlen o else mlen s * depth o.
    Notation has x := (match x with Some _ => 1 | None => 0 end).
    Lemma substitch_pays n : forall a b x y k, has a + hs_len x + has b + hs_len y <= k -> pays (hsub_stitch kcmp n a b x y) k (fun _ => 0).
    Proof.
      induction n as [|n IH]; intros a b x y k L; cbn [hsub_stitch]; [apply p_ub|]. destruct a as [a1|]; [|apply p_ret; lia]. destruct b as [b1|]; [|apply p_ret; lia].
      apply p_bind with (P := fun _ => k - 1). { destruct k as [|k]; [lia|]. replace (Datatypes.S k - 1) with k by lia. apply p_ask. apply Hk. }
      intros []; [| |apply p_ret; lia].
      - eapply y_bind; [apply y_snext|]. intros [o x'] H. eapply y_bind; [apply y_snext|]. intros [o' y'] H'. unfold took in *. cbn [fst snd] in *. apply IH. lia.
      - eapply y_bind; [apply y_snext|]. intros [o' y'] H'. unfold took in *. cbn [fst snd] in *. apply IH. lia.
    Qed.
    Lemma subsearch_pays n : forall x o, pays (hsub_search kcmp n x o) (hs_len x * depth o) (fun _ => 0).
    Proof.
      induction n as [|n IH]; intros x m; cbn [hsub_search]; [apply p_ub|]. eapply y_bind; [apply y_snext|]. intros [o a'] H. unfold took in H. cbn [fst snd] in *.
      destruct o as [a|]; [|apply p_ret; lia]. rewrite H, Nat.mul_add_distr_r, Nat.mul_1_l, Nat.add_comm.
      eapply p_bind; [apply contains_pays_|]. intros [|]; [apply IH|apply p_ret; lia].
    Qed.
    Lemma subset_pays s o : pays (hs_is_subset kcmp s o) (hsubset_price s o) (fun _ => 0).
    Proof.
      unfold hs_is_subset, hsubset_price, ITER_PERFORMANCE_TIPPING_SIZE_DIFF. destruct (mlen o <? mlen s); [apply p_ret; lia|]. destruct (_ <? _).
      - eapply y_bind; [apply y_siter|]. intros x E. eapply y_bind; [apply y_siter|]. intros y E'. eapply y_bind; [apply y_snext|]. intros [a x'] H. eapply y_bind; [apply y_snext|].
        intros [b y'] H'. unfold took in *. cbn [fst snd] in *. apply substitch_pays. lia.
      - eapply y_bind; [apply y_siter|]. intros x E. rewrite <- E. apply subsearch_pays.
    Qed.
  End Calls.

  (** ** How many items an iterator can still deliver *)
  Definition most (d : hlazy) : nat :=
    match d with
    | HDStitch a _ | HDSearch a _ | HIStitch a _ | HISearch a _ => hs_len a
    | HSym a b | HUnion a b => psize a + psize b
    end.
  Section Most.
    Notation zero := (fun _ : W => 0).
    Notation has x := (match x with Some _ => 1 | None => 0 end).
    Notation fewer k r := (most (snd r) + has (fst r) <= k).
    Lemma y_ask A (q : asks W A) : yields zero (ask q) (fun _ => True).
    Proof. intros hp w SL. unfold ask. destruct (q w) as [[a|] w']; auto. Qed.
    Lemma y_ub A P : yields zero (@aub T unit W A) P.
    Proof. intros hp w SL. cbn. auto. Qed.
    Lemma y_contains x m : yields zero (hs_contains kcmp x m) (fun _ => True).
    Proof.
      intros hp w SL. assert (forall a b, single zero (kcmp a b)) as HS by (intros a b v; lia).
      pose proof (contains_pays HS x m w SL) as P. destruct (hs_contains kcmp x m hp w) as [[o hp'] w']. destruct P. split; [assumption|]. split; [lia|]. destruct o; exact I.
    Qed.
    Lemma y_cmp o1 o2 a b : yields zero (hs_cmp_opt kcmp o1 o2 a b) (fun c => match o1, o2 with Some _, Some _ => True | None, _ => c = a | _, _ => c = b end).
    Proof. destruct o1, o2; cbn [hs_cmp_opt]; try (apply y_ret; reflexivity). apply y_ask. Qed.
    Lemma dstitch_most n : forall x a b k, 1 + hs_len a <= k -> yields zero (hd_stitch kcmp n x a b) (fun r => fewer k r).
    Proof.
      induction n as [|n IH]; intros x a b k L; cbn [hd_stitch]; [apply y_ub|]. eapply y_seq; [apply y_peek|]. intros [o p] [E1 E2]. cbn [fst snd] in *.
      eapply y_seq with (P := fun c => o = None -> c = Lt); [destruct o; [|apply y_ret; reflexivity]|].
      { intros hp w SL. pose proof (y_ask (kcmp x t) w SL) as P. destruct (ask _ hp w) as [[o' hp'] w']. destruct P as (P1 & P2 & _). split; [exact P1|]. split; [exact P2|]. destruct o'; [discriminate|exact I..]. }
      intros c Hc. cbv beta in Hc. destruct o as [y|].
      - destruct c.
        + eapply y_seq; [apply y_snext|]. intros [o a'] H. unfold took in H. cbn [fst snd] in *. destruct o as [x'|]; [|apply y_ret; cbn [most fst snd]; lia].
          eapply y_seq; [apply (y_pnext zero p E2)|]. intros [o p'] [_ E3]. cbn [fst snd] in *. apply IH. lia.
        + apply y_ret. cbn [most fst snd]. lia.
        + eapply y_seq; [apply (y_pnext zero p E2)|]. intros [o p'] [_ E3]. cbn [fst snd] in *. apply IH. lia.
      - rewrite (Hc eq_refl). apply y_ret. cbn [most fst snd]. lia.
    Qed.
    Lemma dsearch_most n : forall a m k, hs_len a <= k -> yields zero (hd_search kcmp n a m) (fun r => fewer k r).
    Proof.
      induction n as [|n IH]; intros a m k L; cbn [hd_search]; [apply y_ub|]. eapply y_seq; [apply y_snext|]. intros [o a'] H. unfold took in H. cbn [fst snd] in *.
      destruct o as [x|]; [|apply y_ret; cbn [most fst snd]; lia]. eapply y_seq; [apply y_contains|]. intros [|] _; [apply IH; lia|apply y_ret; cbn [most fst snd]; lia].
    Qed.
    Lemma isearch_most n : forall a m k, hs_len a <= k -> yields zero (hi_search kcmp n a m) (fun r => fewer k r).
    Proof.
      induction n as [|n IH]; intros a m k L; cbn [hi_search]; [apply y_ub|]. eapply y_seq; [apply y_snext|]. intros [o a'] H. unfold took in H. cbn [fst snd] in *.
      destruct o as [x|]; [|apply y_ret; cbn [most fst snd]; lia]. eapply y_seq; [apply y_contains|]. intros [|] _; [apply y_ret; cbn [most fst snd]; lia|apply IH; lia].
    Qed.
    Lemma istitch_most n : forall x y a b k, 1 + hs_len a <= k -> yields zero (hi_stitch kcmp n x y a b) (fun r => fewer k r).
    Proof.
      induction n as [|n IH]; intros x y a b k L; cbn [hi_stitch]; [apply y_ub|]. eapply y_seq; [apply y_ask|]. intros [] _.
      - apply y_ret. cbn [most fst snd]. lia.
      - eapply y_seq; [apply y_snext|]. intros [o a'] H. unfold took in H. cbn [fst snd] in *. destruct o as [x'|]; [apply IH; lia|apply y_ret; cbn [most fst snd]; lia].
      - eapply y_seq; [apply y_snext|]. intros [o a'] H. unfold took in H. cbn [fst snd] in *. destruct o as [x'|]; [apply IH; lia|apply y_ret; cbn [most fst snd]; lia].
    Qed.
    Lemma sym_most n : forall a b k, psize a + psize b <= k -> yields zero (hsym_loop kcmp n a b) (fun r => fewer k r).
    Proof.
      induction n as [|n IH]; intros a b k L; cbn [hsym_loop]; [apply y_ub|].
      eapply y_seq; [apply y_peek|]. intros [o1 p1] [E1 F1]. eapply y_seq; [apply y_peek|]. intros [o2 p2] [E2 F2]. cbn [fst snd] in *.
      eapply y_seq; [apply y_cmp|]. intros c _. destruct c.
      - eapply y_seq; [apply (y_pnext zero p1 F1)|]. intros [o p'] [_ E]. eapply y_seq; [apply (y_pnext zero p2 F2)|]. intros [o' p''] [_ E']. cbn [fst snd] in *. apply IH. lia.
      - eapply y_seq; [apply (y_pnext zero p1 F1)|]. intros [o p'] [-> E]. apply y_ret. cbn [most fst snd] in *. destruct o1; lia.
      - eapply y_seq; [apply (y_pnext zero p2 F2)|]. intros [o p'] [-> E]. apply y_ret. cbn [most fst snd] in *. destruct o2; lia.
    Qed.
    Lemma union_most a b k : psize a + psize b <= k -> yields zero (hunion_next kcmp a b) (fun r => fewer k r).
    Proof.
      intros L. unfold hunion_next.
      eapply y_seq; [apply y_peek|]. intros [o1 p1] [E1 F1]. eapply y_seq; [apply y_peek|]. intros [o2 p2] [E2 F2]. cbn [fst snd] in *.
      eapply y_seq; [apply y_cmp|]. intros c _. destruct c.
      - eapply y_seq; [apply (y_pnext zero p2 F2)|]. intros [o p'] [_ E]. eapply y_seq; [apply (y_pnext zero p1 F1)|]. intros [o' p''] [E0 E']. cbn [fst snd] in *. apply y_ret. cbn [most fst snd] in *. destruct o1, o'; try discriminate; lia.
      - eapply y_seq; [apply (y_pnext zero p1 F1)|]. intros [o p'] [E0 E]. apply y_ret. cbn [most fst snd] in *. subst. destruct o1; lia.
      - eapply y_seq; [apply (y_pnext zero p2 F2)|]. intros [o p'] [E0 E]. apply y_ret. cbn [most fst snd] in *. subst. destruct o2; lia.
    Qed.
    Lemma lazy_next_most d : yields zero (hlazy_next kcmp d) (fun r => fewer (most d) r).
    Proof.
      destruct d as [a b|a m|a b|a b|a b|a m]; cbn [hlazy_next]; [|apply dsearch_most; cbn [most]; lia|apply sym_most; cbn [most]; lia|apply union_most; cbn [most]; lia| |apply isearch_most; cbn [most]; lia]; cbn [most].
      - eapply y_seq; [apply y_snext|]. intros [o a'] H. unfold took in H. cbn [fst snd] in *. destruct o as [x'|]; [apply dstitch_most; lia|apply y_ret; cbn [most fst snd]; lia].
      - eapply y_seq; [apply y_snext|]. intros [o a'] H. unfold took in H. cbn [fst snd] in *. destruct o as [x'|]; [|apply y_ret; cbn [most fst snd]; lia].
        eapply y_seq; [apply y_snext|]. intros [o b'] H'. unfold took in H'. cbn [fst snd] in *. destruct o as [y'|]; [apply istitch_most; lia|apply y_ret; cbn [most fst snd]; lia].
    Qed.
    Lemma lazy_most_ok k s o : yields zero (hs_lazy (T := T) (W := W) k s o) (fun d => most d <= lazy_most k (mlen s) (mlen o)).
    Proof.
      destruct k; cbn [hs_lazy lazy_most].
      - eapply y_seq; [apply y_siter|]. intros a E. destruct (_ <? _); [eapply y_seq; [apply y_siter|]; intros b E'|]; apply y_ret; cbn [most]; cbv beta in *; lia.
      - eapply y_seq; [apply y_siter|]. intros a E. eapply y_seq; [apply y_siter|]; intros b E'; apply y_ret; cbn [most]; unfold psize, hs_peekable; cbn [hsp hsin]; cbv beta in *; lia.
      - destruct (Nat.leb_spec (mlen s) (mlen o)); (eapply y_seq; [apply y_siter|]; intros a E; destruct (_ <? _); [eapply y_seq; [apply y_siter|]; intros b E'|]; apply y_ret; cbn [most]; cbv beta in *; lia).
      - eapply y_seq; [apply y_siter|]. intros a E. eapply y_seq; [apply y_siter|]; intros b E'; apply y_ret; cbn [most]; unfold psize, hs_peekable; cbn [hsp hsin]; cbv beta in *; lia.
    Qed.
  End Most.

  (** ** The operators: every item is inserted into the new set *)
  Section Collect.
    Variable cnt : W -> nat.
    Hypothesis Hk : forall a b, single cnt (kcmp a b).
    Variables (nalloc : bool -> W -> option reserve_error * W) (place : heap -> W -> loc) (tclone : T -> W -> outcome Empty_set T * W).
    Hypothesis place_fresh : forall hp w, hget hp (place hp w) = None.
    Variable sc : Prop.
    Hypotheses (Ck : forall a b, calm sc (kcmp a b)) (Ha : forall b w, cnt (snd (nalloc b w)) = cnt w) (Hc : forall x w, cnt (snd (tclone x w)) = cnt w).
    Lemma lookups_le n k k' : k <= k' -> lookups n k <= lookups n k'.
    Proof. revert n k'. induction k as [|k IH]; intros n [|k'] L; cbn [lookups]; try lia. specialize (IH (Datatypes.S n) k'). lia. Qed.
    Lemma collect_pays fuel : forall d m2 (m1 : bmap T unit) s n hp w, mrep m2 m1 s -> own hp (sres s) -> sound m1 -> length (entries m1) <= n -> slim hp ->
      let '(_, _, hp', w') := hs_collect kcmp nalloc place tclone fuel d m2 hp w in slim hp' /\ cnt w' <= cnt w + (pot d + lookups n (most d)).
    Proof.
      induction fuel as [|fuel IH]; intros d m2 m1 s n hp w R O Hs Ln SL; cbn [hs_collect]; [split; [exact SL|lia]|].
      pose proof (lazy_next_pays Hk d w SL) as P1. pose proof (lazy_next_most d w SL) as P2. pose proof (q_lazy_next d hp w) as P3.
      destruct (hlazy_next kcmp d hp w) as [[o hp1] w1]. cbn [fst snd] in P3. subst hp1. destruct P1 as [_ P1]. destruct P2 as (_ & _ & P2).
      destruct o as [[[x|] d']|e| | |]; try (split; [exact SL|lia]). cbn [fst snd] in P1, P2.
      specialize (Hc x w1). destruct (tclone x w1) as [oc w2]. cbn in Hc. destruct oc as [y|[]| | |]; try (split; [exact SL|lia]).
      pose proof (insert_pays nalloc place Ha kcmp Hk y tt m2 w2 SL) as P.
      destruct (try_insert_h nalloc place_fresh Ck y tt w2 R O Hs) as (o & m2' & m1' & s' & lost & hp3 & w3 & E & R1 & G1 & Ho). rewrite E in *. destruct P as [S1 L1].
      pose proof (rep_lookup R Hs Ln) as Lk.
      assert (lookup n + lookups (Datatypes.S n) (most d') <= lookups n (most d)) as LL.
      { destruct (most d) as [|k] eqn:Ek; [lia|]. cbn [lookups]. assert (most d' <= k) as L by lia. pose proof (lookups_le (Datatypes.S n) L). lia. }
      destruct o as [old|e| | |]; try (split; [exact S1|lia]).
      destruct Ho as (-> & Hs1 & Hi). rewrite app_nil_r in G1. pose proof (inserted_len Hi) as Li.
      specialize (IH d' m2' m1' s' (Datatypes.S n) hp3 w3 R1 (go_own G1) Hs1 ltac:(lia) S1). destruct (hs_collect _ _ _ _ _ _ _ _ _) as [[[o2 m22] hp4] w4]. destruct IH. split; [assumption|lia].
    Qed.
    Lemma operator_pays k s o hp w : slim hp ->
      let '(_, _, hp', w') := hs_operator kcmp nalloc place tclone k s o hp w in slim hp' /\ cnt w' <= cnt w + (hlazy_price k s o + lookups 0 (lazy_most k (mlen s) (mlen o))).
    Proof.
      intros SL. unfold hs_operator. pose proof (y_lazy cnt k s o w SL) as P1. pose proof (lazy_most_ok k s o w SL) as P2.
      destruct (hs_lazy k s o hp w) as [[od hp1] w1]. destruct P1 as (S1 & L1 & P1). destruct P2 as (_ & _ & P2). destruct od as [d|e| | |]; try (split; [exact S1|lia]).
      assert (own hp1 (sres (K := T) (V := unit) None)) as O0 by (constructor; constructor).
      pose proof (@collect_pays (mlen s + mlen o + 1) d h_new (@new T unit) None 0 hp1 w1 (mrep_new T unit) O0) as P.
      assert (sound (@new T unit)) as Hs by (apply new_sound). specialize (P Hs ltac:(cbn; lia) S1).
      destruct (hs_collect _ _ _ _ _ _ _ _ _) as [[[o2 m22] hp4] w4]. destruct P as [S4 L4]. split; [exact S4|]. pose proof (lookups_le 0 P2). lia.
    Qed.
  End Collect.
End Sets.
