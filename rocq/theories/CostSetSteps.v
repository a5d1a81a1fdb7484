(** * CostSetSteps: the calls of user code in one step of a program over sets (C54) *)
From Coq Require Import List Arith Lia Bool.
From Verif Require Import Base IterSpec BTreeModel BTreeIterModel BTreeSetModel BTreeInv BTreeSplit HeapModel HistoryModel HistoryProofs HeapMapModel HeapMap HeapRes HeapHistory.
From Verif Require Import HostileModel HostileSpec HostileOps HostileSetModel CostHeap CostSpec CostLogic CostSteps CostSets.
Import ListNotations.
Set Implicit Arguments.

Section Steps.
  Variables (T Q W : Type) (cnt : W -> nat) (nalloc : bool -> W -> option reserve_error * W) (place : HeapModel.heap T unit -> W -> loc).
  Hypothesis place_fresh : forall hp w, hget hp (place hp w) = None.
  Variable tclone : T -> W -> outcome Empty_set T * W.
  Notation heap := (HeapModel.heap T unit).
  Variables (kcmp : T -> T -> asks W comparison) (qcmp : Q -> T -> asks W comparison) (qeq qgt : Q -> Q -> asks W bool) (view : bound_ Q -> asks W (bound_ Q)).
  Variables (eqb : T * unit -> T * unit -> asks W bool) (pcmp : T * unit -> T * unit -> asks W (option comparison)).
  Variable sc : Prop.
  Hypotheses (Ck : forall a b, calm sc (kcmp a b)).
  Hypotheses (Ha : forall b w, cnt (snd (nalloc b w)) = cnt w) (Hc : forall x w, cnt (snd (tclone x w)) = cnt w).
  Hypotheses (Hk : forall a b, single cnt (kcmp a b)) (Hq : forall a b, single cnt (qcmp a b)) (H2 : forall x y, single cnt (qeq x y)) (H3 : forall x y, single cnt (qgt x y))
    (H4 : forall b, single cnt (view b)) (He : forall x y, single cnt (eqb x y)) (Hp : forall x y, single cnt (pcmp x y)).
  Notation xstep := (xstep kcmp nalloc place tclone qcmp qeq qgt view eqb pcmp).
  Notation slim := (@slim T unit).
  Variables (s1 : regs T unit) (s2 : hregs) (ss : nat -> src T unit) (rs : list (res T unit)) (hp : heap) (S : nat -> list (T * unit)).
  Notation lt := (fun _ _ : T => Lt).
  Hypothesis (R : reps s2 s1 ss) (H : held ss rs) (O : own hp rs) (RS : rep lt s1 S).
  Notation size := (fun r => length (S r)).

  Lemma reg_len r : mlen (s2 r) = length (S r).
  Proof using R RS. destruct (RS r) as [[Hs _] <-]. exact (rep_len (R r) Hs). Qed.
  Lemma reg_depth r : CAPACITY * Datatypes.S (rh (mroot (s2 r))) <= lookup (length (S r)).
  Proof using R RS. destruct (RS r) as [[Hs _] <-]. eapply rep_lookup; [exact (R r)|exact Hs|lia]. Qed.
  Lemma lazy_price_ok k r t : hlazy_price k (s2 r) (s2 t) <= lazy_price k (length (S r)) (length (S t)).
  Proof using R RS.
    pose proof (reg_depth r) as Dr. pose proof (reg_depth t) as Dt. pose proof (reg_len r) as Lr. pose proof (reg_len t) as Lt.
    destruct k; cbn [hlazy_price lazy_price]; rewrite ?Lr, ?Lt; try lia.
    - destruct (_ <? _); [lia|]. apply Nat.mul_le_mono_l. exact Dt.
    - destruct (Nat.leb_spec (length (S r)) (length (S t))) as [L|L]; rewrite ?Lr, ?Lt.
      + rewrite Nat.max_r, Nat.min_l by lia. destruct (_ <? _); [lia|]. apply Nat.mul_le_mono_l. exact Dt.
      + rewrite Nat.max_l, Nat.min_r by lia. destruct (_ <? _); [lia|]. apply Nat.mul_le_mono_l. exact Dr.
  Qed.
  Lemma subset_price_ok r t : hsubset_price (s2 r) (s2 t) <= subset_price (length (S r)) (length (S t)).
  Proof using R RS.
    unfold hsubset_price, subset_price. rewrite !reg_len. destruct (_ <? _); [lia|]. destruct (_ <? _); [lia|]. apply Nat.mul_le_mono_l. apply reg_depth.
  Qed.
  Lemma s_read (m : AM T unit W (xobs T)) n (w : W) : pays cnt m n (fun _ => 0) -> slim hp ->
    let '(_, _, hp', w') := xread m s2 hp w in slim hp' /\ cnt w' <= cnt w + n.
  Proof using. intros P SL. unfold xread. specialize (P hp w SL). destruct (m hp w) as [[o hp'] w']. destruct P. split; [assumption|lia]. Qed.
  Lemma s_assign u n (w : W) x : (let '(_, _, hp', w') := x in slim hp' /\ cnt w' <= cnt w + n) ->
    let '(_, _, hp', w') := xassign (T := T) (W := W) u x s2 in slim hp' /\ cnt w' <= cnt w + n.
  Proof using.
    destruct x as [[[o m] hp1] w1]. intros [SL L]. unfold xassign. destruct o as [a|e| | |]; try (split; [exact SL|exact L]).
    - destruct (h_drop (s2 u) hp1) as [[y hp2]|] eqn:E; (split; [|exact L]); [exact (k_drop _ SL E)|exact SL].
    - destruct (h_drop m hp1) as [[y hp2]|] eqn:E; (split; [|exact L]); [exact (k_drop _ SL E)|exact SL].
  Qed.
  Lemma xstep_price c (w : W) : slim hp -> let '(_, _, hp', w') := xstep c s2 hp w in slim hp' /\ cnt w' <= cnt w + xprice size c.
  Proof using Ck Ha Hc Hk Hq H2 H3 H4 He Hp place_fresh R H O RS.
    intros SL. destruct c as [c|k r t n m|r t|r t|r t|k r t u|r l]; cbn [HostileSetModel.xstep xprice].
    - assert (forall k w, cnt (snd (xkclone tclone k w)) = cnt w) as Hkc by (intros k v; unfold xkclone; specialize (Hc k v); destruct (tclone k v); exact Hc).
      assert (forall v w, cnt (snd (xvclone (W := W) v w)) = cnt w) as Hvc by reflexivity.
      pose proof (@step_price T unit Q W cnt nalloc place place_fresh (xkclone tclone) (@xvclone W) kcmp qcmp qeq qgt view eqb pcmp sc Ck Ha Hkc Hvc Hk Hq H2 H3 H4 He Hp s1 s2 ss rs hp S R H O RS c w SL) as P.
      destruct (hxstep _ _ _ _ _ _ _ _ _ _ _ _ _ _ _) as [[[o s'] hp'] w']. exact P.
    - apply s_read; [|exact SL]. eapply y_bind; [apply y_lazy|]. intros d L. pose proof (lazy_price_ok k r t).
      eapply p_bind; [eapply p_weak; [apply lazy_calls_pays; exact Hk|cbv beta in L; lia]|]. intros a. eapply p_bind; [apply lazy_calls_pays; exact Hk|]. intros b. apply p_ret. lia.
    - apply s_read; [|exact SL]. eapply p_bind; [eapply p_weak; [apply subset_pays; exact Hk|apply subset_price_ok]|]. intros b. apply p_ret. lia.
    - apply s_read; [|exact SL]. eapply p_bind; [eapply p_weak; [apply subset_pays; exact Hk|apply subset_price_ok]|]. intros b. apply p_ret. lia.
    - apply s_read; [|exact SL]. eapply p_bind; [eapply p_weak; [apply disjoint_pays; exact Hk|apply lazy_price_ok]|]. intros b. apply p_ret. lia.
    - apply s_assign. pose proof (@operator_pays T W kcmp cnt Hk nalloc place tclone place_fresh sc Ck Ha Hc k (s2 r) (s2 t) hp w SL) as P.
      destruct (hs_operator _ _ _ _ _ _ _ _ _) as [[[o m] hp'] w']. destruct P as [P1 P2]. split; [exact P1|]. rewrite !reg_len in P2. pose proof (lazy_price_ok k r t). lia.
    - apply s_assign. assert (own hp (sres (K := T) (V := unit) None)) as O0 by (constructor; constructor).
      pose proof (@extend_pays T unit W cnt nalloc place place_fresh kcmp sc Ck Ha Hk (map (fun x => (x, tt)) l) h_new (@new T unit) None 0 hp w (mrep_new T unit) O0 (new_sound T unit) ltac:(cbn; lia) SL) as P.
      rewrite map_length in P. exact P.
  Qed.
End Steps.
