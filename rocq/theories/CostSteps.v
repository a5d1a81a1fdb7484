(** * CostSteps: the calls of user code in one step of a program over maps (C54) *)
From Coq Require Import List Arith Lia Bool.
From Verif Require Import Base IterSpec BTreeModel BTreeIterModel BTreeInv BTreeCost HeapModel HistoryModel HistoryProofs HeapMapModel HeapMap HeapRes HeapHistory.
From Verif Require Import HostileModel HostileSpec HostileOps HostileHistory CostHeap CostSpec CostLogic.
Import ListNotations.
Set Implicit Arguments.

(** ** Heights *)
Lemma levels_mono a b : a <= b -> levels a <= levels b.
Proof. intros H. unfold levels. apply le_n_S. apply Nat.div_le_mono; [lia|]. apply Nat.log2_le_mono. lia. Qed.
Lemma lookup_mono a b : a <= b -> lookup a <= lookup b.
Proof. intros H. unfold lookup. apply Nat.mul_le_mono_l. now apply levels_mono. Qed.
Lemma lookups_mono k : forall a b, a <= b -> lookups a k <= lookups b k.
Proof.
  induction k as [|k IH]; intros a b H; cbn [lookups]; [lia|]. pose proof (lookup_mono H). specialize (IH (S a) (S b)). lia.
Qed.
Lemma pow_bits h : 2 ^ (2 * h) <= 5 ^ h.
Proof. rewrite Nat.pow_mul_r. apply Nat.pow_le_mono_l. cbn. lia. Qed.
Lemma height_levels K V (m : bmap K V) : sound m -> S (bheight m) <= levels (length (entries m)).
Proof.
  intros (HB & _ & _). unfold levels. apply le_n_S. destruct (height_bound HB) as [E|HH]; [lia|].
  apply Nat.div_le_lower_bound; [lia|]. pose proof (pow_bits (bheight m)) as HP.
  assert (2 ^ (2 * bheight m) <= length (entries m) + 1) as L. { unfold entries. lia. }
  apply Nat.log2_le_mono in L. rewrite Nat.log2_pow2 in L by lia. lia.
Qed.
Lemma rep_height K V m2 (m1 : bmap K V) s : mrep m2 m1 s -> sound m1 -> S (rh (mroot m2)) <= levels (length (entries m1)).
Proof.
  intros R Hs. pose proof (height_levels Hs) as L. destruct s as [T|]; destruct R as (_ & -> & R); cbn [rh]; [exact L|]. destruct R as (_ & _ & E). rewrite E in L. exact L.
Qed.
Lemma rep_len K V m2 (m1 : bmap K V) s : mrep m2 m1 s -> sound m1 -> mlen m2 = length (entries m1).
Proof. intros [-> _] (_ & _ & ->). reflexivity. Qed.
Lemma rep_lookup K V m2 (m1 : bmap K V) s n : mrep m2 m1 s -> sound m1 -> length (entries m1) <= n -> CAPACITY * S (rh (mroot m2)) <= lookup n.
Proof.
  intros R Hs L. pose proof (rep_height R Hs). pose proof (levels_mono L). unfold lookup, CAPACITY. change (2 * B_ - 1) with 11. apply Nat.mul_le_mono_l. lia.
Qed.

Section Steps.
  Variables (K V Q W : Type) (cnt : W -> nat) (nalloc : bool -> W -> option reserve_error * W) (place : HeapModel.heap K V -> W -> loc).
  Hypothesis place_fresh : forall hp w, hget hp (place hp w) = None.
  Variables (kclone : K -> W -> outcome reserve_error K * W) (vclone : V -> W -> outcome reserve_error V * W).
  Notation kv := (K * V)%type.
  Notation heap := (HeapModel.heap K V).
  Notation HM := (HM K V).
  Variables (kcmp : K -> K -> asks W comparison) (qcmp : Q -> K -> asks W comparison) (qeq qgt : Q -> Q -> asks W bool) (view : bound_ Q -> asks W (bound_ Q)).
  Variables (eqb : kv -> kv -> asks W bool) (pcmp : kv -> kv -> asks W (option comparison)).
  Variable sc : Prop.
  Hypotheses (Ck : forall a b, calm sc (kcmp a b)).
  Hypotheses (Ha : forall b w, cnt (snd (nalloc b w)) = cnt w) (Hkc : forall k w, cnt (snd (kclone k w)) = cnt w) (Hvc : forall v w, cnt (snd (vclone v w)) = cnt w).
  Hypotheses (Hk : forall a b, single cnt (kcmp a b)) (Hq : forall a b, single cnt (qcmp a b)) (H2 : forall x y, single cnt (qeq x y)) (H3 : forall x y, single cnt (qgt x y))
    (H4 : forall b, single cnt (view b)) (He : forall x y, single cnt (eqb x y)) (Hp : forall x y, single cnt (pcmp x y)).
  Notation op := (HistoryModel.op K V Q).
  Notation hxstep := (hxstep nalloc place kcmp qcmp qeq qgt view kclone vclone eqb pcmp).
  Notation slim := (@slim K V).
  Notation pays := (pays cnt).
  Notation spends := (spends cnt).

  Lemma s_done (m : AM K V W (obs K V * hregs)) (s : hregs) n : pays m n (fun _ => 0) -> spends (done m s) n.
  Proof. intros H hp w S. unfold done. specialize (H hp w S). destruct (m hp w) as [[o hp1] w1]. destruct H as [S1 L]. destruct o as [[o s']|e| | |]; (split; [exact S1|lia]). Qed.
  Lemma s_pure (m : HM (outcome reserve_error (obs K V) * hregs)) (s : hregs) : keeps m -> spends (pure (W := W) m s) 0.
  Proof. intros H hp w S. unfold pure. destruct (m hp) as [[[o s'] hp1]|] eqn:E; (split; [|lia]); [exact (H _ _ _ S E)|exact S]. Qed.
  Lemma p_then A B (m : AM K V W A) (f : A -> AM K V W B) n : pays m n (fun _ => 0) -> (forall a, pays (f a) 0 (fun _ => 0)) -> pays (abind m f) n (fun _ => 0).
  Proof. intros Hm Hf. eapply p_bind; [exact Hm|exact Hf]. Qed.
  Lemma p_free A (m : HM A) : keeps m -> pays (lift (W := W) m) 0 (fun _ => 0).
  Proof. apply p_lift00. Qed.

  (** the price in terms of heights and lengths *)
  Definition hprice (s : hregs) (c : op) : nat :=
    let d r := CAPACITY * S (rh (mroot (s r))) in
    match c with
    | Insert r _ _ | Replace r _ _ | Remove r _ | Take r _ | Get r _ | GetKeyValue r _ | Contains r _ | Index r _
    | GetMut r _ _ | EntryOr r _ _ _ | EntryRemove r _ | SplitOff r _ _ => d r
    | Append r t => mlen (s r) + mlen (s t)
    | RangeOver r _ _ _ | RangeMut r _ _ _ _ => 4 + 2 * (1 + CAPACITY) * S (rh (mroot (s r)))
    | Equal r t => if mlen (s r) =? mlen (s t) then mlen (s r) else 0
    | Compare r t => min (mlen (s r)) (mlen (s t))
    | _ => 0
    end.
  Lemma step_pays c s : (forall r l, c <> Extend r l) -> spends (hxstep c s) (hprice s c).
  Proof.
    intros NE. destruct c as [r|r k v|r k v|r x|r x|r x|r x|r x|r x|r x f|r|r|r|r t|r x t|r t|r t|r l|r cs|r lo hi cs|r cs ws|r lo hi cs ws|r cs|r k f v|r k|r t|r t];
      cbn [HostileModel.hxstep hprice].
    - apply (s_pure s). ks.
    - intros hp w S. cbn [HostileModel.hxstep]. pose proof (insert_pays nalloc place Ha kcmp Hk k v (s r) w S) as P. destruct (hx_try_insert _ _ _ _ _ _ _ _) as [[[o m] hp1] w1]. exact P.
    - intros hp w S. cbn [HostileModel.hxstep]. pose proof (replace_pays nalloc place Ha kcmp Hk k v (s r) w S) as P. destruct (hx_replace_key _ _ _ _ _ _ _ _) as [[[o m] hp1] w1]. exact P.
    - apply (s_done s). apply p_then; [apply remove_pays; auto|]. intros a. apply p_ret. lia.
    - apply (s_done s). apply p_then; [apply remove_pays; auto|]. intros a. apply p_ret. lia.
    - apply (s_done s). apply p_then; [apply get_pays; auto|]. intros a. apply p_ret. lia.
    - apply (s_done s). apply p_then; [apply get_pays; auto|]. intros a. apply p_ret. lia.
    - apply (s_done s). apply p_then; [apply get_pays; auto|]. intros a. apply p_ret. lia.
    - apply (s_done s). apply p_then; [apply get_pays; auto|]. intros [a|]; [apply p_ret; lia|apply p_panic].
    - apply (s_done s). apply p_then; [apply get_mut_pays; auto|]. intros [a|]; [|apply p_ret; lia]. apply p_then; [apply p_free; auto with slim|]. intros a'. apply p_ret. lia.
    - intros hp w S. split; [exact S|lia].
    - intros hp w S. split; [exact S|lia].
    - apply (s_pure s). ks.
    - intros hp w S. cbn [HostileModel.hxstep]. pose proof (append_pays nalloc place Ha kcmp Hk (s r) (s t) w S) as P. destruct (hx_append _ _ _ _ _ _ _) as [[[[o m] m2] hp1] w1]. exact P.
    - intros hp w S. cbn [HostileModel.hxstep]. pose proof (split_pays nalloc place Ha (qcmp x) (s r) (fun k => Hq x k) w S) as P. destruct (hx_split_off _ _ _ _ _ _) as [[[o m] hp1] w1]. destruct P as [S1 L1].
      destruct o as [m2|e| | |]; try (split; [exact S1|exact L1]).
      match goal with |- context [pure ?mm ?ss hp1 w1] => assert (keeps mm) as KK by ks; pose proof (s_pure ss KK w1 S1) as P; destruct (pure mm ss hp1 w1) as [[[o2 s2] hp2] w2] end.
      destruct P. split; [assumption|lia].
    - intros hp w S. cbn [HostileModel.hxstep]. pose proof (tclone_pays cnt nalloc place Ha kclone vclone Hkc Hvc (s r) w S) as P. destruct (h_try_clone _ _ _ _ _ _ _) as [[o hp1] w1]. destruct P as [S1 L1'].
      assert (cnt w1 <= cnt w) as L1 by (destruct o; lia). clear L1'. destruct o as [m2|e| | |]; try (split; [exact S1|lia]).
      match goal with |- context [pure ?mm ?ss hp1 w1] => assert (keeps mm) as KK by ks; pose proof (s_pure ss KK w1 S1) as P; destruct (pure mm ss hp1 w1) as [[[o2 s2] hp2] w2] end.
      destruct P. split; [assumption|lia].
    - intros hp w S. cbn [HostileModel.hxstep]. pose proof (clone_pays cnt nalloc place Ha kclone vclone Hkc Hvc (s r) w S) as P. destruct (h_clone _ _ _ _ _ _ _) as [[o hp1] w1]. destruct P as [S1 L1'].
      assert (cnt w1 <= cnt w) as L1 by (destruct o; lia). clear L1'. destruct o as [m2|e| | |]; try (split; [exact S1|lia]).
      match goal with |- context [pure ?mm ?ss hp1 w1] => assert (keeps mm) as KK by ks; pose proof (s_pure ss KK w1 S1) as P; destruct (pure mm ss hp1 w1) as [[[o2 s2] hp2] w2] end.
      destruct P. split; [assumption|lia].
    - destruct (NE r l eq_refl).
    - apply (s_pure s). ks; apply k_calls; auto with slim.
    - apply (s_done s). apply p_then; [apply range_pays; auto|]. intros it. apply p_then; [apply p_free; apply k_calls; auto with slim|]. intros a. apply p_ret. lia.
    - apply (s_pure s). ks; apply k_calls; auto with slim.
    - apply (s_done s). apply p_then; [apply range_pays; auto|]. intros it. apply p_then; [apply p_free; apply k_calls; auto with slim|]. intros a.
      apply p_then; [apply p_free; apply k_wall|]. intros a'. apply p_ret. lia.
    - apply (s_pure s). ks; apply k_calls; auto with slim.
    - intros hp w S. cbn [HostileModel.hxstep]. pose proof (entry_pays nalloc place Ha kcmp Hk k (s r) w S) as P. destruct (hx_try_entry _ _ _ _ _ _ _) as [[[o m1] hp1] w1]. destruct P as [S1 L1].
      destruct o as [en|e| | |]; try (split; [exact S1|exact L1]).
      pose proof (sp_lift w1 (k_modify en f) S1) as P. destruct (lift (h_and_modify en f) hp1 w1) as [[o2 hp2] w2]. destruct P as [S2 ->].
      destruct o2 as [u|e| | |]; try (split; [exact S2|exact L1]).
      pose proof (or_pays cnt nalloc place Ha m1 en (fun w => (Ret v, w)) (fun w => le_n _) w1 S2) as P. destruct (h_or_try_insert_with _ _ _ _ _ _ _) as [[[o3 m3] hp3] w3]. destruct P as [S3 L3].
      destruct o3 as [a|e| | |]; try (split; [exact S3|lia]).
      match goal with |- context [pure ?mm ?ss hp3 w3] => assert (keeps mm) as KK by ks; pose proof (s_pure ss KK w3 S3) as P; destruct (pure mm ss hp3 w3) as [[[o4 s4] hp4] w4] end.
      destruct P. split; [assumption|lia].
    - intros hp w S. cbn [HostileModel.hxstep]. pose proof (entry_pays nalloc place Ha kcmp Hk k (s r) w S) as P. destruct (hx_try_entry _ _ _ _ _ _ _) as [[[o m1] hp1] w1]. destruct P as [S1 L1].
      destruct o as [[h|k' h]|e| | |]; try (split; [exact S1|exact L1]).
      match goal with |- context [pure ?mm ?ss hp1 w1] => assert (keeps mm) as KK by ks; pose proof (s_pure ss KK w1 S1) as P; destruct (pure mm ss hp1 w1) as [[[o2 s2] hp2] w2] end.
      destruct P. split; [assumption|lia].
    - apply (s_done s). apply p_then; [apply eq_pays; auto|]. intros a. apply p_ret. lia.
    - apply (s_done s). apply p_then; [apply cmp_pays; auto|]. intros a. apply p_ret. lia.
  Qed.

  Lemma inserted_len (k : K) (v : V) l old l' : inserted k v l old l' -> length l' <= S (length l).
  Proof. intros []; rewrite ?app_length; cbn [length]; lia. Qed.
  (** extend: each insertion is into a map that is balanced *)
  Lemma extend_pays xs : forall m2 (m1 : bmap K V) s n hp w, mrep m2 m1 s -> own hp (sres s) -> sound m1 -> length (entries m1) <= n -> slim hp ->
    let '(_, _, hp', w') := hx_extend nalloc place kcmp xs m2 hp w in slim hp' /\ cnt w' <= cnt w + lookups n (length xs).
  Proof.
    induction xs as [|[k v] xs IH]; intros m2 m1 s n hp w R O Hs Ln S; cbn [hx_extend length lookups fst snd]; [split; [exact S|lia]|].
    pose proof (insert_pays nalloc place Ha kcmp Hk k v m2 w S) as P.
    destruct (try_insert_h nalloc place_fresh Ck k v w R O Hs) as (o & m2' & m1' & s' & lost & hp1 & w1 & E & R1 & G1 & Ho). rewrite E in *. destruct P as [S1 L1].
    pose proof (rep_lookup R Hs Ln) as Lk.
    destruct o as [old|e| | |]; try (split; [exact S1|lia]).
    destruct Ho as (-> & Hs1 & Hi). rewrite app_nil_r in G1.
    assert (length (entries m1') <= Datatypes.S n) as Ln'.
    { pose proof (inserted_len Hi). lia. }
    specialize (IH m2' m1' s' (Datatypes.S n) hp1 w1 R1 (go_own G1) Hs1 Ln' S1). destruct (hx_extend _ _ _ _ _ _ _) as [[[o2 m22] hp2] w2]. destruct IH. split; [assumption|lia].
  Qed.

  Section Reg.
    Variables (s1 : regs K V) (s2 : hregs) (ss : nat -> src K V) (rs : list (res K V)) (hp : heap) (S : nat -> list kv).
    Notation lt := (fun _ _ : K => Lt).
    Hypothesis (R : reps s2 s1 ss) (H : held ss rs) (O : own hp rs) (RS : rep lt s1 S).
    Lemma hprice_price c : hprice s2 c <= price (fun r => length (S r)) c.
    Proof.
      assert (forall r, CAPACITY * Datatypes.S (rh (mroot (s2 r))) <= lookup (length (S r))) as D.
      { intros r. destruct (RS r) as [[Hs _] <-]. eapply rep_lookup; [exact (R r)|exact Hs|lia]. }
      assert (forall r, Datatypes.S (rh (mroot (s2 r))) <= levels (length (S r))) as D'.
      { intros r. destruct (RS r) as [[Hs _] <-]. eapply rep_height; [exact (R r)|exact Hs]. }
      assert (forall r, mlen (s2 r) = length (S r)) as L.
      { intros r. destruct (RS r) as [[Hs _] <-]. eapply rep_len; [exact (R r)|exact Hs]. }
      destruct c; cbn [hprice price]; try apply D; rewrite ?L; try lia.
      all: match goal with |- context [mroot (s2 ?r)] => pose proof (D r) as X; pose proof (D' r) as Y; unfold lookup in *; unfold CAPACITY in *; change (2 * B_ - 1) with 11 in *; lia end.
    Qed.
    Lemma step_price c (w : W) : slim hp -> let '(_, _, hp', w') := hxstep c s2 hp w in slim hp' /\ cnt w' <= cnt w + price (fun r => length (S r)) c.
    Proof.
      intros SL.
      assert ((forall r l, c <> Extend r l) \/ exists r l, c = Extend r l) as [N|(r & l & ->)] by (destruct c; try (left; discriminate); right; eauto).
      - pose proof (step_pays s2 N w SL) as P. destruct (hxstep c s2 hp w) as [[[o s'] hp'] w']. destruct P as [P1 P2]. split; [exact P1|]. pose proof (hprice_price c). lia.
      - cbn [HostileModel.hxstep price]. destruct (RS r) as [[Hs _] Ee].
        pose proof (@extend_pays l (s2 r) (s1 r) (ss r) (length (S r)) hp w (R r)) as P.
        assert (own hp (sres (ss r))) as Or. { destruct (held_focus r H) as (rest & PM & _). eapply own_sub. exact (own_perm PM O). }
        specialize (P Or Hs). rewrite Ee in P. specialize (P (le_n _) SL). destruct (hx_extend _ _ _ _ _ _ _) as [[[o m] hp1] w1]. exact P.
    Qed.
  End Reg.
End Steps.
