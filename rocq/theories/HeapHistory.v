(** * HeapHistory: programs on raw memory do what they do on trees. *)
From Coq Require Import List Arith Lia Bool Permutation.
From Verif Require Import Base MapSpec MergeSpec IterSpec BTreeModel BTreeInv BTreeLemmas BTreeSearch BTreeInsert BTreeIterModel BTreeIter BTreeStep BTreeIterProofs.
From Verif Require Import BTreeRange BTreeOps BTreeEntry BTreeWrites BTreeBulkModel BTreeBorder BTreeSplit BTreeAppend BTreeClone BTreeCollect HistoryModel HistorySpec HistoryProofs.
From Verif Require Import HeapModel HeapMapModel HeapArr HeapRep HeapWp HeapRes HeapPart HeapMap HeapEntry HeapIter HeapInto HeapSplit HeapAppend HeapClone.
Import ListNotations.
Set Implicit Arguments.
Unset Strict Implicit.

Section History.
  Variables (K V Q : Type) (cmp : K -> K -> comparison) (qcmp : Q -> Q -> comparison) (borrow : K -> Q).
  Hypothesis laws : ord_laws cmp.
  Hypothesis blaws : borrow_laws cmp qcmp borrow.
  Variables (W : Type) (nalloc : bool -> W -> option reserve_error * W) (place : HeapModel.heap K V -> W -> loc).
  Hypothesis place_fresh : forall hp w, hget hp (place hp w) = None.
  Variables (kclone : K -> W -> outcome reserve_error K * W) (vclone : V -> W -> outcome reserve_error V * W).
  Notation kv := (K * V)%type.
  Variables (eqb : kv -> kv -> bool) (pcmp : kv -> kv -> option comparison).
  Notation heap := (heap K V).
  Notation HM := (HM K V).
  Notation ltree := (ltree K V).
  Notation bmap := (bmap K V).
  Notation src := (src K V).
  Notation res := (res K V).
  Notation op := (op K V Q).
  Notation obs := (obs K V).
  Notation step := (step nalloc cmp qcmp borrow kclone vclone eqb pcmp).
  Notation hstep := (hstep nalloc place cmp qcmp borrow kclone vclone eqb pcmp).
  Notation rep := (rep cmp).
  Implicit Types (hp : heap).

  (** ** The memory of all variables *)
  Definition pool (ss : nat -> src) (N : nat) : list res := flat_map (fun r => sres (ss r)) (seq 0 N).
  Definition held (ss : nat -> src) (rs : list res) : Prop :=
    exists N, (forall r, N <= r -> ss r = None) /\ Permutation rs (pool ss N).

  Lemma flat_perm A C (f g : A -> list C) l : (forall a, In a l -> f a = g a) -> flat_map f l = flat_map g l.
  Proof. intros H. induction l as [|a l IH]; [reflexivity|]. cbn [flat_map]. rewrite H, IH; [reflexivity|intros b Hb; apply H; now right|now left]. Qed.
  Lemma pool_focus ss N r : r < N -> exists rest, forall x, Permutation (pool (upd ss r x) N) (sres x ++ rest).
  Proof.
    intros Hr. exists (flat_map (fun i => sres (ss i)) (seq 0 r) ++ flat_map (fun i => sres (ss i)) (seq (S r) (N - S r))). intros x. unfold pool.
    replace N with (r + S (N - S r)) at 1 by lia. rewrite seq_app, flat_map_app. cbn [Nat.add seq flat_map].
    rewrite (@flat_perm _ _ (fun i => sres (upd ss r x i)) (fun i => sres (ss i)) (seq 0 r)).
    2:{ intros a Ha. apply in_seq in Ha. unfold upd. destruct (Nat.eqb_spec a r); [lia|reflexivity]. }
    rewrite (@flat_perm _ _ (fun i => sres (upd ss r x i)) (fun i => sres (ss i)) (seq (S r) _)).
    2:{ intros a Ha. apply in_seq in Ha. unfold upd. destruct (Nat.eqb_spec a r); [lia|reflexivity]. }
    unfold upd. rewrite Nat.eqb_refl. apply Permutation_app_swap_app.
  Qed.
  Lemma pool_ext ss N N' : (forall r, N <= r -> ss r = None) -> N <= N' -> pool ss N' = pool ss N.
  Proof.
    intros H L. unfold pool. replace N' with (N + (N' - N)) by lia. rewrite seq_app, flat_map_app, Nat.add_0_l.
    rewrite (@flat_perm _ _ _ (fun _ => []) (seq N (N' - N))); [|intros a Ha; apply in_seq in Ha; rewrite H by lia; reflexivity].
    assert (forall l : list nat, flat_map (fun _ => @nil res) l = []) as Z by (induction l; auto). rewrite Z. apply app_nil_r.
  Qed.
  Lemma held_focus ss rs r : held ss rs -> exists rest, Permutation rs (sres (ss r) ++ rest) /\ forall x, held (upd ss r x) (sres x ++ rest).
  Proof.
    intros (N & H & P). set (N' := Nat.max N (S r)). destruct (@pool_focus ss N' r ltac:(lia)) as (rest & F). exists rest. split.
    - rewrite <- (F (ss r)). rewrite P, <- (pool_ext H (Nat.le_max_l N (S r))). fold N'. unfold pool.
      rewrite (@flat_perm _ _ (fun i => sres (upd ss r (ss r) i)) (fun i => sres (ss i))); [reflexivity|].
      intros a _. unfold upd. destruct (Nat.eqb_spec a r) as [->|]; reflexivity.
    - intros x. exists N'. split; [|symmetry; apply F]. intros i Hi. unfold upd. destruct (Nat.eqb_spec i r); [lia|]. apply H. lia.
  Qed.
  Lemma held_focus2 ss rs r t : r <> t -> held ss rs ->
    exists rest, Permutation rs (sres (ss r) ++ sres (ss t) ++ rest) /\ forall x y, held (upd (upd ss r x) t y) (sres x ++ sres y ++ rest).
  Proof.
    intros Ne H. destruct (held_focus r H) as (rest1 & P1 & F1).
    destruct (held_focus t (F1 None)) as (rest2 & P2 & F2). cbn [sres app] in *. unfold upd in P2 at 1. destruct (Nat.eqb_spec t r); [congruence|].
    exists rest2. split; [rewrite P1, P2; reflexivity|]. intros x y.
    destruct (F1 x) as (Nx & Hx & Px). destruct (F2 y) as (Ny & Hy & Py).
    exists (Nat.max Nx (Nat.max Ny (Nat.max (S r) (S t)))). set (M := Nat.max Nx (Nat.max Ny (Nat.max (S r) (S t)))). split.
    - intros i Hi. unfold upd. destruct (Nat.eqb_spec i t); [lia|]. specialize (Hx i ltac:(lia)). exact Hx.
    - destruct (@pool_focus (upd ss t y) M r ltac:(lia)) as (rest & F).
      assert (forall a b : nat -> src, (forall i, a i = b i) -> pool a M = pool b M) as PE by (intros a b E; apply flat_perm; intros i _; now rewrite E).
      rewrite (PE (upd (upd ss r x) t y) (upd (upd ss t y) r x)).
      2:{ intros i. unfold upd. destruct (Nat.eqb_spec i t), (Nat.eqb_spec i r); congruence. }
      rewrite F. apply Permutation_app_head.
      rewrite <- (pool_ext Hy (ltac:(lia) : Ny <= M)) in Py. rewrite Py.
      rewrite (PE (upd (upd ss r None) t y) (upd (upd ss t y) r None)).
      2:{ intros i. unfold upd. destruct (Nat.eqb_spec i t), (Nat.eqb_spec i r); congruence. }
      rewrite F. reflexivity.
  Qed.

  (** ** One step *)
  (** the operations after which nodes may be lost: a refused insertion into a
      map of 11 entries or more, or a panic of extend or append *)
  Definition quits (c : op) (S : nat -> list kv) (o : outcome reserve_error obs) : Prop :=
    match c with
    | Insert r _ _ | Replace r _ _ | EntryOr r _ _ _ => (exists e, o = Err e) /\ 11 <= length (S r)
    | Extend _ _ | Append _ _ => o = Panic
    | _ => False
    end.
  Definition reps (s2 : hregs) (s1 : regs K V) (ss : nat -> src) : Prop := forall r, mrep (s2 r) (s1 r) (ss r).

  (** what a step of the heap program has to do with the step of the tree program *)
  Definition fine (c : op) (S : nat -> list kv) hp (rs : list res) (x1 : outcome reserve_error obs * regs K V * W)
      (x2 : outcome reserve_error obs * hregs * heap * W) : Prop :=
    let '(o, s1', w') := x1 in
    let '(o2, s2', hp', w2) := x2 in
    o2 = o /\ w2 = w' /\
    match o with
    | Abort | UB => True
    | _ => exists ss' rs' lost, reps s2' s1' ss' /\ held ss' rs' /\ goes hp rs hp' (rs' ++ lost) /\ (lost = [] \/ quits c S o)
    end.

  Section Step.
    Variables (s1 : regs K V) (s2 : hregs) (ss : nat -> src) (rs : list res) (hp : heap) (S : nat -> list kv).
    Hypothesis (R : reps s2 s1 ss) (H : held ss rs) (O : own hp rs) (RS : rep s1 S).

    Lemma own_reg r : own hp (sres (ss r)).
    Proof using H O. clear R RS. destruct (held_focus r H) as (rest & P & _). eapply own_sub. eapply own_perm; [exact P|exact O]. Qed.
    Lemma own_regs r t : r <> t -> own hp (sres (ss r) ++ sres (ss t)).
    Proof using H O. clear R RS. intros Ne. destruct (held_focus2 Ne H) as (rest & P & _). eapply own_sub. rewrite <- app_assoc. eapply own_perm; [exact P|exact O]. Qed.

    Lemma fine_same c o w : fine c S hp rs (o, s1, w) (o, s2, hp, w).
    Proof using R H O.
      clear RS. split; [reflexivity|]. split; [reflexivity|].
      assert (exists ss' rs' lost, reps s2 s1 ss' /\ held ss' rs' /\ goes hp rs hp (rs' ++ lost) /\ (lost = [] \/ quits c S o)) as G.
      { exists ss, rs, []. rewrite app_nil_r. split; [exact R|]. split; [exact H|]. split; [now apply goes_refl|now left]. }
      destruct o; auto.
    Qed.
    Lemma fine_reg c r o m2' m1' s' hp' w lost s2' : (forall i, s2' i = hup_ s2 r m2' i) -> mrep m2' m1' s' -> goes hp (sres (ss r)) hp' (sres s' ++ lost) ->
      (lost = [] \/ quits c S o) -> fine c S hp rs (o, upd s1 r m1', w) (o, s2', hp', w).
    Proof using R H O.
      clear RS. intros E R' G L. split; [reflexivity|]. split; [reflexivity|].
      assert (exists ss' rs' lost, reps s2' (upd s1 r m1') ss' /\ held ss' rs' /\ goes hp rs hp' (rs' ++ lost) /\ (lost = [] \/ quits c S o)) as F.
      { destruct (held_focus r H) as (rest & P & F). exists (upd ss r s'), (sres s' ++ rest), lost. split; [|split; [apply F|split; [|exact L]]].
        - intros i. rewrite E. unfold hup_, upd. destruct (i =? r); [exact R'|apply R].
        - pose proof (goes_fst (b := rest) G (own_perm P O)) as G2. eapply goes_perm; [symmetry; exact P| |exact G2].
          rewrite <- !app_assoc. apply Permutation_app_head, Permutation_app_comm. }
      destruct o; auto.
    Qed.
    Lemma fine_regs c r t o m2r m1r sr m2t m1t st hp' w lost s2' : r <> t -> (forall i, s2' i = hup_ (hup_ s2 r m2r) t m2t i) -> mrep m2r m1r sr -> mrep m2t m1t st ->
      goes hp (sres (ss r) ++ sres (ss t)) hp' (sres sr ++ sres st ++ lost) ->
      (lost = [] \/ quits c S o) -> fine c S hp rs (o, upd (upd s1 r m1r) t m1t, w) (o, s2', hp', w).
    Proof using R H O.
      clear RS. intros Ne E R1 R2 G L. split; [reflexivity|]. split; [reflexivity|].
      assert (exists ss' rs' lost, reps s2' (upd (upd s1 r m1r) t m1t) ss' /\ held ss' rs' /\ goes hp rs hp' (rs' ++ lost) /\ (lost = [] \/ quits c S o)) as F.
      { destruct (held_focus2 Ne H) as (rest & P & F). exists (upd (upd ss r sr) t st), (sres sr ++ sres st ++ rest), lost. split; [|split; [apply F|split; [|exact L]]].
        - intros i. rewrite E. unfold hup_, upd. destruct (i =? t); [exact R2|]. destruct (i =? r); [exact R1|apply R].
        - rewrite app_assoc in P. pose proof (goes_fst (b := rest) G (own_perm P O)) as G2. eapply goes_perm; [symmetry; exact P| |exact G2].
          rewrite <- !app_assoc. do 2 apply Permutation_app_head. apply Permutation_app_comm. }
      destruct o; auto.
    Qed.

    Lemma pure_ok (m : HM (outcome reserve_error obs * hregs)) s hp0 (w : W) (P : outcome reserve_error obs -> hregs -> heap -> Prop) :
      wp m hp0 (fun x hp' => P (fst x) (snd x) hp') -> exists o s' hp', pure m s hp0 w = (o, s', hp', w) /\ P o s' hp'.
    Proof using. unfold wp, pure. destruct (m hp0) as [[[o s'] hp']|]; [|contradiction]. intros X. exists o, s', hp'. auto. Qed.

    Lemma any_reg r : kids any (bheight (s1 r)) (bnode (s1 r)).
    Proof using RS. clear R H O. destruct (RS r) as [[Hm _] _]. apply sound_any. exact Hm. Qed.
    Lemma len_reg r : blen (s1 r) = length (entries (s1 r)).
    Proof using RS. clear R H O. destruct (RS r) as [[(_ & _ & Hl) _] _]. exact Hl. Qed.

    Lemma drop_reg r : exists l fr, drop_map (s1 r) = Ret (l, fr) /\ wp (h_drop (s2 r)) hp (fun x hp' => x = l /\ goes hp (sres (ss r)) hp' []).
    Proof using R H O RS. exact (drop_m (R r) (own_reg r) (any_reg r) (len_reg r)). Qed.

    Lemma clear_sim r (w : W) : fine (New r) S hp rs (step (New r) s1 w) (hstep (New r) s2 hp w) /\ fine (Clear r) S hp rs (step (Clear r) s1 w) (hstep (Clear r) s2 hp w).
    Proof using R H O RS.
      cbn [HistoryModel.step HeapMapModel.hstep]. destruct (drop_reg r) as (l & fr & E & Wp). cbn [drop_all]. rewrite E. cbn [after].
      destruct (@pure_ok (hbind (h_drop (s2 r)) (fun _ => hret (Ret OUnit, hup_ s2 r h_new))) s2 hp w
                  (fun o s' hp' => o = Ret OUnit /\ s' = hup_ s2 r h_new /\ goes hp (sres (ss r)) hp' [])) as (o & s' & hp' & E2 & -> & -> & G).
      { apply wp_bind. eapply wp_mono; [exact Wp|]. intros x hp' (_ & G). apply wp_ret. auto. }
      rewrite E2. split; (eapply fine_reg with (lost := []); [intros i; reflexivity|apply mrep_new|exact G|now left]).
    Qed.
    Lemma insert_sim r k v (w : W) : fine (Insert r k v) S hp rs (step (Insert r k v) s1 w) (hstep (Insert r k v) s2 hp w).
    Proof using R H O RS laws place_fresh.
      cbn [HistoryModel.step HeapMapModel.hstep]. destruct (RS r) as [Va Ee].
      pose proof (@try_insert_m K V W nalloc place place_fresh cmp k v _ _ _ hp w laws (R r) (own_reg r) Va) as M.
      destruct (try_insert nalloc cmp k v (s1 r) w) as [[o m1'] w']. destruct M as (s' & hp' & m2' & lost & E & R' & G & L). rewrite E.
      eapply fine_reg; [intros i; reflexivity|exact R'|exact G|]. destruct o as [x|e| | |]; try contradiction; [now left|].
      destruct L as [L|L]; [now left|right]. cbn [quits fmap omap]. split; [eauto|]. rewrite <- Ee. exact L.
    Qed.
    Lemma replace_sim r k v (w : W) : fine (Replace r k v) S hp rs (step (Replace r k v) s1 w) (hstep (Replace r k v) s2 hp w).
    Proof using R H O RS laws place_fresh.
      cbn [HistoryModel.step HeapMapModel.hstep]. destruct (RS r) as [Va Ee].
      pose proof (@replace_key_m K V W nalloc place place_fresh cmp k v _ _ _ hp w laws (R r) (own_reg r) Va) as M.
      destruct (replace_key nalloc cmp k v (s1 r) w) as [[o m1'] w']. destruct M as (s' & hp' & m2' & lost & E & R' & G & L). rewrite E.
      eapply fine_reg; [intros i; reflexivity|exact R'|exact G|]. destruct o as [x|e| | |]; try contradiction; [now left|].
      destruct L as [L|L]; [now left|right]. cbn [quits fmap omap]. split; [eauto|]. rewrite <- Ee. exact L.
    Qed.
    Lemma extend_sim r l (w : W) : fine (Extend r l) S hp rs (step (Extend r l) s1 w) (hstep (Extend r l) s2 hp w).
    Proof using R H O RS laws place_fresh.
      cbn [HistoryModel.step HeapMapModel.hstep]. destruct (RS r) as [Va Ee].
      pose proof (@extend_m K V W nalloc place place_fresh cmp l _ _ _ hp w laws (R r) (own_reg r) Va) as M.
      destruct (extend nalloc cmp l (s1 r) w) as [[o m1'] w']. destruct M as (s' & hp' & m2' & lost & E & R' & G & L). rewrite E.
      eapply fine_reg; [intros i; reflexivity|exact R'|exact G|]. destruct o as [x|e| | |]; try contradiction; [now left|]. right. reflexivity.
    Qed.
    Lemma cut_reg r x : cutq (look qcmp borrow x) (entries (s1 r)).
    Proof using RS blaws. clear R H O. destruct (RS r) as [[_ Hs] _]. exact (cutq_sorted x blaws Hs). Qed.
    Lemma take_sim r x (w : W) : fine (Take r x) S hp rs (step (Take r x) s1 w) (hstep (Take r x) s2 hp w) /\ fine (Remove r x) S hp rs (step (Remove r x) s1 w) (hstep (Remove r x) s2 hp w).
    Proof using R H O RS blaws.
      cbn [HistoryModel.step HeapMapModel.hstep]. destruct (RS r) as [[Hm _] _].
      pose proof (remove_m (R r) (own_reg r) Hm (cut_reg r x)) as Wp. unfold remove. split.
      - match goal with |- fine _ _ _ _ _ (pure ?m _ _ _) =>
          destruct (@pure_ok m s2 hp w (fun o s' hp' => exists a m1' sr m2', remove_entry (look qcmp borrow x) (s1 r) = (Ret a, m1') /\ o = Ret (OEntry a) /\ s' = hup_ s2 r m2' /\
            mrep m2' m1' sr /\ goes hp (sres (ss r)) hp' (sres sr))) as (o & s' & hp' & E2 & a & m1' & sr & m2' & E & -> & -> & R' & G) end.
        { apply wp_bind. eapply wp_mono; [exact Wp|]. intros y hp' (m1' & sr & E & R' & G). apply wp_ret. exists (fst y), m1', sr, (snd y). auto. }
        rewrite E2, E. cbn [cast fmap omap]. eapply fine_reg with (lost := []); [intros i; reflexivity|exact R'|rewrite app_nil_r; exact G|now left].
      - match goal with |- fine _ _ _ _ _ (pure ?m _ _ _) =>
          destruct (@pure_ok m s2 hp w (fun o s' hp' => exists a m1' sr m2', remove_entry (look qcmp borrow x) (s1 r) = (Ret a, m1') /\ o = Ret (OVal K (option_map snd a)) /\ s' = hup_ s2 r m2' /\
            mrep m2' m1' sr /\ goes hp (sres (ss r)) hp' (sres sr))) as (o & s' & hp' & E2 & a & m1' & sr & m2' & E & -> & -> & R' & G) end.
        { apply wp_bind. eapply wp_mono; [exact Wp|]. intros y hp' (m1' & sr & E & R' & G). apply wp_ret. exists (fst y), m1', sr, (snd y). auto. }
        rewrite E2, E. cbn [cast fmap omap]. eapply fine_reg with (lost := []); [intros i; reflexivity|exact R'|rewrite app_nil_r; exact G|now left].
    Qed.

    Lemma read_sim c o (m : HM (outcome reserve_error obs * hregs)) (w : W) : wp m hp (fun x hp' => hp' = hp /\ x = (o, s2)) ->
      fine c S hp rs (o, s1, w) (pure m s2 hp w).
    Proof using R H O.
      clear RS. intros Wp. destruct (@pure_ok m s2 hp w (fun o' s' hp' => hp' = hp /\ o' = o /\ s' = s2)) as (o' & s' & hp' & E & -> & -> & ->).
      { eapply wp_mono; [exact Wp|]. intros x hp' (-> & ->). auto. }
      rewrite E. apply fine_same.
    Qed.
    Lemma get_sim r x (w : W) : fine (Get r x) S hp rs (step (Get r x) s1 w) (hstep (Get r x) s2 hp w) /\
      fine (GetKeyValue r x) S hp rs (step (GetKeyValue r x) s1 w) (hstep (GetKeyValue r x) s2 hp w) /\
      fine (Contains r x) S hp rs (step (Contains r x) s1 w) (hstep (Contains r x) s2 hp w) /\
      fine (Index r x) S hp rs (step (Index r x) s1 w) (hstep (Index r x) s2 hp w).
    Proof using R H O RS.
      cbn [HistoryModel.step HeapMapModel.hstep]. pose proof (@get_m K V (look qcmp borrow x) _ _ _ hp (R r) (own_reg r) (any_reg r)) as Wp.
      split; [|split; [|split]]; apply read_sim; apply wp_bind; (eapply wp_mono; [exact Wp|]); intros a hp' (-> & E); apply wp_ret; (split; [reflexivity|]);
        unfold get, contains_key, index, get; rewrite E; destruct a; reflexivity.
    Qed.
    Lemma len_sim r (w : W) : fine (Len r) S hp rs (step (Len r) s1 w) (hstep (Len r) s2 hp w) /\ fine (IsEmpty r) S hp rs (step (IsEmpty r) s1 w) (hstep (IsEmpty r) s2 hp w).
    Proof using R H O.
      clear RS. cbn [HistoryModel.step HeapMapModel.hstep]. unfold is_empty, len. rewrite (proj1 (R r)). split; apply fine_same.
    Qed.
    Lemma get_mut_sim r x f (w : W) : fine (GetMut r x f) S hp rs (step (GetMut r x f) s1 w) (hstep (GetMut r x f) s2 hp w).
    Proof using R H O RS blaws.
      cbn [HistoryModel.step HeapMapModel.hstep]. destruct (RS r) as [[Hm Hs] _].
      pose proof (@get_mut_m K V (look qcmp borrow x) _ _ _ hp (R r) (own_reg r) (any_reg r)) as Wp.
      pose proof (get_mut_ok Hm (cut_reg r x)) as HG. destruct (s_get (look qcmp borrow x) (entries (s1 r))) as [y|].
      - destruct HG as (a & Ea & Hp). rewrite Ea in *. cbn [cast]. destruct (update_at_ok (write_val f) Hm Hp) as (m' & l & l' & Eu & _). rewrite Eu.
        match goal with |- fine _ _ _ _ _ (pure ?m _ _ _) =>
          destruct (@pure_ok m s2 hp w (fun o s' hp' => o = Ret (OBool true) /\ s' = s2 /\ exists s', mrep (s2 r) m' s' /\ goes hp (sres (ss r)) hp' (sres s')))
            as (o & s' & hp' & E2 & -> & -> & s'' & R' & G) end.
        { apply wp_bind. eapply wp_mono; [exact Wp|]. intros [p|] hp' (-> & Q0); [|discriminate Q0]. destruct Q0 as (a' & E & At). injection E as <-.
          apply wp_bind. eapply wp_mono; [exact (write_m (writes_val f) (R r) (own_reg r) At Eu)|]. intros v hp' (s' & x' & R' & G & _). apply wp_ret. cbn [fst snd].
          split; [reflexivity|]. split; [reflexivity|]. eauto. }
        rewrite E2. eapply fine_reg with (lost := []) (m2' := s2 r); [|exact R'|rewrite app_nil_r; exact G|now left].
        intros i. unfold hup_. destruct (Nat.eqb_spec i r) as [->|]; reflexivity.
      - rewrite HG in *. cbn [cast]. apply read_sim. apply wp_bind. eapply wp_mono; [exact Wp|].
        intros [p|] hp' (-> & Q0); [destruct Q0 as (a' & Q0 & _); discriminate Q0|]. apply wp_ret. auto.
    Qed.
    Lemma append_sim r t (w : W) : r <> t -> fine (Append r t) S hp rs (step (Append r t) s1 w) (hstep (Append r t) s2 hp w).
    Proof using R H O RS place_fresh.
      intros Ne. cbn [HistoryModel.step HeapMapModel.hstep]. destruct (RS r) as [[Hm Hs] _]. destruct (RS t) as [[Hm2 Hs2] _].
      pose proof (@append_m K V W nalloc place place_fresh cmp _ _ _ _ _ _ hp w (R r) (R t) (own_regs Ne) Hm Hm2) as M.
      pose proof (@append_ok K V W nalloc cmp (s1 r) (s1 t) w Hm Hm2) as HA.
      destruct (append nalloc cmp (s1 r) (s1 t) w) as [[[[o m] m2] mi] w']. destruct M as (sm' & so' & hp' & m2' & o2' & lost & E & R1 & R2 & G & L). rewrite E.
      assert (fine (Append r t) S hp rs (fmap (fun _ => OUnit) (cast o), upd (upd s1 r m) t m2, w') (fmap (fun _ => OUnit) (cast o), hup_ (hup_ s2 r m2') t o2', hp', w')) as F.
      { eapply fine_regs; [exact Ne|intros i; reflexivity|exact R1|exact R2|exact G|]. destruct o; try contradiction; [now left|right; reflexivity]. }
      destruct mi as [mi|]; [|exact F]. destruct o; try contradiction.
      - destruct HA as (_ & _ & _ & _ & ((f1 & f2 & -> & -> & _) & _)). exact F.
      - destruct HA as (_ & _ & _ & mi' & Emi & d & lo & l' & r' & _ & _ & (f1 & f2 & D1 & D2 & _) & _). injection Emi as <-. rewrite D1, D2. exact F.
    Qed.
    Lemma split_sim r x t (w : W) : r <> t -> fine (SplitOff r x t) S hp rs (step (SplitOff r x t) s1 w) (hstep (SplitOff r x t) s2 hp w).
    Proof using R H O RS blaws place_fresh.
      intros Ne. cbn [HistoryModel.step HeapMapModel.hstep]. destruct (RS r) as [[Hm Hs] _].
      pose proof (@split_off_m K V W nalloc place place_fresh _ _ _ _ hp w (R r) (own_reg r) Hm (cut_reg r x)) as M.
      pose proof (@split_off_ok K V W nalloc _ (s1 r) w Hm (cut_reg r x)) as HS.
      destruct (split_off nalloc (look qcmp borrow x) (s1 r) w) as [[[o m] ds] w']. destruct M as (s' & hp' & m2' & o2 & E & R' & M). rewrite E. clear E.
      destruct HS as [Hd HS]. destruct o as [m2|e| | |]; try contradiction.
      - destruct M as (r2 & sr & -> & Rr & G). pose proof (goes_fst G (own_regs Ne)) as G1.
        assert (own hp' (sres (ss t))) as Ot by (pose proof (go_own G1) as Q0; apply own_app in Q0; apply Q0).
        destruct (drop_m (R t) Ot (any_reg t) (len_reg t)) as (l & fr & Ed & Wp). cbn [drop_all]. rewrite Ed. cbn [after].
        match goal with |- fine _ _ _ _ _ (pure ?mm ?s0 _ _) =>
          destruct (@pure_ok mm s0 hp' w' (fun o s' hp'' => o = Ret OUnit /\ s' = hup_ (hup_ s2 r m2') t r2 /\ goes hp' (sres (ss t)) hp'' [])) as (o & s'' & hp'' & E2 & -> & -> & G2) end.
        { apply wp_bind. eapply wp_mono; [exact Wp|]. intros y hp'' (_ & G2). apply wp_ret. auto. }
        rewrite E2. eapply fine_regs with (lost := []); [exact Ne|intros i; reflexivity|exact R'|exact Rr| |now left].
        pose proof (goes_trans G1 (goes_snd G2 (go_own G1))) as G3. rewrite !app_nil_r in *. exact G3.
      - destruct M as (-> & -> & G). rewrite drop_all_ok by exact Hd. cbn [after fmap omap pass].
        eapply fine_reg with (lost := []); [intros i; reflexivity|exact R'|rewrite app_nil_r; exact G|now left].
    Qed.
    Lemma clone_sim r t (w : W) : r <> t -> fine (TryClone r t) S hp rs (step (TryClone r t) s1 w) (hstep (TryClone r t) s2 hp w) /\
      fine (Clone r t) S hp rs (step (Clone r t) s1 w) (hstep (Clone r t) s2 hp w).
    Proof using R H O RS place_fresh.
      intros Ne. cbn [HistoryModel.step HeapMapModel.hstep]. unfold clone, h_clone. destruct (RS r) as [[Hm Hs] _].
      pose proof (@try_clone_m K V W nalloc place place_fresh kclone vclone _ _ _ hp w (R r) (own_reg r) Hm) as M.
      pose proof (@try_clone_ok K V W nalloc kclone vclone (s1 r) w Hm) as HC.
      destruct (try_clone nalloc kclone vclone (s1 r) w) as [[o d] w']. destruct M as (hp' & o2 & E & M). rewrite E. clear E. destruct HC as [Hd HC].
      assert (forall c o' , goes hp [] hp' [] -> fine c S hp rs (o', s1, w') (o', s2, hp', w')) as Same.
      { intros c o' G. split; [reflexivity|]. split; [reflexivity|].
        assert (exists ss' rs' lost, reps s2 s1 ss' /\ held ss' rs' /\ goes hp rs hp' (rs' ++ lost) /\ (lost = [] \/ quits c S o')) as G'.
        { exists ss, rs, []. rewrite app_nil_r. split; [exact R|]. split; [exact H|]. split; [|now left]. exact (goes_add G O). }
        destruct o'; auto. }
      destruct o as [m'|e| | |].
      - destruct M as (r2 & sr & -> & Rr & G). cbn [expect]. pose proof (goes_add G (own_reg t)) as G1.
        assert (own hp' (sres (ss t))) as Ot by (pose proof (go_own G1) as Q0; apply own_app in Q0; apply Q0).
        destruct (drop_m (R t) Ot (any_reg t) (len_reg t)) as (l & fr & Ed & Wp). cbn [drop_all]. rewrite Ed. cbn [after].
        match goal with |- fine _ _ _ _ _ (pure ?mm ?s0 _ _) /\ _ =>
          destruct (@pure_ok mm s0 hp' w' (fun o s' hp'' => o = Ret OUnit /\ s' = hup_ s2 t r2 /\ goes hp' (sres (ss t)) hp'' [])) as (o & s'' & hp'' & E2 & -> & -> & G2) end.
        { apply wp_bind. eapply wp_mono; [exact Wp|]. intros y hp'' (_ & G2). apply wp_ret. auto. }
        rewrite E2. pose proof (goes_trans G1 (goes_snd G2 (go_own G1))) as G3. 
        split; (eapply fine_reg with (lost := []); [intros i; reflexivity|exact Rr|exact G3|now left]).
      - destruct M as (-> & G). rewrite drop_all_ok by exact Hd. cbn [after fmap omap pass expect cast]. split; now apply Same.
      - destruct M as (-> & G). rewrite drop_all_ok by exact Hd. cbn [after fmap omap pass expect cast]. split; now apply Same.
      - rewrite M, drop_all_ok by exact Hd. cbn [after fmap omap pass expect cast]. split; (split; [reflexivity|split; [reflexivity|exact I]]).
      - rewrite M, drop_all_ok by exact Hd. cbn [after fmap omap pass expect cast]. split; (split; [reflexivity|split; [reflexivity|exact I]]).
    Qed.
    Lemma compare_sim r t (w : W) : fine (Equal r t) S hp rs (step (Equal r t) s1 w) (hstep (Equal r t) s2 hp w) /\ fine (Compare r t) S hp rs (step (Compare r t) s1 w) (hstep (Compare r t) s2 hp w).
    Proof using R H O RS.
      cbn [HistoryModel.step HeapMapModel.hstep]. destruct (RS r) as [[Hm Hs] _]. destruct (RS t) as [[Hm2 Hs2] _].
      destruct (map_eq_ok eqb Hm Hm2) as (b & Eb & _). pose proof (@map_partial_cmp_ok K V pcmp (s1 r) (s1 t) Hm Hm2) as Ec.
      rewrite Eb, Ec. cbn [cast fmap omap]. split; apply read_sim; apply wp_bind.
      - eapply wp_mono; [exact (@eq_m K V eqb _ _ _ _ _ _ hp _ (R r) (R t) (own_reg r) (own_reg t) (any_reg r) (any_reg t) (len_reg r) (len_reg t) Eb)|].
        intros x hp' (-> & ->). apply wp_ret. auto.
      - eapply wp_mono; [exact (@cmp_m K V pcmp _ _ _ _ _ _ hp _ (R r) (R t) (own_reg r) (own_reg t) (any_reg r) (any_reg t) (len_reg r) (len_reg t) Ec)|].
        intros x hp' (-> & ->). apply wp_ret. auto.
    Qed.

    (** ** Iterators *)
    Lemma items_eq s (a : list (option (item K V))) b : Forall2 (orel (irel s)) a b -> map (option_map fst) b = map (option_map fst) a.
    Proof using. clear. intros F. induction F as [|x y a b E _ IH]; [reflexivity|]. cbn [map]. rewrite IH. f_equal. destruct x, y; try contradiction; [|reflexivity]. cbn [option_map]. now rewrite (proj1 E). Qed.
    Lemma vals_eq (a b : list (option kv)) : Forall2 (orel eq) a b -> b = a.
    Proof using. clear. intros F. induction F as [|x y a b E _ IH]; [reflexivity|]. rewrite IH. f_equal. destruct x, y; try contradiction; [|reflexivity]. now rewrite E. Qed.
    Lemma chosen_m s (a : list (option (item K V))) b ws : Forall2 (orel (irel s)) a b ->
      Forall2 (fun x y => at_place s (fst x) (fst y) /\ snd x = snd y) (chosen a ws) (hchosen b ws).
    Proof using.
      clear. intros F. induction ws as [|[i f] ws IH]; [constructor|]. cbn [chosen hchosen].
      assert (orel (orel (irel s)) (nth_error a i) (nth_error b i)) as Nth.
      { clear - F. revert i. induction F as [|x y a b E _ IH]; intros [|i]; cbn; auto. }
      destruct (nth_error a i) as [[x|]|], (nth_error b i) as [[y|]|]; try contradiction; auto.
      constructor; [|exact IH]. split; [apply Nth|reflexivity].
    Qed.
    Lemma iter_wp r cs : exists it outs it', map_iter (s1 r) = Ret it /\ calls (@iter_next K V) (@iter_next_back K V) cs it = Ret (outs, it') /\
      Forall (points (bheight (s1 r)) (bnode (s1 r))) (somes outs) /\
      wp (hbind (h_iter (s2 r)) (hcalls (h_iter_next (rh (mroot (s2 r)))) (h_iter_next_back (rh (mroot (s2 r)))) cs)) hp
        (fun a hp' => hp' = hp /\ Forall2 (orel (irel (ss r))) outs (fst a) /\ xlen (snd a) = ilen it').
    Proof using R H O RS.
      destruct (iter_m (R r) (own_reg r) (any_reg r) (len_reg r)) as (it & Ei & Wp). destruct (map_iter_ok (s1 r) (any_reg r) (len_reg r)) as (it0 & E0 & Ok).
      rewrite Ei in E0. injection E0 as <-. destruct (iter_calls cs Ok) as (outs & it' & a' & b' & Ec & _ & _ & Pt). exists it, outs, it'.
      split; [exact Ei|]. split; [exact Ec|]. split; [exact Pt|]. apply wp_bind. eapply wp_mono; [exact Wp|]. intros r2 hp' I2.
      pose proof (mrep_height (R r)) as Hh. eapply wp_mono; [eapply (@hcalls_sim K V _ _ _ _ (fun i1 i2 hp' => irep (ss r) (bheight (s1 r)) hp i1 i2 hp') (irel (ss r))); [| |exact I2|exact Ec]|].
      - intros i1 i2 hp1 a i1' Ir E. eapply iter_next_m; [exact (own_reg r)|exact Hh|exact Ir|exact E].
      - intros i1 i2 hp1 a i1' Ir E. eapply iter_next_back_m; [exact (own_reg r)|exact Hh|exact Ir|exact E].
      - intros a hp1 (F & -> & _ & _ & _ & El). auto.
    Qed.
    Lemma iterate_sim r cs (w : W) : fine (Iterate r cs) S hp rs (step (Iterate r cs) s1 w) (hstep (Iterate r cs) s2 hp w).
    Proof using R H O RS.
      cbn [HistoryModel.step HeapMapModel.hstep]. destruct (iter_wp r cs) as (it & outs & it' & -> & -> & _ & Wp). cbn [cast].
      apply read_sim. unfold hbind in Wp |- *. unfold wp in Wp |- *. destruct (h_iter (s2 r) hp) as [[r2 hp1]|]; [|exact Wp].
      destruct (hcalls _ _ cs r2 hp1) as [[a hp2]|]; [|exact Wp]. destruct Wp as (-> & F & El). cbn [hret]. split; [reflexivity|].
      rewrite (items_eq F), El. reflexivity.
    Qed.
    Lemma writes_sim c r outs houts ws (w : W) m1' : Forall2 (orel (irel (ss r))) outs houts -> write_all (chosen outs ws) (s1 r) = Some m1' -> 
      exists hp', wp (ref_write_all (hchosen houts ws)) hp (fun _ hp'' => hp'' = hp') /\
      fine c S hp rs (Ret (OItems (map (option_map fst) outs)), upd s1 r m1', w) (Ret (OItems (map (option_map fst) houts)), s2, hp', w).
    Proof using R H O.
      clear RS. intros F E. pose proof (write_all_m (R r) (own_reg r) (chosen_m ws F) E) as Wp. unfold wp in *. destruct (ref_write_all (hchosen houts ws) hp) as [[u hp']|]; [|contradiction].
      exists hp'. split; [reflexivity|]. destruct Wp as (s' & R' & G). rewrite (items_eq F).
      eapply fine_reg with (lost := []) (m2' := s2 r); [|exact R'|rewrite app_nil_r; exact G|now left].
      intros i. unfold hup_. destruct (Nat.eqb_spec i r) as [->|]; reflexivity.
    Qed.
    Lemma iter_mut_sim r cs ws (w : W) : fine (IterMut r cs ws) S hp rs (step (IterMut r cs ws) s1 w) (hstep (IterMut r cs ws) s2 hp w).
    Proof using R H O RS laws.
      cbn [HistoryModel.step HeapMapModel.hstep]. destruct (iter_wp r cs) as (it & outs & it' & -> & -> & Pt & Wp). cbn [cast].
      destruct (RS r) as [Va _]. destruct (@writes_ok K V cmp laws (s1 r) outs ws Va Pt) as (m' & Ew & _). rewrite Ew.
      unfold pure, hbind in Wp |- *. unfold wp in Wp. destruct (h_iter (s2 r) hp) as [[r2 hp1]|]; [|contradiction].
      destruct (hcalls _ _ cs r2 hp1) as [[a hp2]|]; [|contradiction]. destruct Wp as (-> & F & _). 
      destruct (@writes_sim (IterMut r cs ws) r outs (fst a) ws w m' F Ew) as (hp' & Wp & Fi). unfold wp in Wp.
      destruct (ref_write_all (hchosen (fst a) ws) hp) as [[u hp2]|]; [|contradiction]. subst hp2. exact Fi.
    Qed.
    Lemma range_wp r lo hi cs : (map_range qcmp borrow lo hi (s1 r) = Panic /\ wp (h_range qcmp borrow lo hi (s2 r)) hp (fun o hp' => o = Panic /\ hp' = hp)) \/
      exists it outs it', map_range qcmp borrow lo hi (s1 r) = Ret it /\ calls (@range_next K V) (@range_next_back K V) cs it = Ret (outs, it') /\
      Forall (points (bheight (s1 r)) (bnode (s1 r))) (somes outs) /\
      exists it2, wp (h_range qcmp borrow lo hi (s2 r)) hp (fun o hp' => o = Ret it2 /\ hp' = hp) /\
      wp (hcalls (h_range_next (rh (mroot (s2 r)))) (h_range_next_back (rh (mroot (s2 r)))) cs it2) hp
        (fun a hp' => hp' = hp /\ Forall2 (orel (irel (ss r))) outs (fst a)).
    Proof using R H O RS blaws eqb pcmp.
      destruct (RS r) as [[Hm Hs] _]. destruct (map_range_ok blaws lo hi (s1 r) (any_reg r) Hs) as [R1 R2]. destruct (bad_dec qcmp lo hi) as [Hb|Hb].
      - left. pose proof (@range_m K V Q qcmp borrow _ _ _ hp lo hi (R r) (own_reg r) (or_intror (R1 Hb))) as Wp. rewrite (R1 Hb) in *. split; [reflexivity|].
        eapply wp_mono; [exact Wp|]. cbn beta. tauto.
      - right. destruct (R2 Hb) as (it & a & b & Ei & Hbt & _). destruct (range_calls cs Hbt) as (outs & it' & a' & b' & Ec & _ & _ & Pt). exists it, outs, it'.
        split; [exact Ei|]. split; [exact Ec|]. split; [exact Pt|].
        pose proof (@range_m K V Q qcmp borrow _ _ _ hp lo hi (R r) (own_reg r) (or_introl (ex_intro _ it Ei))) as Wp. rewrite Ei in Wp.
        unfold wp in Wp |- * at 1. destruct (h_range qcmp borrow lo hi (s2 r) hp) as [[o hp1]|]; [|contradiction]. destruct Wp as (-> & it2 & -> & A & B). exists it2.
        split; [auto|]. pose proof (mrep_height (R r)) as Hh.
        eapply wp_mono; [eapply (@hcalls_sim K V _ _ _ _ (fun i1 i2 hp' => rrep (ss r) (bheight (s1 r)) hp i1 i2 hp') (irel (ss r))); [| | |exact Ec]|].
        + intros i1 i2 hp1 x i1' Ir E. eapply range_next_m; [exact (own_reg r)|exact Hh|exact Ir|exact E].
        + intros i1 i2 hp1 x i1' Ir E. eapply range_next_back_m; [exact (own_reg r)|exact Hh|exact Ir|exact E].
        + split; [reflexivity|]. split; [|split; [exact A|exact B]]. rewrite <- (tree_of_m (R r)). eauto.
        + intros x hp1 (F & -> & _). auto.
    Qed.
    Lemma range_sim r lo hi cs (w : W) : fine (RangeOver r lo hi cs) S hp rs (step (RangeOver r lo hi cs) s1 w) (hstep (RangeOver r lo hi cs) s2 hp w).
    Proof using R H O RS blaws eqb pcmp.
      cbn [HistoryModel.step HeapMapModel.hstep]. destruct (range_wp r lo hi cs) as [[-> Wp]|(it & outs & it' & -> & -> & _ & it2 & Wp & Wc)].
      - cbn [cast fmap omap]. apply read_sim. apply wp_bind. eapply wp_mono; [exact Wp|]. intros o hp' (-> & ->). apply wp_ret. auto.
      - cbn [cast]. apply read_sim. apply wp_bind. eapply wp_mono; [exact Wp|]. intros o hp' (-> & ->). apply wp_bind. eapply wp_mono; [exact Wc|].
        intros a hp' (-> & F). apply wp_ret. rewrite (items_eq F). auto.
    Qed.
    Lemma range_mut_sim r lo hi cs ws (w : W) : fine (RangeMut r lo hi cs ws) S hp rs (step (RangeMut r lo hi cs ws) s1 w) (hstep (RangeMut r lo hi cs ws) s2 hp w).
    Proof using R H O RS blaws laws.
      cbn [HistoryModel.step HeapMapModel.hstep]. destruct (range_wp r lo hi cs) as [[-> Wp]|(it & outs & it' & -> & -> & Pt & it2 & Wp & Wc)].
      - cbn [cast fmap omap]. apply read_sim. apply wp_bind. eapply wp_mono; [exact Wp|]. intros o hp' (-> & ->). apply wp_ret. auto.
      - cbn [cast]. destruct (RS r) as [Va _]. destruct (@writes_ok K V cmp laws (s1 r) outs ws Va Pt) as (m' & Ew & _). rewrite Ew.
        unfold wp in Wp, Wc. unfold pure, hbind.
        destruct (h_range qcmp borrow lo hi (s2 r) hp) as [[o hp1]|]; [|contradiction]. destruct Wp as (-> & ->).
        destruct (hcalls _ _ cs it2 hp) as [[a hp2]|]; [|contradiction]. destruct Wc as (-> & F). 
        destruct (@writes_sim (RangeMut r lo hi cs ws) r outs (fst a) ws w m' F Ew) as (hp' & Wp & Fi). unfold wp in Wp.
        destruct (ref_write_all (hchosen (fst a) ws) hp) as [[u hp2]|]; [|contradiction]. subst hp2. exact Fi.
    Qed.
    Lemma into_sim r cs (w : W) : fine (IntoIter_ r cs) S hp rs (step (IntoIter_ r cs) s1 w) (hstep (IntoIter_ r cs) s2 hp w).
    Proof using R H O RS.
      cbn [HistoryModel.step HeapMapModel.hstep]. destruct (into_iter_m (R r) (own_reg r) (any_reg r) (len_reg r)) as (it & Ei & Wp).
      destruct (RS r) as [[(_ & Hs & _) _] _].
      destruct (map_into_iter_ok (s1 r) (any_reg r) (len_reg r)) as (it0 & E0 & Ok); [apply Hs|]. rewrite Ei in *. injection E0 as <-.
      destruct (into_calls cs Ok) as (outs & it' & a & b & Ec & Ok' & _). rewrite Ec. cbn [cast].
      destruct (drop_into_iter_ok (any_reg r) Ok') as (fr & Ed & _). rewrite Ed. cbn [cast fmap omap fst]. pose proof (mrep_height (R r)) as Hh.
      match goal with |- fine _ _ _ _ _ (pure ?mm ?s0 _ _) => match goal with |- fine _ _ _ _ (?o, _, _) _ =>
          destruct (@pure_ok mm s0 hp w (fun o' s' hp' => o' = o /\ s' = hup_ s2 r h_new /\ goes hp (sres (ss r)) hp' [])) as (o' & s'' & hp' & E2 & -> & -> & G) end end.
      { apply wp_bind. eapply wp_mono; [exact Wp|]. intros i2 hp1 (-> & N). apply wp_bind.
        eapply wp_mono; [eapply (@hcalls_sim K V _ _ _ _ (fun i1 i2 hp' => nrep (ss r) (bheight (s1 r)) (sres (ss r)) hp i1 i2 hp') eq); [| |exact N|exact Ec]|].
        - intros j1 j2 hp1 x j1' Ir E. eapply into_next_m; [exact Hh|exact Ir|exact E].
        - intros j1 j2 hp1 x j1' Ir E. eapply into_next_back_m; [exact Hh|exact Ir|exact E].
        - intros x hp1 (F & N2). apply wp_bind. eapply wp_mono; [eapply (@drop_into_m K V (ss r) (bheight (s1 r))); [exact Hh|rewrite <- (tree_of_m (R r)); apply any_reg|exact N2|exact Ed]|].
          intros d hp2 (-> & G). apply wp_ret. cbn [fst snd]. rewrite (vals_eq F). auto. }
      rewrite E2. eapply fine_reg with (lost := []); [intros i; reflexivity|apply mrep_new|exact G|now left].
    Qed.

    (** ** Entries *)
    Lemma entry_or_sim r k f v (w : W) : fine (EntryOr r k f v) S hp rs (step (EntryOr r k f v) s1 w) (hstep (EntryOr r k f v) s2 hp w).
    Proof using R H O RS laws place_fresh.
      cbn [HistoryModel.step HeapMapModel.hstep]. destruct (RS r) as [Va Ee].
      pose proof (@try_entry_m K V W nalloc place place_fresh cmp k _ _ _ hp w (R r) (own_reg r) (proj1 Va)) as TE.
      pose proof (@try_entry_stands K V cmp laws W nalloc k (s1 r) w Va) as HT.
      destruct (try_entry nalloc cmp k (s1 r) w) as [[o m1] w1]. destruct TE as (s' & hp1 & m2 & o2 & E & R1 & G1 & TE). rewrite E. clear E.
      destruct o as [en|e| | |]; try contradiction.
      2:{ subst o2. cbn [fmap omap pass]. eapply fine_reg with (lost := []); [intros i; reflexivity|exact R1|rewrite app_nil_r; exact G1|now left]. }
      destruct TE as (T & en2 & -> & -> & Er). destruct HT as (Va1 & Hst & E1 & Hb1 & _).
      destruct (@and_modify_stands K V cmp laws m1 k en f Va1 Hst) as (en' & m1b & Em & Va2 & Hst2 & E2 & _ & _).
      destruct (@and_modify_m K V f m2 m1 T en en2 hp1 R1 (go_own G1) Er) as (en'' & m1c & T' & Em' & R2 & Er2 & Wp). rewrite Em in Em'. injection Em' as <- <-. rewrite Em.
      destruct (lift_wp w1 Wp) as (u & hp2 & E & G2). rewrite E. clear E.
      pose proof (@or_insert_m K V W nalloc place place_fresh cmp k v m2 m1b T' en' en2 hp2 w1 R2 (go_own G2) Er2 Hst2) as OI.
      pose proof (@or_insert_stands K V cmp laws W nalloc m1b k en' (fun w => (Ret v, w)) w1 Va2 Hst2) as HO.
      destruct (or_try_insert_with nalloc m1b en' (fun w => (Ret v, w)) w1) as [[o3 m3] w3]. destruct OI as (T3 & hp3 & m23 & o23 & lost & E & R3 & G3 & OI). rewrite E. clear E.
      pose proof (goes_trans G1 (goes_trans G2 G3)) as G4. cbv beta in HO.
      destruct o3 as [a|e| | |]; try contradiction.
      - destruct OI as (-> & p & -> & At).
        assert (exists x, kv_at (bnode m3) a = Some x) as (x & Ex).
        { destruct (s_get (cmp k) (entries m1b)) as [x|].
          - destruct HO as (a' & Ea & -> & _ & Hr). injection Ea as <-. exists x. apply Hr.
          - destruct HO as (_ & _ & Hr). exists (k, v). apply Hr. }
        rewrite Ex. destruct R3 as (L3 & Rr3 & Sh3 & Nd3). rewrite Nd3 in Ex.
        pose proof (read_place (go_own G4) At Ex) as Wr.
        match goal with |- fine _ _ _ _ _ (pure ?mm ?s0 _ _) =>
          destruct (@pure_ok mm s0 hp3 w3 (fun o s' hp' => o = Ret (OVal K (Some (snd x))) /\ s' = s0 /\ hp' = hp3)) as (o & s'' & hp' & E4 & -> & -> & ->) end.
        { apply wp_bind. eapply wp_mono; [exact Wr|]. intros y hp' (-> & ->). apply wp_ret. auto. }
        rewrite E4. eapply fine_reg with (lost := []) (s' := Some T3); [intros i; reflexivity| |exact G4|now left]. split; [exact L3|]. auto.
      - destruct OI as (-> & L). cbn [fmap omap pass]. eapply fine_reg with (s' := Some T3); [intros i; reflexivity|exact R3|exact G4|]. right. cbn [quits]. split; [eauto|].
        destruct (s_get (cmp k) (entries m1b)) as [x|] eqn:Eg; [destruct HO as (a & Ha & _); discriminate Ha|].
        rewrite E2, E1 in L. unfold s_update in L. rewrite map_length in L. rewrite <- Ee. exact L.
    Qed.
    Lemma entry_remove_sim r k (w : W) : fine (EntryRemove r k) S hp rs (step (EntryRemove r k) s1 w) (hstep (EntryRemove r k) s2 hp w).
    Proof using R H O RS laws place_fresh.
      cbn [HistoryModel.step HeapMapModel.hstep]. destruct (RS r) as [Va Ee].
      pose proof (@try_entry_m K V W nalloc place place_fresh cmp k _ _ _ hp w (R r) (own_reg r) (proj1 Va)) as TE.
      pose proof (@try_entry_stands K V cmp laws W nalloc k (s1 r) w Va) as HT.
      destruct (try_entry nalloc cmp k (s1 r) w) as [[o m1] w1]. destruct TE as (s' & hp1 & m2 & o2 & E & R1 & G1 & TE). rewrite E. clear E.
      destruct o as [en|e| | |]; try contradiction.
      2:{ subst o2. cbn [fmap omap pass]. eapply fine_reg with (lost := []); [intros i; reflexivity|exact R1|rewrite app_nil_r; exact G1|now left]. }
      destruct TE as (T & en2 & -> & -> & Er). destruct HT as (Va1 & Hst & E1 & Hb1 & _).
      destruct en as [hd|k' hd], en2 as [x|k2 x]; try contradiction.
      - destruct Er as (A & Hi). destruct Hst as (Hk & _).
        pose proof (remove_at_m R1 (go_own G1) Hk (A : at_edge (Some T) hd x) Hi) as Wp.
        match goal with |- fine _ _ _ _ _ (pure ?mm ?s0 _ _) =>
          destruct (@pure_ok mm s0 hp1 w1 (fun o s' hp' => exists a m1' sr m2', remove_entry_at m1 hd = (Ret a, m1') /\ o = Ret (OEntry (Some a)) /\ s' = hup_ s2 r m2' /\
            mrep m2' m1' sr /\ goes hp1 (sres (Some T)) hp' (sres sr))) as (o & s' & hp' & E2 & a & m1' & sr & m2' & E & -> & -> & R' & G) end.
        { apply wp_bind. eapply wp_mono; [exact Wp|]. intros y hp' (m1' & sr & E & R' & G). apply wp_ret. exists (fst y), m1', sr, (snd y). auto. }
        rewrite E2, E. cbn [cast fmap omap]. eapply fine_reg with (lost := []); [intros i; reflexivity|exact R'|rewrite app_nil_r; exact (goes_trans G1 G)|now left].
      - eapply fine_reg with (lost := []) (s' := Some T); [intros i; reflexivity|exact R1|rewrite app_nil_r; exact G1|now left].
    Qed.

    (** ** Every operation *)
    Lemma step_fine c (w : W) : legal c -> fine c S hp rs (step c s1 w) (hstep c s2 hp w).
    Proof using R H O RS laws blaws place_fresh.
      intros L. destruct c; cbn [legal] in L.
      - apply (clear_sim r w).
      - apply insert_sim.
      - apply replace_sim.
      - apply (take_sim r x w).
      - apply (take_sim r x w).
      - apply (get_sim r x w).
      - apply (get_sim r x w).
      - apply (get_sim r x w).
      - apply (get_sim r x w).
      - apply get_mut_sim.
      - apply (len_sim r w).
      - apply (len_sim r w).
      - apply (clear_sim r w).
      - now apply append_sim.
      - now apply split_sim.
      - now apply (clone_sim w L).
      - now apply (clone_sim w L).
      - apply extend_sim.
      - apply iterate_sim.
      - apply range_sim.
      - apply iter_mut_sim.
      - apply range_mut_sim.
      - apply into_sim.
      - apply entry_or_sim.
      - apply entry_remove_sim.
      - apply (compare_sim r s w).
      - apply (compare_sim r s w).
    Qed.
  End Step.
End History.
