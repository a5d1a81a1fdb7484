(** * HostileSetOps: sets built element by element on raw memory: the set
    operators and FromIterator. *)
From Coq Require Import List Arith Lia Bool Permutation.
From Verif Require Import Base IterSpec MapSpec SetSpec BTreeModel BTreeInv BTreeLemmas BTreeSearch BTreeInsert BTreeIterModel BTreeIter BTreeIterProofs BTreeBorder BTreeSplit BTreeCollect.
From Verif Require Import BTreeSetModel HeapModel HeapMapModel HeapArr HeapRep HeapWp HeapRes HeapPart HeapMap HeapEntry HeapIter HeapInto HeapTorn HeapSplit HeapHistory.
From Verif Require Import HistoryModel HistoryProofs HostileModel HostileSpec HostileOps HostileSetModel HostileSetSpec HostileSets.
Import ListNotations.
Set Implicit Arguments.
Unset Strict Implicit.

Section Build.
  Variables (T W : Type) (nalloc : bool -> W -> option reserve_error * W) (place : heap T unit -> W -> loc).
  Variable tclone : T -> W -> outcome Empty_set T * W.
  Variables (kcmp : T -> T -> asks W comparison) (sc : Prop).
  Hypothesis Ck : forall a b, calm sc (kcmp a b).
  Notation heap := (heap T unit).
  Notation bmap := (bmap T unit).
  Notation src := (src T unit).
  Notation res := (res T unit).
  Variable R : T -> T -> comparison -> Prop.
  Hypothesis HR : forall a b w c w', kcmp a b w = (Some c, w') -> R a b c.
  Variable Inv : bmap -> Prop.
  Hypothesis HInv : forall m : bmap, Inv m -> sound m.
  Hypothesis Inv_new : Inv new.
  Variable Cn : T -> list T -> bool -> Prop.
  Hypothesis HC : forall x m2 (m1 : bmap) s hp, mrep m2 m1 s -> own hp (sres s) -> Inv m1 ->
    reads sc (hs_contains kcmp x m2) hp (Cn x (map fst (entries m1))).
  Hypothesis (R_total : forall x y, exists c, R x y c) (C_total : forall x B, exists c, Cn x B c).
  (** what one insertion does *)
  Variable Ins : T -> list (T * unit) -> list (T * unit) -> Prop.
  Definition inserts (x : outcome reserve_error (option unit) * hmap * heap * W) (y : T) (m1 : bmap) (s : src) (hp : heap) : Prop :=
    exists o m2' m1' s' lost hp' w', x = (o, m2', hp', w') /\ mrep m2' m1' s' /\ goes hp (sres s) hp' (sres s' ++ lost) /\
      match o with
      | Ret _ => lost = [] /\ Inv m1' /\ Ins y (entries m1) (entries m1')
      | Err e => no_memory nalloc e /\ ((lost = [] /\ sound m1') \/ (11 <= length (entries m1) /\ damaged m1' s'))
      | Panic => sc /\ lost = [] /\ sound m1'
      | _ => False
      end.
  Hypothesis HI : forall y m2 (m1 : bmap) s hp w, mrep m2 m1 s -> own hp (sres s) -> Inv m1 ->
    inserts (hx_try_insert nalloc place kcmp y tt m2 hp w) y m1 s hp.
  Hypothesis Ins_len : forall y l l', Ins y l l' -> length l' <= S (length l).
  Inductive builds : list T -> list (T * unit) -> list (T * unit) -> Prop :=
  | B_nil l : builds [] l l
  | B_cons x xs l l1 l2 : Ins x l l1 -> builds xs l1 l2 -> builds (x :: xs) l l2.

  Definition clones (x y : T) : Prop := exists w w', tclone x w = (Ret y, w').
  Definition clone_ends (u : outcome Empty_set unit) : Prop := exists x w, omap (fun _ => tt) (fst (tclone x w)) = u.

  (** a set that is being built, [n] elements more at most; [CE]: how a clone may end it *)
  Definition built (CE : outcome Empty_set unit -> Prop) (P : list (T * unit) -> Prop) (n : nat) (m1 : bmap) (s : src) (hp : heap) (x : outcome reserve_error unit * hmap * heap * W) : Prop :=
    exists o m2' m1' s' lost hp' w', x = (o, m2', hp', w') /\
      match o with
      | Ret _ => mrep m2' m1' s' /\ goes hp (sres s) hp' (sres s' ++ lost) /\ lost = [] /\ Inv m1' /\ P (entries m1')
      | Panic => mrep m2' m1' s' /\ goes hp (sres s) hp' (sres s' ++ lost) /\
                 (((sc \/ (exists e, no_memory nalloc e) \/ CE Panic) /\ lost = [] /\ sound m1') \/
                  ((exists e, no_memory nalloc e) /\ 12 <= length (entries m1) + n /\ damaged m1' s'))
      | Abort => CE Abort
      | UB => CE UB
      | Err _ => False
      end.
  Lemma built_step CE (P P' : list (T * unit) -> Prop) n n' (m1 m1' : bmap) s s' hp hp' x : goes hp (sres s) hp' (sres s') ->
    length (entries m1') + n' <= length (entries m1) + n -> (forall l, P' l -> P l) -> built CE P' n' m1' s' hp' x -> built CE P n m1 s hp x.
  Proof using.
    clear. intros G Hn HP (o & m2a & m1a & sa & lost & hpa & wa & -> & M). exists o, m2a, m1a, sa, lost, hpa, wa. split; [reflexivity|].
    destruct o as [u|e| | |]; auto.
    - destruct M as (M1 & M2 & M3 & M4 & M5). split; [exact M1|]. split; [exact (goes_trans G M2)|]. auto.
    - destruct M as (M1 & M2 & M3). split; [exact M1|]. split; [exact (goes_trans G M2)|]. destruct M3 as [M3|(M3 & M4 & M5)]; [now left|right]. split; [exact M3|]. split; [lia|exact M5].
  Qed.

  (** ** FromIterator (set.rs 806-812) *)
  Lemma from_r xs : forall m2 (m1 : bmap) s hp w, mrep m2 m1 s -> own hp (sres s) -> Inv m1 ->
    built (fun _ => False) (builds xs (entries m1)) (length xs) m1 s hp (hx_extend nalloc place kcmp (map (fun x => (x, tt)) xs) m2 hp w).
  Proof using HI HInv Ins_len.
    clear HC HR Ck R_total C_total Inv_new. induction xs as [|x xs IH]; intros m2 m1 s hp w M O I; cbn [map hx_extend].
    - exists (Ret tt), m2, m1, s, [], hp, w. split; [reflexivity|]. rewrite app_nil_r. split; [exact M|]. split; [now apply goes_refl|]. split; [reflexivity|]. split; [exact I|constructor].
    - cbn [fst snd]. destruct (HI x w M O I) as (o & m2' & m1' & s' & lost & hp' & w' & -> & M' & G & Ho). destruct o as [u|e| | |]; try contradiction.
      + destruct Ho as (-> & I' & Hx). rewrite app_nil_r in G. eapply built_step; [exact G| | |exact (IH _ _ _ _ w' M' (go_own G) I')].
        * pose proof (Ins_len Hx). cbn [length]. lia.
        * intros l Hl. econstructor; eauto.
      + cbn [pass expect]. exists Panic, m2', m1', s', lost, hp', w'. split; [reflexivity|]. split; [exact M'|]. split; [exact G|]. destruct Ho as [Hr [[-> Hs]|[Hn Hd]]].
        * left. eauto 6.
        * right. split; [eauto|]. split; [cbn [length]; lia|exact Hd].
      + cbn [pass expect]. exists Panic, m2', m1', s', lost, hp', w'. split; [reflexivity|]. split; [exact M'|]. split; [exact G|]. destruct Ho as (Hs & -> & Hm). left. auto.
  Qed.

  (** ** Collecting a lazy iterator (set.rs 874-878, 956-1024) *)
  Variable rs : list res.
  Variable FP : src -> Prop.
  Hypothesis HFP : forall s, FP s -> exists rest, Permutation rs (sres s ++ rest).
  Notation lrep := (lrep Inv FP).
  Notation future := (future R Cn).
  Lemma seen_frame hp hp' (s s' : src) : own hp (sres s ++ rs) -> goes hp (sres s) hp' (sres s') -> forall z, seen FP hp z -> seen FP hp' z.
  Proof using HFP.
    clear - HFP. intros O G z [Hz _]. split; [exact Hz|]. pose proof (goes_fst G O) as G2. pose proof (go_own G2) as O2. apply own_app in O2 as (_ & O2 & _).
    destruct (HFP Hz) as (rest & P). apply (own_perm P) in O2. apply own_app in O2. apply O2.
  Qed.
  Lemma collect_r fuel : forall d v m2 (m1 : bmap) s hp w, lrep hp d v -> mrep m2 m1 s -> own hp (sres s ++ rs) -> Inv m1 ->
    (forall l, future v l -> length l < fuel) ->
    built clone_ends (fun l2 => exists l l', future v l /\ Forall2 clones l l' /\ builds l' (entries m1) l2) (fuel - 1) m1 s hp (hs_collect kcmp nalloc place tclone fuel d m2 hp w).
  Proof using Ck HR HInv HC R_total C_total HI Ins_len HFP.
    clear Inv_new. induction fuel as [|fuel IH]; intros d v m2 m1 s hp w L M O I Hf.
    { destruct (future_total R_total C_total v) as (l & Hl). specialize (Hf _ Hl). lia. }
    cbn [hs_collect]. pose proof O as Os. apply own_app in Os as (Os & _ & _).
    destruct (@lazy_next_r T W kcmp sc Ck R HR Inv Cn HC FP hp d v L w) as (o & w1 & -> & Ho). destruct o as [[[x|] d']|e| | |]; try contradiction.
    - destruct Ho as (v' & L' & _ & Hv). cbn [fst snd] in *. destruct (tclone x w1) as [oc w2] eqn:Ec. destruct oc as [y|e| | |].
      + destruct (HI y w2 M Os I) as (o & m2' & m1' & s' & lost & hp' & w' & -> & M' & G & Ho). destruct o as [u|e| | |]; try contradiction.
        * destruct Ho as (-> & I' & Hx). rewrite app_nil_r in G.
          eapply built_step with (P' := fun l2 => exists l l', future v' l /\ Forall2 clones l l' /\ builds l' (entries m1') l2); [exact G| | |eapply IH].
          -- pose proof (Ins_len Hx). destruct (future_total R_total C_total v') as (l & Hl). specialize (Hf _ (Hv _ Hl)). cbn [length] in Hf. lia.
          -- intros l2 (l & l' & F1 & F2 & F3). exists (x :: l), (y :: l'). split; [exact (Hv _ F1)|]. split; [|econstructor; eauto]. constructor; [exists w1, w2; exact Ec|exact F2].
          -- exact (lrep_frame (seen_frame O G) L').
          -- exact M'.
          -- exact (go_own (goes_fst G O)).
          -- exact I'.
          -- intros l Hl. specialize (Hf _ (Hv _ Hl)). cbn [length] in Hf. lia.
        * cbn [pass expect]. exists Panic, m2', m1', s', lost, hp', w'. split; [reflexivity|]. split; [exact M'|]. split; [exact G|]. destruct Ho as [Hr [[-> Hs]|[Hn Hd]]].
          -- left. eauto 6.
          -- right. split; [eauto|]. split; [|exact Hd]. destruct (future_total R_total C_total v') as (l & Hl). specialize (Hf _ (Hv _ Hl)). cbn [length] in Hf. lia.
        * cbn [pass expect]. exists Panic, m2', m1', s', lost, hp', w'. split; [reflexivity|]. split; [exact M'|]. split; [exact G|]. destruct Ho as (Hs & -> & Hm). left. auto.
      + destruct e.
      + exists Panic, m2, m1, s, [], hp, w2. split; [reflexivity|]. rewrite app_nil_r. split; [exact M|]. split; [now apply goes_refl|]. left. split; [|auto].
        right. right. exists x, w1. now rewrite Ec.
      + exists Abort, m2, m1, s, [], hp, w2. split; [reflexivity|]. exists x, w1. now rewrite Ec.
      + exists UB, m2, m1, s, [], hp, w2. split; [reflexivity|]. exists x, w1. now rewrite Ec.
    - destruct Ho as (v' & L' & _ & Hv & _). exists (Ret tt), m2, m1, s, [], hp, w1. split; [reflexivity|]. rewrite app_nil_r. split; [exact M|]. split; [now apply goes_refl|].
      split; [reflexivity|]. split; [exact I|]. exists [], []. split; [exact Hv|]. split; constructor.
    - cbn [pass]. exists Panic, m2, m1, s, [], hp, w1. split; [reflexivity|]. rewrite app_nil_r. split; [exact M|]. split; [now apply goes_refl|]. left. auto.
  Qed.
  Lemma first_count k A B l : future (first_view k A B) l -> length l <= length A + length B.
  Proof using.
    clear. unfold first_view. destruct k; [destruct (_ <? _)| |destruct (length A <=? length B); destruct (_ <? _)|]; cbn [HostileSets.future]; intros F.
    - apply dif_count in F. lia.
    - apply pick_count in F. lia.
    - apply sym_count in F. lia.
    - apply inter_count in F. lia.
    - apply pick_count in F. lia.
    - apply inter_count in F. lia.
    - apply pick_count in F. lia.
    - apply uni_count in F. lia.
  Qed.
  Lemma operator_r hp k s o A B w : own hp rs -> bears Inv FP hp s A -> bears Inv FP hp o B ->
    built clone_ends (fun l2 => exists l l', future (first_view k A B) l /\ Forall2 clones l l' /\ builds l' [] l2) (length A + length B) new None hp
      (hs_operator kcmp nalloc place tclone k s o hp w).
  Proof using Ck HR HInv HC R_total C_total HI Ins_len HFP Inv_new.
    intros O Hs Ho. unfold hs_operator.
    destruct (lazy_r (W := W) sc HInv k Hs Ho w) as (o1 & w1 & -> & L). destruct o1 as [d|e| | |]; try contradiction.
    - rewrite (bears_len HInv Hs), (bears_len HInv Ho). change (@nil (T * unit)) with (entries (@new T unit)).
      pose proof (@collect_r (length A + length B + 1) d _ _ new None hp w1 L (mrep_new T unit) O Inv_new) as X.
      rewrite Nat.add_sub in X. apply X. intros l Hl. apply first_count in Hl. lia.
    - cbn [pass]. exists Panic, h_new, new, None, [], hp, w1. split; [reflexivity|]. split; [apply mrep_new|]. split; [apply goes_refl; constructor; constructor|].
      left. split; [now left|]. split; [reflexivity|]. apply HInv, Inv_new.
  Qed.
End Build.
