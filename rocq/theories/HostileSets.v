(** * HostileSets: the lazy set iterators and the relations on raw memory. *)
From Coq Require Import List Arith Lia Bool.
From Verif Require Import Base IterSpec MapSpec SetSpec BTreeModel BTreeInv BTreeLemmas BTreeSearch BTreeInsert BTreeIterModel BTreeIter BTreeIterProofs BTreeBorder BTreeSplit BTreeCollect.
From Verif Require Import BTreeSetModel HeapModel HeapMapModel HeapArr HeapRep HeapWp HeapRes HeapPart HeapMap HeapEntry HeapIter HeapHistory.
From Verif Require Import HostileModel HostileOps HostileSetModel HostileSetSpec.
Import ListNotations.
Set Implicit Arguments.
Unset Strict Implicit.

Section Algebra.
  Variables (T W : Type) (kcmp : T -> T -> asks W comparison) (sc : Prop).
  Hypothesis Ck : forall a b, calm sc (kcmp a b).
  Notation heap := (heap T unit).
  Notation bmap := (bmap T unit).
  (** what is known about the answers: [R] of comparisons, [Cn] of contains() on sets with the invariant [Inv] *)
  Variable R : T -> T -> comparison -> Prop.
  Hypothesis HR : forall a b w c w', kcmp a b w = (Some c, w') -> R a b c.
  Variable Inv : bmap -> Prop.
  Hypothesis HInv : forall m : bmap, Inv m -> sound m.
  Variable Cn : T -> list T -> bool -> Prop.
  Hypothesis HC : forall x m2 (m1 : bmap) s hp, mrep m2 m1 s -> own hp (sres s) -> Inv m1 ->
    reads sc (hs_contains kcmp x m2) hp (Cn x (map fst (entries m1))).
  Implicit Types (hp : heap) (A B : list T).

  Lemma reads_asked C (q : asks W C) hp (P : C -> Prop) : calm sc q -> (forall c w w', q w = (Some c, w') -> P c) -> reads sc (ask (K := T) (V := unit) q) hp P.
  Proof using.
    clear. intros C0 HP w. unfold ask. destruct (q w) as [[c|] w'] eqn:E.
    - exists (Ret c), w'. split; [reflexivity|]. exact (HP _ _ _ E).
    - exists Panic, w'. split; [reflexivity|]. exact (C0 _ _ E).
  Qed.

  (** the trees that are looked at: they stay in memory while others change *)
  Variable FP : src T unit -> Prop.
  Definition seen hp (s : src T unit) : Prop := FP s /\ own hp (sres s).
  (** the set [m2] in memory has the elements [A] *)
  Definition bears hp (m2 : hmap) A : Prop :=
    exists (m1 : bmap) s, mrep m2 m1 s /\ seen hp s /\ Inv m1 /\ map fst (entries m1) = A.
  Lemma bears_len hp m2 A : bears hp m2 A -> mlen m2 = length A.
  Proof using HInv.
    clear HC HR Ck. intros (m1 & s & (E & _) & _ & I & <-). rewrite map_length, E. destruct (HInv I) as (_ & _ & E2). exact E2.
  Qed.

  (** a raw iterator that still has [A] to deliver *)
  Definition rholds hp (a : hsiter) A : Prop :=
    exists s H it1 es, seen hp s /\ H <= hsf a /\ HeapIter.irep (K := T) (V := unit) s H hp it1 (hsi a) hp /\ iholds it1 es /\ map fst es = A.
  Lemma iter_r hp m2 A : bears hp m2 A -> reads sc (hs_iter (T := T) (W := W) m2) hp (fun a => rholds hp a A).
  Proof using HInv.
    clear HC HR Ck. intros (m1 & s & M & O & I & <-). pose proof (HInv I) as Hs. destruct Hs as ((_ & Hk) & _ & Hl).
    destruct (miter_ok (HInv I)) as (it & E1 & Hh).
    destruct (@iter_m T unit m2 m1 s hp M (proj2 O)) as (it' & E2 & Hw); [eapply kids_weaken; [|exact Hk]; now unfold any|exact Hl|].
    rewrite E1 in E2. injection E2 as <-. unfold hs_iter. apply reads_bind. eapply reads_lift. eapply wp_mono; [exact Hw|].
    intros r hp' Hr. cbn beta in Hr. pose proof Hr as (-> & _). split; [reflexivity|]. apply reads_ret.
    exists s, (bheight m1), it, (entries m1). split; [exact O|]. split; [exact (mrep_height M)|]. auto.
  Qed.
  Lemma next_r hp a A : rholds hp a A -> reads sc (hs_next (T := T) (W := W) a) hp (fun x => fst x = hd_error A /\ rholds hp (snd x) (tl A)).
  Proof using.
    clear. intros (s & H & it1 & es & O & Hf & I & Hh & <-). unfold hs_next. apply reads_bind. apply reads_lift.
    pose proof (inext_ok Hh) as Hn. destruct es as [|[e u] es].
    - destruct Hn as (it' & E & Hh'). eapply wp_mono; [exact (iter_next_m (proj2 O) Hf I E)|]. intros [o it2] hp' [Ho I']. cbn [fst snd] in *.
      pose proof I' as (-> & _). split; [reflexivity|]. apply reads_ret. cbn [fst snd map hd_error tl]. destruct o; [contradiction|]. split; [reflexivity|].
      exists s, H, it', []. auto.
    - destruct Hn as (ad & it' & E & Hh'). eapply wp_mono; [exact (iter_next_m (proj2 O) Hf I E)|]. intros [o it2] hp' [Ho I']. cbn [fst snd] in *.
      pose proof I' as (-> & _). split; [reflexivity|]. apply reads_ret. cbn [fst snd map hd_error tl]. destruct o as [y|]; [|contradiction].
      destruct Ho as [Ho _]. cbn [fst] in Ho. subst. split; [cbn; now rewrite <- Ho|]. exists s, H, it', es. auto.
  Qed.
  Lemma rholds_len hp a A : rholds hp a A -> hs_len a = length A.
  Proof using.
    clear. intros (s & H & it1 & es & O & Hf & (_ & _ & _ & _ & E) & (H' & Tn & i & j & Hok & <-) & <-). unfold hs_len. rewrite E, map_length.
    destruct Hok as [Hb Hl]. rewrite seg_length by (pose proof (between_bound Hb); lia). exact Hl.
  Qed.

  (** a raw Peekable *)
  Definition pholds_ hp (p : hspeek T) A : Prop :=
    match hsp p with
    | None => rholds hp (hsin p) A
    | Some None => A = [] /\ rholds hp (hsin p) []
    | Some (Some x) => exists A', A = x :: A' /\ rholds hp (hsin p) A'
    end.
  Lemma peek_r hp p A : pholds_ hp p A -> reads sc (hsp_peek (T := T) (W := W) p) hp (fun x => fst x = hd_error A /\ pholds_ hp (snd x) A).
  Proof using.
    clear. unfold hsp_peek. intros H. pose proof H as H0. unfold pholds_ in H. destruct (hsp p) as [[x|]|].
    - apply reads_ret. destruct H as (A' & -> & _). auto.
    - apply reads_ret. destruct H as (-> & _). auto.
    - apply reads_bind. eapply reads_mono; [exact (next_r H)|]. intros [o a'] [Eo Ha]. apply reads_ret. cbn [fst snd] in *. subst o. split; [reflexivity|].
      unfold pholds_. cbn [hsp hsin]. destruct A as [|z A]; cbn [hd_error tl] in *; eauto.
  Qed.
  Lemma pnext_r hp p A : pholds_ hp p A -> reads sc (hsp_next (T := T) (W := W) p) hp (fun x => fst x = hd_error A /\ pholds_ hp (snd x) (tl A)).
  Proof using.
    clear. unfold hsp_next. intros H. pose proof H as H0. unfold pholds_ in H. destruct (hsp p) as [[x|]|].
    - apply reads_ret. destruct H as (A' & -> & H). auto.
    - apply reads_ret. destruct H as (-> & H). auto.
    - apply reads_bind. eapply reads_mono; [exact (next_r H)|]. intros [o a'] [Eo Ha]. apply reads_ret. cbn [fst snd] in *. subst o. auto.
  Qed.
  Lemma pholds_len_ hp p A : pholds_ hp p A -> hsp_len p = length A.
  Proof using.
    clear. unfold pholds_, hsp_len. destruct (hsp p) as [[x|]|].
    - intros (A' & -> & H). rewrite (rholds_len H). cbn. lia.
    - intros (-> & _). reflexivity.
    - apply rholds_len.
  Qed.
  Lemma peekable_r hp a A : rholds hp a A -> pholds_ hp (hs_peekable a) A.
  Proof using. clear. auto. Qed.

  (** ** What an iterator may deliver, for some answers *)
  Inductive dif : list T -> list T -> list T -> Prop :=
  | Dif_nil B : dif [] B []
  | Dif_last x A l : dif A [] l -> dif (x :: A) [] (x :: l)
  | Dif_lt x A y B l : R x y Lt -> dif A (y :: B) l -> dif (x :: A) (y :: B) (x :: l)
  | Dif_eq x A y B l : R x y Eq -> dif A B l -> dif (x :: A) (y :: B) l
  | Dif_gt x A y B l : R x y Gt -> dif (x :: A) B l -> dif (x :: A) (y :: B) l.
  Inductive pick (keep : bool) (B : list T) : list T -> list T -> Prop :=
  | Pick_nil : pick keep B [] []
  | Pick_in x A l c : Cn x B c -> c = keep -> pick keep B A l -> pick keep B (x :: A) (x :: l)
  | Pick_out x A l c : Cn x B c -> c <> keep -> pick keep B A l -> pick keep B (x :: A) l.
  Inductive sym : list T -> list T -> list T -> Prop :=
  | Sym_l B : sym [] B B
  | Sym_r A : sym A [] A
  | Sym_lt x A y B l : R x y Lt -> sym A (y :: B) l -> sym (x :: A) (y :: B) (x :: l)
  | Sym_eq x A y B l : R x y Eq -> sym A B l -> sym (x :: A) (y :: B) l
  | Sym_gt x A y B l : R x y Gt -> sym (x :: A) B l -> sym (x :: A) (y :: B) (y :: l).
  Inductive uni : list T -> list T -> list T -> Prop :=
  | Un_l B : uni [] B B
  | Un_r A : uni A [] A
  | Un_lt x A y B l : R x y Lt -> uni A (y :: B) l -> uni (x :: A) (y :: B) (x :: l)
  | Un_eq x A y B l : R x y Eq -> uni A B l -> uni (x :: A) (y :: B) (x :: l)
  | Un_gt x A y B l : R x y Gt -> uni (x :: A) B l -> uni (x :: A) (y :: B) (y :: l).
  Inductive inter : list T -> list T -> list T -> Prop :=
  | Int_l B : inter [] B []
  | Int_r A : inter A [] []
  | Int_lt x A y B l : R x y Lt -> inter A (y :: B) l -> inter (x :: A) (y :: B) l
  | Int_eq x A y B l : R x y Eq -> inter A B l -> inter (x :: A) (y :: B) (x :: l)
  | Int_gt x A y B l : R x y Gt -> inter (x :: A) B l -> inter (x :: A) (y :: B) l.

  (** the state of an iterator, as lists *)
  Inductive view_ := VD (A B : list T) | VDS (A B : list T) | VS (A B : list T) | VU (A B : list T) | VI (A B : list T) | VIS (A B : list T).
  Definition future (v : view_) : list T -> Prop :=
    match v with
    | VD A B => dif A B | VDS A B => pick false B A | VS A B => sym A B | VU A B => uni A B | VI A B => inter A B | VIS A B => pick true B A
    end.
  Definition lrep hp (d : hlazy T) (v : view_) : Prop :=
    match d, v with
    | HDStitch a b, VD A B => rholds hp a A /\ pholds_ hp b B
    | HDSearch a m, VDS A B => rholds hp a A /\ bears hp m B /\ length A <= length B
    | HSym a b, VS A B => pholds_ hp a A /\ pholds_ hp b B
    | HUnion a b, VU A B => pholds_ hp a A /\ pholds_ hp b B
    | HIStitch a b, VI A B => rholds hp a A /\ rholds hp b B
    | HISearch a m, VIS A B => rholds hp a A /\ bears hp m B
    | _, _ => False
    end.
  Lemma rholds_frame hp hp' a A : (forall s, seen hp s -> seen hp' s) -> rholds hp a A -> rholds hp' a A.
  Proof using.
    clear. intros F (s & H & it1 & es & O & Hf & (_ & I) & Hh & E). exists s, H, it1, es. split; [auto|]. split; [exact Hf|]. split; [split; [reflexivity|exact I]|]. auto.
  Qed.
  Lemma pholds_frame hp hp' p A : (forall s, seen hp s -> seen hp' s) -> pholds_ hp p A -> pholds_ hp' p A.
  Proof using.
    clear. unfold pholds_. intros F. destruct (hsp p) as [[x|]|]; [intros (A' & -> & H)|intros (-> & H)|intros H]; eauto using rholds_frame.
  Qed.
  Lemma bears_frame hp hp' m A : (forall s, seen hp s -> seen hp' s) -> bears hp m A -> bears hp' m A.
  Proof using. clear. intros F (m1 & s & M & O & I & E). exists m1, s. auto. Qed.
  Lemma lrep_frame hp hp' d v : (forall s, seen hp s -> seen hp' s) -> lrep hp d v -> lrep hp' d v.
  Proof using.
    clear. intros F. destruct d, v; cbn [lrep]; try contradiction; intuition eauto using rholds_frame, pholds_frame, bears_frame.
  Qed.
  (** the lists only lose elements from their fronts *)
  Inductive suffix : list T -> list T -> Prop :=
  | Suf_refl l : suffix l l
  | Suf_cons l' x l : suffix l' l -> suffix l' (x :: l).
  Lemma suffix_trans a b c : suffix a b -> suffix b c -> suffix a c.
  Proof using. clear. intros Ha Hb. induction Hb; [exact Ha|]. constructor. auto. Qed.
  Definition sheds (v v' : view_) : Prop :=
    match v, v' with
    | VD A B, VD A' B' | VS A B, VS A' B' | VU A B, VU A' B' | VI A B, VI A' B' => suffix A' A /\ suffix B' B
    | VDS A B, VDS A' B' | VIS A B, VIS A' B' => suffix A' A /\ B' = B
    | _, _ => False
    end.
  Lemma sheds_refl v : sheds v v.
  Proof using. clear. destruct v; cbn; split; constructor. Qed.
  Lemma sheds_trans a b c : sheds a b -> sheds b c -> sheds a c.
  Proof using. clear. destruct a, b; cbn; try contradiction; destruct c; cbn; try contradiction; intros [X1 X2] [Y1 Y2]; split; try (eapply suffix_trans; eassumption); congruence. Qed.
  (** [x]: the item delivered and the iterator afterwards *)
  Definition advances hp (v : view_) (x : option T * hlazy T) : Prop :=
    exists v', lrep hp (snd x) v' /\ sheds v v' /\
      match fst x with
      | Some y => forall l, future v' l -> future v (y :: l)
      | None => future v [] /\ forall l, future v' l -> l = []
      end.
  Lemma advances_weaken hp v v' x : advances hp v' x -> sheds v v' -> (forall l, future v' l -> future v l) -> advances hp v x.
  Proof using. clear. intros (v1 & L & Sh & H) Sv F. exists v1. split; [exact L|]. split; [eapply sheds_trans; eassumption|]. destruct (fst x); [auto|]. destruct H; auto. Qed.
  Ltac shed := unfold sheds; try match goal with |- context [tl ?B] => destruct B; cbn [tl] end; split; repeat constructor.
  Tactic Notation "bnd" constr(H) ident(N) := apply reads_bind; eapply reads_mono; [exact H|]; let o := fresh "o" in let Eo := fresh "Eo" in intros [o ?] [Eo N]; cbn [fst snd] in *; subst o.

  Lemma d_stitch_r hp fuel : forall x a b A B, rholds hp a A -> pholds_ hp b B -> length A + length B < fuel ->
    reads sc (hd_stitch kcmp fuel x a b) hp (advances hp (VD (x :: A) B)).
  Proof using Ck HR.
    clear HC HInv. induction fuel as [|fuel IH]; intros x a b A B Ha Hb Hf; [lia|]. cbn [hd_stitch]. bnd (peek_r Hb) Kb.
    destruct B as [|y B]; cbn [hd_error].
    - apply reads_bind. apply reads_ret. apply reads_ret. exists (VD A []). split; [cbn; auto|]. split; [shed|]. cbn [fst]. intros l Hl. now constructor.
    - apply reads_bind. eapply reads_asked; [apply Ck|]. intros c w w' E. apply HR in E. destruct c.
      + bnd (next_r Ha) Na. destruct A as [|x' A]; cbn [hd_error tl] in *.
        * apply reads_ret. exists (VD [] (y :: B)). split; [cbn; auto|]. split; [shed|]. cbn [fst]. split; [apply Dif_eq; [exact E|constructor]|]. intros l Hl. now inversion Hl.
        * bnd (pnext_r Kb) Nb. cbn [tl] in *. eapply reads_mono; [eapply IH; [eassumption|eassumption|cbn in *; lia]|].
          intros r Hr. eapply advances_weaken; [exact Hr|shed|]. intros l Hl. now apply Dif_eq.
      + apply reads_ret. exists (VD A (y :: B)). split; [cbn; auto|]. split; [shed|]. cbn [fst]. intros l Hl. now apply Dif_lt.
      + bnd (pnext_r Kb) Nb. cbn [tl] in *. eapply reads_mono; [eapply IH; [eassumption|eassumption|cbn in *; lia]|].
        intros r Hr. eapply advances_weaken; [exact Hr|shed|]. intros l Hl. now apply Dif_gt.
  Qed.
  Lemma contains_r hp x m B : bears hp m B -> reads sc (hs_contains kcmp x m) hp (Cn x B).
  Proof using HC. intros (m1 & s & M & O & I & <-). exact (HC x M (proj2 O) I). Qed.
  Lemma d_search_r hp fuel : forall a m A B, rholds hp a A -> bears hp m B -> length A <= length B -> length A < fuel ->
    reads sc (hd_search kcmp fuel a m) hp (advances hp (VDS A B)).
  Proof using HC.
    induction fuel as [|fuel IH]; intros a m A B Ha Hm Hl Hf; [lia|]. cbn [hd_search]. bnd (next_r Ha) Na.
    destruct A as [|x A]; cbn [hd_error tl] in *.
    - apply reads_ret. exists (VDS [] B). split; [cbn; auto with arith|]. split; [shed|]. cbn [fst]. split; [constructor|]. intros l Hl'. now inversion Hl'.
    - apply reads_bind. eapply reads_mono; [exact (contains_r x Hm)|]. intros [|] Hc.
      + eapply reads_mono; [eapply IH; [eassumption|exact Hm|cbn in *; lia|cbn in *; lia]|]. intros r Hr. eapply advances_weaken; [exact Hr|shed|].
        intros l Hl'. eapply Pick_out; [exact Hc|discriminate|exact Hl'].
      + apply reads_ret. exists (VDS A B). split; [cbn in *; auto with arith|]. split; [shed|]. cbn [fst]. intros l Hl'. eapply Pick_in; [exact Hc|reflexivity|exact Hl'].
  Qed.
  Lemma sym_r hp fuel : forall a b A B, pholds_ hp a A -> pholds_ hp b B -> length A + length B < fuel ->
    reads sc (hsym_loop kcmp fuel a b) hp (advances hp (VS A B)).
  Proof using Ck HR.
    clear HC HInv. induction fuel as [|fuel IH]; intros a b A B Ha Hb Hf; [lia|]. cbn [hsym_loop]. bnd (peek_r Ha) Ka. bnd (peek_r Hb) Kb.
    unfold hs_cmp_opt. destruct A as [|x A]; cbn [hd_error].
    - apply reads_bind. apply reads_ret. bnd (pnext_r Kb) Nb. apply reads_ret. exists (VS [] (tl B)). split; [cbn; auto|]. split; [shed|]. cbn [fst].
      destruct B as [|y B]; cbn [hd_error tl]; [split; [constructor|]|]; intros l Hl; inversion Hl; subst; constructor.
    - destruct B as [|y B]; cbn [hd_error].
      + apply reads_bind. apply reads_ret. bnd (pnext_r Ka) Na. apply reads_ret. exists (VS A []). split; [cbn; auto|]. split; [shed|]. cbn [fst tl hd_error].
        intros l Hl; inversion Hl; subst; constructor.
      + apply reads_bind. eapply reads_asked; [apply Ck|]. intros c w w' E. apply HR in E. destruct c.
        * bnd (pnext_r Ka) Na. bnd (pnext_r Kb) Nb. cbn [tl] in *. eapply reads_mono; [eapply IH; [eassumption|eassumption|cbn in *; lia]|].
          intros r Hr. eapply advances_weaken; [exact Hr|shed|]. intros l Hl. now apply Sym_eq.
        * bnd (pnext_r Ka) Na. apply reads_ret. exists (VS A (y :: B)). split; [cbn; auto|]. split; [shed|]. cbn [fst hd_error]. intros l Hl. now apply Sym_lt.
        * bnd (pnext_r Kb) Nb. apply reads_ret. exists (VS (x :: A) B). split; [cbn; auto|]. split; [shed|]. cbn [fst hd_error]. intros l Hl. now apply Sym_gt.
  Qed.
  Lemma union_r hp a b A B : pholds_ hp a A -> pholds_ hp b B -> reads sc (hunion_next kcmp a b) hp (advances hp (VU A B)).
  Proof using Ck HR.
    clear HC HInv. intros Ha Hb. unfold hunion_next. bnd (peek_r Ha) Ka. bnd (peek_r Hb) Kb.
    unfold hs_cmp_opt. destruct A as [|x A]; cbn [hd_error].
    - apply reads_bind. apply reads_ret. bnd (pnext_r Kb) Nb. apply reads_ret. exists (VU [] (tl B)). split; [cbn; auto|]. split; [shed|]. cbn [fst].
      destruct B as [|y B]; cbn [hd_error tl]; [split; [constructor|]|]; intros l Hl; inversion Hl; subst; constructor.
    - destruct B as [|y B]; cbn [hd_error].
      + apply reads_bind. apply reads_ret. bnd (pnext_r Ka) Na. apply reads_ret. exists (VU A []). split; [cbn; auto|]. split; [shed|]. cbn [fst tl hd_error].
        intros l Hl; inversion Hl; subst; constructor.
      + apply reads_bind. eapply reads_asked; [apply Ck|]. intros c w w' E. apply HR in E. destruct c.
        * bnd (pnext_r Kb) Nb. bnd (pnext_r Ka) Na. apply reads_ret. exists (VU A B). split; [cbn; auto|]. split; [shed|]. cbn [fst hd_error]. intros l Hl. now apply Un_eq.
        * bnd (pnext_r Ka) Na. apply reads_ret. exists (VU A (y :: B)). split; [cbn; auto|]. split; [shed|]. cbn [fst hd_error]. intros l Hl. now apply Un_lt.
        * bnd (pnext_r Kb) Nb. apply reads_ret. exists (VU (x :: A) B). split; [cbn; auto|]. split; [shed|]. cbn [fst hd_error]. intros l Hl. now apply Un_gt.
  Qed.
  Lemma i_stitch_r hp fuel : forall x y a b A B, rholds hp a A -> rholds hp b B -> length A + length B < fuel ->
    reads sc (hi_stitch kcmp fuel x y a b) hp (advances hp (VI (x :: A) (y :: B))).
  Proof using Ck HR.
    clear HC HInv. induction fuel as [|fuel IH]; intros x y a b A B Ha Hb Hf; [lia|]. cbn [hi_stitch].
    apply reads_bind. eapply reads_asked; [apply Ck|]. intros c w w' E. apply HR in E. destruct c.
    - apply reads_ret. exists (VI A B). split; [cbn; auto|]. split; [shed|]. cbn [fst]. intros l Hl. now apply Int_eq.
    - bnd (next_r Ha) Na. destruct A as [|x' A]; cbn [hd_error tl] in *.
      + apply reads_ret. exists (VI [] B). split; [cbn; auto|]. split; [shed|]. cbn [fst]. split; [apply Int_lt; [exact E|constructor]|]. intros l Hl; now inversion Hl.
      + eapply reads_mono; [eapply IH; [eassumption|eassumption|cbn in *; lia]|]. intros r Hr. eapply advances_weaken; [exact Hr|shed|]. intros l Hl. now apply Int_lt.
    - bnd (next_r Hb) Nb. destruct B as [|y' B]; cbn [hd_error tl] in *.
      + apply reads_ret. exists (VI A []). split; [cbn; auto|]. split; [shed|]. cbn [fst]. split; [apply Int_gt; [exact E|constructor]|]. intros l Hl; now inversion Hl.
      + eapply reads_mono; [eapply IH; [eassumption|eassumption|cbn in *; lia]|]. intros r Hr. eapply advances_weaken; [exact Hr|shed|]. intros l Hl. now apply Int_gt.
  Qed.
  Lemma i_search_r hp fuel : forall a m A B, rholds hp a A -> bears hp m B -> length A < fuel ->
    reads sc (hi_search kcmp fuel a m) hp (advances hp (VIS A B)).
  Proof using HC.
    induction fuel as [|fuel IH]; intros a m A B Ha Hm Hf; [lia|]. cbn [hi_search]. bnd (next_r Ha) Na.
    destruct A as [|x A]; cbn [hd_error tl] in *.
    - apply reads_ret. exists (VIS [] B). split; [cbn; auto|]. split; [shed|]. cbn [fst]. split; [constructor|]. intros l Hl'. now inversion Hl'.
    - apply reads_bind. eapply reads_mono; [exact (contains_r x Hm)|]. intros [|] Hc.
      + apply reads_ret. exists (VIS A B). split; [cbn in *; auto|]. split; [shed|]. cbn [fst]. intros l Hl'. eapply Pick_in; [exact Hc|reflexivity|exact Hl'].
      + eapply reads_mono; [eapply IH; [eassumption|exact Hm|cbn in *; lia]|]. intros r Hr. eapply advances_weaken; [exact Hr|shed|].
        intros l Hl'. eapply Pick_out; [exact Hc|discriminate|exact Hl'].
  Qed.

  Lemma lazy_next_r hp d v : lrep hp d v -> reads sc (hlazy_next kcmp d) hp (advances hp v).
  Proof using Ck HR HC.
    destruct d, v; cbn [lrep]; try contradiction; cbn [hlazy_next].
    - intros [Ha Hb]. bnd (next_r Ha) Na. destruct A as [|x A]; cbn [hd_error tl] in *.
      + apply reads_ret. exists (VD [] B). split; [cbn; auto|]. split; [shed|]. cbn [fst]. split; [constructor|]. intros l Hl; now inversion Hl.
      + eapply d_stitch_r; [eassumption|eassumption|]. rewrite (rholds_len Na), (pholds_len_ Hb). lia.
    - intros (Ha & Hm & Hl). eapply d_search_r; eauto. rewrite (rholds_len Ha). lia.
    - intros [Ha Hb]. eapply sym_r; eauto. rewrite (pholds_len_ Ha), (pholds_len_ Hb). lia.
    - intros [Ha Hb]. now apply union_r.
    - intros [Ha Hb]. bnd (next_r Ha) Na. destruct A as [|x A]; cbn [hd_error tl] in *.
      + apply reads_ret. exists (VI [] B). split; [cbn; auto|]. split; [shed|]. cbn [fst]. split; [constructor|]. intros l Hl; now inversion Hl.
      + bnd (next_r Hb) Nb. destruct B as [|y B]; cbn [hd_error tl] in *.
        * apply reads_ret. exists (VI A []). split; [cbn; auto|]. split; [shed|]. cbn [fst]. split; [constructor|]. intros l Hl; now inversion Hl.
        * eapply i_stitch_r; [eassumption|eassumption|]. rewrite (rholds_len Na), (rholds_len Nb). lia.
    - intros (Ha & Hm). eapply i_search_r; eauto. rewrite (rholds_len Ha). lia.
  Qed.

  (** [n] calls *)
  Lemma lazy_calls_r hp n : forall d v, lrep hp d v -> reads sc (hlazy_calls kcmp n d) hp (fun x =>
    exists v', lrep hp (snd x) v' /\ forall l', future v' l' -> exists l, future v l /\ fst x = delivered n l /\ skipn n l = l').
  Proof using Ck HR HC.
    induction n as [|n IH]; intros d v L; cbn [hlazy_calls].
    - apply reads_ret. exists v. split; [exact L|]. intros l Hl. exists l. auto.
    - apply reads_bind. eapply reads_mono; [exact (lazy_next_r L)|]. intros [o d1] (v1 & L1 & _ & H1). cbn [fst snd] in *.
      apply reads_bind. eapply reads_mono; [exact (IH _ _ L1)|]. intros [os d2] (v2 & L2 & H2). cbn [fst snd] in *.
      apply reads_ret. exists v2. split; [exact L2|]. intros l' Hl'. destruct (H2 _ Hl') as (l & Hl & -> & E). cbn [fst].
      destruct o as [y|].
      + exists (y :: l). auto.
      + destruct H1 as [F0 F1]. specialize (F1 _ Hl). subst l. exists []. split; [exact F0|]. rewrite skipn_nil in *. split; [|exact E].
        unfold delivered. cbn [firstn map app repeat]. rewrite firstn_nil. cbn [length]. now rewrite !Nat.sub_0_r.
  Qed.

  (** ** How the iterators begin, and what they can end with *)
  Definition first_view (k : algebra) A B : view_ :=
    match k with
    | Difference => if length B / 16 <? length A then VD A B else VDS A B
    | SymmetricDifference => VS A B
    | Union => VU A B
    | Intersection =>
        let '(P, Q) := if length A <=? length B then (A, B) else (B, A) in
        if length Q / 16 <? length P then VI P Q else VIS P Q
    end.
  Lemma lazy_r hp k s o A B : bears hp s A -> bears hp o B -> reads sc (hs_lazy (T := T) (W := W) k s o) hp (fun d => lrep hp d (first_view k A B)).
  Proof using HInv.
    clear Ck HR HC. intros Hs Ho. unfold hs_lazy, first_view, ITER_PERFORMANCE_TIPPING_SIZE_DIFF. rewrite (bears_len Hs), (bears_len Ho). destruct k.
    - apply reads_bind. eapply reads_mono; [exact (iter_r Hs)|]. intros a Ha. destruct (length B / 16 <? length A) eqn:E.
      + apply reads_bind. eapply reads_mono; [exact (iter_r Ho)|]. intros b Hb. apply reads_ret. cbn. auto.
      + apply reads_ret. cbn. split; [exact Ha|]. split; [exact Ho|]. apply Nat.ltb_ge in E. pose proof (Nat.div_le_upper_bound (length B) 16 (length B)). lia.
    - apply reads_bind. eapply reads_mono; [exact (iter_r Hs)|]. intros a Ha. apply reads_bind. eapply reads_mono; [exact (iter_r Ho)|]. intros b Hb. apply reads_ret. cbn. auto.
    - destruct (length A <=? length B).
      + rewrite (bears_len Hs), (bears_len Ho). apply reads_bind. eapply reads_mono; [exact (iter_r Hs)|]. intros a Ha. destruct (length B / 16 <? length A) eqn:E.
        * apply reads_bind. eapply reads_mono; [exact (iter_r Ho)|]. intros b Hb. apply reads_ret. cbn. auto.
        * apply reads_ret. cbn. auto.
      + rewrite (bears_len Hs), (bears_len Ho). apply reads_bind. eapply reads_mono; [exact (iter_r Ho)|]. intros a Ha. destruct (length A / 16 <? length B) eqn:E.
        * apply reads_bind. eapply reads_mono; [exact (iter_r Hs)|]. intros b Hb. apply reads_ret. cbn. auto.
        * apply reads_ret. cbn. auto.
    - apply reads_bind. eapply reads_mono; [exact (iter_r Hs)|]. intros a Ha. apply reads_bind. eapply reads_mono; [exact (iter_r Ho)|]. intros b Hb. apply reads_ret. cbn. auto.
  Qed.

  Lemma dif_count A B l : dif A B l -> length A <= length l + length B /\ length l <= length A.
  Proof using. clear. induction 1; cbn in *; lia. Qed.
  Lemma pick_count keep B A l : pick keep B A l -> length l <= length A.
  Proof using. clear. induction 1; cbn in *; lia. Qed.
  Lemma sym_count A B l : sym A B l -> length l <= length A + length B.
  Proof using. clear. induction 1; cbn in *; lia. Qed.
  Lemma uni_count A B l : uni A B l -> length A <= length l /\ length B <= length l /\ length l <= length A + length B.
  Proof using. clear. induction 1; cbn in *; lia. Qed.
  Lemma inter_count A B l : inter A B l -> length l <= length A.
  Proof using. clear. induction 1; cbn in *; lia. Qed.
  Lemma hint_r hp d v l : lrep hp d v -> future v l -> fst (hlazy_hint d) <= length l <= snd (hlazy_hint d).
  Proof using HInv.
    clear Ck HR HC. destruct d, v; cbn [lrep]; try contradiction; cbn [future hlazy_hint fst snd]; intros L F.
    - destruct L as [Ha Hb]. rewrite (rholds_len Ha), (pholds_len_ Hb). apply dif_count in F. lia.
    - destruct L as (Ha & Hm & Hl). rewrite (rholds_len Ha), (bears_len Hm). apply pick_count in F. lia.
    - destruct L as [Ha Hb]. rewrite (pholds_len_ Ha), (pholds_len_ Hb). apply sym_count in F. lia.
    - destruct L as [Ha Hb]. rewrite (pholds_len_ Ha), (pholds_len_ Hb). apply uni_count in F. lia.
    - destruct L as [Ha Hb]. rewrite (rholds_len Ha). apply inter_count in F. lia.
    - destruct L as [Ha Hb]. rewrite (rholds_len Ha). apply pick_count in F. lia.
  Qed.

  Section Total.
    Hypothesis (R_total : forall x y, exists c, R x y c) (C_total : forall x B, exists c, Cn x B c).
    Lemma pick_total keep B A : exists l, pick keep B A l.
    Proof using C_total.
      clear - C_total. induction A as [|x A [l IH]]; [exists []; constructor|]. destruct (C_total x B) as [c Hc].
      destruct (Bool.bool_dec c keep); [exists (x :: l); eapply Pick_in; eauto|exists l; eapply Pick_out; eauto].
    Qed.
    Lemma merge_total n : forall A B, length A + length B <= n -> (exists l, dif A B l) /\ (exists l, sym A B l) /\ (exists l, uni A B l) /\ (exists l, inter A B l).
    Proof using R_total.
      clear - R_total. induction n as [|n IH]; intros A B Hn.
      - destruct A; [|cbn in Hn; lia]. repeat split; eexists; constructor.
      - destruct A as [|x A]; [repeat split; eexists; constructor|]. destruct B as [|y B].
        + destruct (IH A []) as ((l & Hl) & _); [cbn in *; lia|]. repeat split; eexists; try (econstructor; eassumption); constructor.
        + destruct (R_total x y) as [[| |] Hc].
          * destruct (IH A B) as ((l1 & H1) & (l2 & H2) & (l3 & H3) & (l4 & H4)); [cbn in *; lia|]. repeat split; eexists; econstructor; eassumption.
          * destruct (IH A (y :: B)) as ((l1 & H1) & (l2 & H2) & (l3 & H3) & (l4 & H4)); [cbn in *; lia|].
            repeat split; eexists; [eapply Dif_lt|eapply Sym_lt|eapply Un_lt|eapply Int_lt]; eassumption.
          * destruct (IH (x :: A) B) as ((l1 & H1) & (l2 & H2) & (l3 & H3) & (l4 & H4)); [cbn in *; lia|].
            repeat split; eexists; [eapply Dif_gt|eapply Sym_gt|eapply Un_gt|eapply Int_gt]; eassumption.
    Qed.
    Lemma future_total v : exists l, future v l.
    Proof using R_total C_total.
      clear - R_total C_total. destruct v as [A B|A B|A B|A B|A B|A B]; cbn [future]; try (destruct (@merge_total _ A B (le_n _)) as (H1 & H2 & H3 & H4); assumption); apply pick_total.
    Qed.

    (** the whole observation of a lazy iterator *)
    Lemma lazy_obs_r hp k s o A B n m : bears hp s A -> bears hp o B ->
      reads sc (abind (hs_lazy k s o) (fun d => abind (hlazy_calls kcmp n d) (fun a => abind (hlazy_calls kcmp m (snd a)) (fun b =>
                 aret (XItems (fst a) (fst (hlazy_hint (snd a))) (snd (hlazy_hint (snd a))) (fst b)))))) hp
        (fun r => exists l lo hi, future (first_view k A B) l /\ r = XItems (delivered n l) lo hi (delivered m (skipn n l)) /\ lo <= length (skipn n l) <= hi).
    Proof using Ck HR HC HInv R_total C_total.
      intros Hs Ho. apply reads_bind. eapply reads_mono; [exact (lazy_r k Hs Ho)|]. intros d L.
      apply reads_bind. eapply reads_mono; [exact (lazy_calls_r n L)|]. intros [os d1] (v1 & L1 & H1). cbn [fst snd] in *.
      apply reads_bind. eapply reads_mono; [exact (lazy_calls_r m L1)|]. intros [os2 d2] (v2 & L2 & H2). cbn [fst snd] in *.
      apply reads_ret. destruct (future_total v2) as (l2 & F2). destruct (H2 _ F2) as (l1 & F1 & -> & E1). destruct (H1 _ F1) as (l & F & -> & E).
      subst. exists l, (fst (hlazy_hint d1)), (snd (hlazy_hint d1)). split; [exact F|]. split; [reflexivity|]. exact (hint_r L1 F1).
    Qed.
  End Total.

  (** ** Relations *)
  Inductive within : list T -> list T -> bool -> Prop :=
  | W_nil B : within [] B true
  | W_short x A : within (x :: A) [] false
  | W_lt x A y B b : R y x Lt -> within (x :: A) B b -> within (x :: A) (y :: B) b
  | W_gt x A y B : R y x Gt -> within (x :: A) (y :: B) false
  | W_eq x A y B b : R y x Eq -> within A B b -> within (x :: A) (y :: B) b.
  Inductive within_ (B : list T) : list T -> bool -> Prop :=
  | W2_nil : within_ B [] true
  | W2_in x A b : Cn x B true -> within_ B A b -> within_ B (x :: A) b
  | W2_out x A : Cn x B false -> within_ B (x :: A) false.
  Definition subset_view A B (b : bool) : Prop :=
    if length B <? length A then b = false else if length B / 16 <? length A then within A B b else within_ B A b.

  Lemma sub_stitch_r hp fuel : forall A B a b, rholds hp a (tl A) -> rholds hp b (tl B) -> length A + length B < fuel ->
    reads sc (hsub_stitch kcmp fuel (hd_error A) (hd_error B) a b) hp (within A B).
  Proof using Ck HR.
    clear HC HInv. induction fuel as [|fuel IH]; intros A B a b Ha Hb Hf; [lia|]. cbn [hsub_stitch].
    destruct A as [|x A]; cbn [hd_error tl] in *; [apply reads_ret; constructor|].
    destruct B as [|y B]; cbn [hd_error tl] in *; [apply reads_ret; constructor|].
    apply reads_bind. eapply reads_asked; [apply Ck|]. intros c w w' E. apply HR in E. destruct c.
    - bnd (next_r Ha) Na. bnd (next_r Hb) Nb. eapply reads_mono; [eapply IH; [eassumption|eassumption|cbn in *; lia]|]. intros r Hr. now apply W_eq.
    - bnd (next_r Hb) Nb. eapply reads_mono; [eapply (IH (x :: A) B); [eassumption|eassumption|cbn in *; lia]|]. intros r Hr. now apply W_lt.
    - apply reads_ret. now apply W_gt.
  Qed.
  Lemma sub_search_r hp fuel : forall A a m B, rholds hp a A -> bears hp m B -> length A < fuel ->
    reads sc (hsub_search kcmp fuel a m) hp (within_ B A).
  Proof using HC.
    induction fuel as [|fuel IH]; intros A a m B Ha Hm Hf; [lia|]. cbn [hsub_search]. bnd (next_r Ha) Na.
    destruct A as [|x A]; cbn [hd_error tl] in *; [apply reads_ret; constructor|].
    apply reads_bind. eapply reads_mono; [exact (contains_r x Hm)|]. intros [|] Hc.
    - eapply reads_mono; [eapply IH; [eassumption|exact Hm|cbn in *; lia]|]. intros r Hr. now apply W2_in.
    - apply reads_ret. now apply W2_out.
  Qed.
  Lemma subset_r hp s o A B : bears hp s A -> bears hp o B -> reads sc (hs_is_subset kcmp s o) hp (subset_view A B).
  Proof using Ck HR HC HInv.
    intros Hs Ho. unfold hs_is_subset, subset_view, ITER_PERFORMANCE_TIPPING_SIZE_DIFF. rewrite (bears_len Hs), (bears_len Ho).
    destruct (length B <? length A); [now apply reads_ret|]. destruct (length B / 16 <? length A).
    - apply reads_bind. eapply reads_mono; [exact (iter_r Hs)|]. intros x Hx. apply reads_bind. eapply reads_mono; [exact (iter_r Ho)|]. intros y Hy.
      bnd (next_r Hx) Na. bnd (next_r Hy) Nb. apply sub_stitch_r; auto. rewrite (rholds_len Na), (rholds_len Nb). destruct A, B; cbn; lia.
    - apply reads_bind. eapply reads_mono; [exact (iter_r Hs)|]. intros x Hx. eapply sub_search_r; eauto. rewrite (rholds_len Hx). lia.
  Qed.
  Lemma disjoint_r hp s o A B : (forall v, exists l, future v l) -> bears hp s A -> bears hp o B ->
    reads sc (hs_is_disjoint kcmp s o) hp (fun b => exists l, future (first_view Intersection A B) l /\ b = match l with [] => true | _ => false end).
  Proof using Ck HR HC HInv.
    intros Tot Hs Ho. unfold hs_is_disjoint. apply reads_bind. eapply reads_mono; [exact (lazy_r Intersection Hs Ho)|]. intros d L.
    apply reads_bind. eapply reads_mono; [exact (lazy_next_r L)|]. intros [x d'] (v' & L' & _ & H). cbn [fst snd] in *. apply reads_ret.
    destruct x as [x|]; cbn [fst].
    - destruct (Tot v') as (l & Hl). exists (x :: l). auto.
    - exists []. split; [apply H|reflexivity].
  Qed.
End Algebra.
