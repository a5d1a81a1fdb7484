(** * LazyCatch: the lazy set iterators after a panic in next() has been caught. *)
From Coq Require Import List Arith Lia Bool.
From Verif Require Import Base IterSpec MapSpec SetSpec BTreeModel BTreeInv BTreeLemmas BTreeSearch BTreeInsert BTreeIterModel BTreeIter BTreeIterProofs BTreeBorder BTreeSplit BTreeCollect.
From Verif Require Import BTreeSetModel HeapModel HeapMapModel HeapArr HeapRep HeapWp HeapRes HeapPart HeapMap HeapEntry HeapIter HeapHistory.
From Verif Require Import HostileModel HostileOps HostileSetModel HostileSetSpec HostileSets LazyModel.
Import ListNotations.
Set Implicit Arguments.
Unset Strict Implicit.

(** ** Not caught, these are the iterators of HostileSetModel *)
Section Same.
  Variables (T W : Type) (kcmp : T -> T -> asks W comparison).
  Notation AM := (AM T unit W).
  Definition rethrow (r : option (option T) * hlazy T) : AM (option T * hlazy T) :=
    match fst r with Some o => @aret T unit W _ (o, snd r) | None => fun hp w => (Panic, hp, w) end.
  Definition throw {A} : AM A := fun hp w => (Panic, hp, w).
  Lemma assoc A B C (m : AM A) (f : A -> AM B) (g : B -> AM C) hp w : abind (abind m f) g hp w = abind m (fun x => abind (f x) g) hp w.
  Proof. unfold abind. destruct (m hp w) as [[[]]]; reflexivity. Qed.
  Lemma ext A B (m : AM A) (f g : A -> AM B) hp w : (forall x hp w, f x hp w = g x hp w) -> abind m f hp w = abind m g hp w.
  Proof. intros H. unfold abind. destruct (m hp w) as [[[]]]; auto. Qed.
  Lemma caught A B (m : AM A) (f : A -> AM B) (g : option A -> AM B) hp w :
    (forall x hp w, f x hp w = g (Some x) hp w) -> (forall hp w, throw hp w = g None hp w) -> abind m f hp w = abind (acatch m) g hp w.
  Proof. intros H H0. unfold abind, acatch. destruct (m hp w) as [[[]]]; auto; apply H0. Qed.
  Ltac nx x := rewrite assoc; apply ext; intros [x ?] ? ?; cbn [fst snd].
  Ltac tries c := rewrite assoc; apply caught; [intros c ? ?|reflexivity].
  Lemma d_stitch_same fuel : forall x a b hp w, hd_stitch kcmp fuel x a b hp w = abind (hd_stitch_c kcmp fuel x a b) rethrow hp w.
  Proof.
    induction fuel as [|fuel IH]; intros x a b hp w; [reflexivity|]. cbn [hd_stitch hd_stitch_c]. nx y. destruct y as [y|]; [|reflexivity].
    tries c. destruct c; [|reflexivity|nx q; apply IH]. nx x'. destruct x' as [x'|]; [|reflexivity]. nx q. apply IH.
  Qed.
  Lemma d_search_same fuel : forall a b hp w, hd_search kcmp fuel a b hp w = abind (hd_search_c kcmp fuel a b) rethrow hp w.
  Proof.
    induction fuel as [|fuel IH]; intros a b hp w; [reflexivity|]. cbn [hd_search hd_search_c]. nx x. destruct x as [x|]; [|reflexivity].
    tries c. destruct c; [apply IH|reflexivity].
  Qed.
  Lemma sym_same fuel : forall a b hp w, hsym_loop kcmp fuel a b hp w = abind (hsym_loop_c kcmp fuel a b) rethrow hp w.
  Proof.
    induction fuel as [|fuel IH]; intros a b hp w; [reflexivity|]. cbn [hsym_loop hsym_loop_c]. nx x. nx y.
    tries c. destruct c; [nx n; nx m; apply IH|nx n; reflexivity|nx n; reflexivity].
  Qed.
  Lemma union_same a b hp w : hunion_next kcmp a b hp w = abind (hunion_next_c kcmp a b) rethrow hp w.
  Proof. unfold hunion_next, hunion_next_c. nx x. nx y. tries c. destruct c; [nx n; nx m; reflexivity|nx n; reflexivity|nx n; reflexivity]. Qed.
  Lemma i_stitch_same fuel : forall x y a b hp w, hi_stitch kcmp fuel x y a b hp w = abind (hi_stitch_c kcmp fuel x y a b) rethrow hp w.
  Proof.
    induction fuel as [|fuel IH]; intros x y a b hp w; [reflexivity|]. cbn [hi_stitch hi_stitch_c].
    tries c. destruct c; [reflexivity| |]; nx x'; (destruct x' as [x'|]; [apply IH|reflexivity]).
  Qed.
  Lemma i_search_same fuel : forall a b hp w, hi_search kcmp fuel a b hp w = abind (hi_search_c kcmp fuel a b) rethrow hp w.
  Proof.
    induction fuel as [|fuel IH]; intros a b hp w; [reflexivity|]. cbn [hi_search hi_search_c]. nx x. destruct x as [x|]; [|reflexivity].
    tries c. destruct c; [reflexivity|apply IH].
  Qed.
  (** next() as its caller sees it who does not catch the panic *)
  Lemma next_c_same d hp w : hlazy_next kcmp d hp w = abind (hlazy_next_c kcmp d) rethrow hp w.
  Proof.
    destruct d; cbn [hlazy_next hlazy_next_c]; auto using d_search_same, sym_same, union_same, i_search_same.
    - nx x. destruct x as [x|]; [apply d_stitch_same|reflexivity].
    - nx x. destruct x as [x|]; [|reflexivity]. nx y. destruct y as [y|]; [apply i_stitch_same|reflexivity].
  Qed.
End Same.

Section Catch.
  Variables (T W : Type) (kcmp : T -> T -> asks W comparison) (sc : Prop).
  Hypothesis Ck : forall a b, calm sc (kcmp a b).
  Notation heap := (heap T unit).
  Notation bmap := (bmap T unit).
  Implicit Types (A B : list T) (hp : heap).
  Variable R : T -> T -> comparison -> Prop.
  Hypothesis HR : forall a b w c w', kcmp a b w = (Some c, w') -> R a b c.
  Variable Inv : bmap -> Prop.
  Variable Cn : T -> list T -> bool -> Prop.
  Hypothesis HC : forall x m2 (m1 : bmap) s hp, mrep m2 m1 s -> own hp (sres s) -> Inv m1 ->
    reads sc (hs_contains kcmp x m2) hp (Cn x (map fst (entries m1))).
  Variable FP : src T unit -> Prop.
  Notation rholds := (rholds FP).
  Notation pholds_ := (pholds_ FP).
  Notation bears := (bears Inv FP).
  Notation lrep := (lrep Inv FP).
  Notation advances := (advances R Inv Cn FP).

  Lemma reads_catch (X : Type) (m : AM T unit W X) hp (P : X -> Prop) : reads sc m hp P ->
    reads False (acatch m) hp (fun o => match o with Some a => P a | None => sc end).
  Proof.
    intros H w. destruct (H w) as (o & w' & E & Ho). unfold acatch. rewrite E. destruct o as [a|e| | |]; try contradiction; eexists _, _; (split; [reflexivity|exact Ho]).
  Qed.
  (** [x]: what next() came to ([None]: a panic), and the iterator afterwards *)
  Definition survives hp (v : view_ T) (x : option (option T) * hlazy T) : Prop :=
    match fst x with
    | Some o => advances hp v (o, snd x)
    | None => sc /\ exists v', lrep hp (snd x) v' /\ sheds v v'
    end.
  Lemma survives_weaken hp v v' x : survives hp v' x -> sheds v v' -> (forall l, future R Cn v' l -> future R Cn v l) -> survives hp v x.
  Proof.
    unfold survives. destruct (fst x) as [o|].
    - intros H Sh F. eapply advances_weaken; eassumption.
    - intros (Hs & v1 & L & S1) Sh F. split; [exact Hs|]. exists v1. split; [exact L|]. eapply sheds_trans; eassumption.
  Qed.
  Ltac shed := unfold sheds; try match goal with |- context [tl ?B] => destruct B; cbn [tl] end; split; repeat constructor.
  Tactic Notation "bnd" constr(H) ident(N) := apply reads_bind; eapply reads_mono; [exact H|]; let o := fresh "o" in let Eo := fresh "Eo" in intros [o ?] [Eo N]; cbn [fst snd] in *; subst o.
  Tactic Notation "bndc" constr(H) ident(c) ident(E) := apply reads_bind; eapply reads_mono; [exact (reads_catch H)|]; intros [c|] E.
  Lemma asked_r x y hp : reads sc (ask (K := T) (V := unit) (kcmp x y)) hp (R x y).
  Proof using Ck HR. eapply reads_asked; [apply Ck|]. intros c w w' E. exact (HR E). Qed.

  Lemma d_stitch_s hp fuel : forall x a b A B, rholds hp a A -> pholds_ hp b B -> length A + length B < fuel ->
    reads False (hd_stitch_c kcmp fuel x a b) hp (survives hp (VD (x :: A) B)).
  Proof using Ck HR.
    clear HC. induction fuel as [|fuel IH]; intros x a b A B Ha Hb Hf; [lia|]. cbn [hd_stitch_c]. bnd (@peek_r T W False FP hp _ _ Hb) Kb.
    destruct B as [|y B]; cbn [hd_error].
    - apply reads_bind. apply reads_ret. apply reads_ret. exists (VD A []). split; [cbn; auto|]. split; [shed|]. cbn [fst]. intros l Hl. now constructor.
    - bndc (asked_r x y hp) c E; [|apply reads_ret; split; [exact E|]; exists (VD A (y :: B)); split; [cbn; auto|shed]]. destruct c.
      + bnd (@next_r T W False FP hp _ _ Ha) Na. destruct A as [|x' A]; cbn [hd_error tl] in *.
        * apply reads_ret. exists (VD [] (y :: B)). split; [cbn; auto|]. split; [shed|]. cbn [fst]. split; [apply Dif_eq; [exact E|constructor]|]. intros l Hl. now inversion Hl.
        * bnd (@pnext_r T W False FP hp _ _ Kb) Nb. cbn [tl] in *. eapply reads_mono; [eapply IH; [eassumption|eassumption|cbn in *; lia]|].
          intros r Hr. eapply survives_weaken; [exact Hr|shed|]. intros l Hl. now apply Dif_eq.
      + apply reads_ret. exists (VD A (y :: B)). split; [cbn; auto|]. split; [shed|]. cbn [fst]. intros l Hl. now apply Dif_lt.
      + bnd (@pnext_r T W False FP hp _ _ Kb) Nb. cbn [tl] in *. eapply reads_mono; [eapply IH; [eassumption|eassumption|cbn in *; lia]|].
        intros r Hr. eapply survives_weaken; [exact Hr|shed|]. intros l Hl. now apply Dif_gt.
  Qed.
  Lemma contains_s hp x m B : bears hp m B -> reads sc (hs_contains kcmp x m) hp (Cn x B).
  Proof using HC. intros (m1 & s & M & O & I & <-). exact (HC x M (proj2 O) I). Qed.
  Lemma d_search_s hp fuel : forall a m A B, rholds hp a A -> bears hp m B -> length A <= length B -> length A < fuel ->
    reads False (hd_search_c kcmp fuel a m) hp (survives hp (VDS A B)).
  Proof using HC.
    induction fuel as [|fuel IH]; intros a m A B Ha Hm Hl Hf; [lia|]. cbn [hd_search_c]. bnd (@next_r T W False FP hp _ _ Ha) Na.
    destruct A as [|x A]; cbn [hd_error tl] in *.
    - apply reads_ret. exists (VDS [] B). split; [cbn; auto with arith|]. split; [shed|]. cbn [fst]. split; [constructor|]. intros l Hl'. now inversion Hl'.
    - bndc (contains_s x Hm) c Hc; [destruct c|apply reads_ret; split; [exact Hc|]; exists (VDS A B); split; [cbn in *; auto with arith|shed]].
      + eapply reads_mono; [eapply IH; [eassumption|exact Hm|cbn in *; lia|cbn in *; lia]|]. intros r Hr. eapply survives_weaken; [exact Hr|shed|].
        intros l Hl'. eapply Pick_out; [exact Hc|discriminate|exact Hl'].
      + apply reads_ret. exists (VDS A B). split; [cbn in *; auto with arith|]. split; [shed|]. cbn [fst]. intros l Hl'. eapply Pick_in; [exact Hc|reflexivity|exact Hl'].
  Qed.
  Lemma cmp_opt_r x y hp : reads sc (hs_cmp_opt (W := W) kcmp x y Gt Lt) hp (fun c => match x, y with None, _ => c = Gt | _, None => c = Lt | Some x, Some y => R x y c end).
  Proof using Ck HR. destruct x as [x|], y as [y|]; cbn [hs_cmp_opt]; try (now apply reads_ret). apply asked_r. Qed.
  Lemma sym_s hp fuel : forall a b A B, pholds_ hp a A -> pholds_ hp b B -> length A + length B < fuel ->
    reads False (hsym_loop_c kcmp fuel a b) hp (survives hp (VS A B)).
  Proof using Ck HR.
    clear HC. induction fuel as [|fuel IH]; intros a b A B Ha Hb Hf; [lia|]. cbn [hsym_loop_c]. bnd (@peek_r T W False FP hp _ _ Ha) Ka. bnd (@peek_r T W False FP hp _ _ Hb) Kb.
    bndc (cmp_opt_r (hd_error A) (hd_error B) hp) c E; [|apply reads_ret; split; [exact E|]; exists (VS A B); split; [cbn; auto|shed]].
    destruct A as [|x A]; cbn [hd_error] in E.
    - subst c. bnd (@pnext_r T W False FP hp _ _ Kb) Nb. apply reads_ret. exists (VS [] (tl B)). split; [cbn; auto|]. split; [shed|]. cbn [fst].
      destruct B as [|y B]; cbn [hd_error tl]; [split; [constructor|]|]; intros l Hl; inversion Hl; subst; constructor.
    - destruct B as [|y B]; cbn [hd_error] in E.
      + subst c. bnd (@pnext_r T W False FP hp _ _ Ka) Na. apply reads_ret. exists (VS A []). split; [cbn; auto|]. split; [shed|]. cbn [fst tl hd_error].
        intros l Hl; inversion Hl; subst; constructor.
      + destruct c.
        * bnd (@pnext_r T W False FP hp _ _ Ka) Na. bnd (@pnext_r T W False FP hp _ _ Kb) Nb. cbn [tl] in *. eapply reads_mono; [eapply IH; [eassumption|eassumption|cbn in *; lia]|].
          intros r Hr. eapply survives_weaken; [exact Hr|shed|]. intros l Hl. now apply Sym_eq.
        * bnd (@pnext_r T W False FP hp _ _ Ka) Na. apply reads_ret. exists (VS A (y :: B)). split; [cbn; auto|]. split; [shed|]. cbn [fst hd_error]. intros l Hl. now apply Sym_lt.
        * bnd (@pnext_r T W False FP hp _ _ Kb) Nb. apply reads_ret. exists (VS (x :: A) B). split; [cbn; auto|]. split; [shed|]. cbn [fst hd_error]. intros l Hl. now apply Sym_gt.
  Qed.
  Lemma union_s hp a b A B : pholds_ hp a A -> pholds_ hp b B -> reads False (hunion_next_c kcmp a b) hp (survives hp (VU A B)).
  Proof using Ck HR.
    clear HC. intros Ha Hb. unfold hunion_next_c. bnd (@peek_r T W False FP hp _ _ Ha) Ka. bnd (@peek_r T W False FP hp _ _ Hb) Kb.
    bndc (cmp_opt_r (hd_error A) (hd_error B) hp) c E; [|apply reads_ret; split; [exact E|]; exists (VU A B); split; [cbn; auto|shed]].
    destruct A as [|x A]; cbn [hd_error] in E.
    - subst c. bnd (@pnext_r T W False FP hp _ _ Kb) Nb. apply reads_ret. exists (VU [] (tl B)). split; [cbn; auto|]. split; [shed|]. cbn [fst].
      destruct B as [|y B]; cbn [hd_error tl]; [split; [constructor|]|]; intros l Hl; inversion Hl; subst; constructor.
    - destruct B as [|y B]; cbn [hd_error] in E.
      + subst c. bnd (@pnext_r T W False FP hp _ _ Ka) Na. apply reads_ret. exists (VU A []). split; [cbn; auto|]. split; [shed|]. cbn [fst tl hd_error].
        intros l Hl; inversion Hl; subst; constructor.
      + destruct c.
        * bnd (@pnext_r T W False FP hp _ _ Kb) Nb. bnd (@pnext_r T W False FP hp _ _ Ka) Na. apply reads_ret. exists (VU A B). split; [cbn; auto|]. split; [shed|]. cbn [fst hd_error]. intros l Hl. now apply Un_eq.
        * bnd (@pnext_r T W False FP hp _ _ Ka) Na. apply reads_ret. exists (VU A (y :: B)). split; [cbn; auto|]. split; [shed|]. cbn [fst hd_error]. intros l Hl. now apply Un_lt.
        * bnd (@pnext_r T W False FP hp _ _ Kb) Nb. apply reads_ret. exists (VU (x :: A) B). split; [cbn; auto|]. split; [shed|]. cbn [fst hd_error]. intros l Hl. now apply Un_gt.
  Qed.
  Lemma i_stitch_s hp fuel : forall x y a b A B, rholds hp a A -> rholds hp b B -> length A + length B < fuel ->
    reads False (hi_stitch_c kcmp fuel x y a b) hp (survives hp (VI (x :: A) (y :: B))).
  Proof using Ck HR.
    clear HC. induction fuel as [|fuel IH]; intros x y a b A B Ha Hb Hf; [lia|]. cbn [hi_stitch_c].
    bndc (asked_r x y hp) c E; [|apply reads_ret; split; [exact E|]; exists (VI A B); split; [cbn; auto|shed]]. destruct c.
    - apply reads_ret. exists (VI A B). split; [cbn; auto|]. split; [shed|]. cbn [fst]. intros l Hl. now apply Int_eq.
    - bnd (@next_r T W False FP hp _ _ Ha) Na. destruct A as [|x' A]; cbn [hd_error tl] in *.
      + apply reads_ret. exists (VI [] B). split; [cbn; auto|]. split; [shed|]. cbn [fst]. split; [apply Int_lt; [exact E|constructor]|]. intros l Hl; now inversion Hl.
      + eapply reads_mono; [eapply IH; [eassumption|eassumption|cbn in *; lia]|]. intros r Hr. eapply survives_weaken; [exact Hr|shed|]. intros l Hl. now apply Int_lt.
    - bnd (@next_r T W False FP hp _ _ Hb) Nb. destruct B as [|y' B]; cbn [hd_error tl] in *.
      + apply reads_ret. exists (VI A []). split; [cbn; auto|]. split; [shed|]. cbn [fst]. split; [apply Int_gt; [exact E|constructor]|]. intros l Hl; now inversion Hl.
      + eapply reads_mono; [eapply IH; [eassumption|eassumption|cbn in *; lia]|]. intros r Hr. eapply survives_weaken; [exact Hr|shed|]. intros l Hl. now apply Int_gt.
  Qed.
  Lemma i_search_s hp fuel : forall a m A B, rholds hp a A -> bears hp m B -> length A < fuel ->
    reads False (hi_search_c kcmp fuel a m) hp (survives hp (VIS A B)).
  Proof using HC.
    induction fuel as [|fuel IH]; intros a m A B Ha Hm Hf; [lia|]. cbn [hi_search_c]. bnd (@next_r T W False FP hp _ _ Ha) Na.
    destruct A as [|x A]; cbn [hd_error tl] in *.
    - apply reads_ret. exists (VIS [] B). split; [cbn; auto|]. split; [shed|]. cbn [fst]. split; [constructor|]. intros l Hl'. now inversion Hl'.
    - bndc (contains_s x Hm) c Hc; [destruct c|apply reads_ret; split; [exact Hc|]; exists (VIS A B); split; [cbn in *; auto|shed]].
      + apply reads_ret. exists (VIS A B). split; [cbn in *; auto|]. split; [shed|]. cbn [fst]. intros l Hl'. eapply Pick_in; [exact Hc|reflexivity|exact Hl'].
      + eapply reads_mono; [eapply IH; [eassumption|exact Hm|cbn in *; lia]|]. intros r Hr. eapply survives_weaken; [exact Hr|shed|].
        intros l Hl'. eapply Pick_out; [exact Hc|discriminate|exact Hl'].
  Qed.
  Lemma lazy_next_s hp d v : lrep hp d v -> reads False (hlazy_next_c kcmp d) hp (survives hp v).
  Proof using Ck HR HC.
    destruct d, v; cbn [HostileSets.lrep]; try contradiction; cbn [hlazy_next_c].
    - intros [Ha Hb]. bnd (@next_r T W False FP hp _ _ Ha) Na. destruct A as [|x A]; cbn [hd_error tl] in *.
      + apply reads_ret. exists (VD [] B). split; [cbn; auto|]. split; [shed|]. cbn [fst]. split; [constructor|]. intros l Hl; now inversion Hl.
      + eapply d_stitch_s; [eassumption|eassumption|]. rewrite (rholds_len Na), (pholds_len_ Hb). lia.
    - intros (Ha & Hm & Hl). eapply d_search_s; eauto. rewrite (rholds_len Ha). lia.
    - intros [Ha Hb]. eapply sym_s; eauto. rewrite (pholds_len_ Ha), (pholds_len_ Hb). lia.
    - intros [Ha Hb]. now apply union_s.
    - intros [Ha Hb]. bnd (@next_r T W False FP hp _ _ Ha) Na. destruct A as [|x A]; cbn [hd_error tl] in *.
      + apply reads_ret. exists (VI [] B). split; [cbn; auto|]. split; [shed|]. cbn [fst]. split; [constructor|]. intros l Hl; now inversion Hl.
      + bnd (@next_r T W False FP hp _ _ Hb) Nb. destruct B as [|y B]; cbn [hd_error tl] in *.
        * apply reads_ret. exists (VI A []). split; [cbn; auto|]. split; [shed|]. cbn [fst]. split; [constructor|]. intros l Hl; now inversion Hl.
        * eapply i_stitch_s; [eassumption|eassumption|]. rewrite (rholds_len Na), (rholds_len Nb). lia.
    - intros (Ha & Hm). eapply i_search_s; eauto. rewrite (rholds_len Ha). lia.
  Qed.
End Catch.
