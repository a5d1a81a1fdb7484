(** * FrameSetProofs: comparing sets and iterating over two of them writes
    nothing - on any heap, in order or not. *)
From Coq Require Import List Arith Lia Bool.
From Verif Require Import Base IterSpec BTreeModel BTreeIterModel BTreeSetModel HeapModel HistoryModel HeapMapModel HostileModel HostileSetModel LookModel LazyModel FrameProofs.
Import ListNotations.
Set Implicit Arguments.

Section Quiet.
  Variables (T W : Type) (kcmp : T -> T -> asks W comparison).
  Notation heap := (heap T unit).
  Notation AM := (AM T unit W).
  Notation eqh := (@eqh T unit).
  Notation aquiet := (akeeps_ eqh).
  Let Er := @eqh_r T unit.
  Let Et := @eqh_t T unit.

  Lemma aq_ret A (a : A) : aquiet (@aret T unit W A a). Proof. apply a_ret. exact Er. Qed.
  Lemma aq_ub A : aquiet (@aub T unit W A). Proof. apply a_ub. exact Er. Qed.
  Lemma aq_ask A (q : asks W A) : aquiet (ask (K:=T) (V:=unit) q). Proof. apply a_ask. exact Er. Qed.
  Lemma aq_bind A B (m : AM A) (f : A -> AM B) : aquiet m -> (forall a, aquiet (f a)) -> aquiet (abind m f).
  Proof. apply a_bind. exact Et. Qed.
  Lemma aq_lift A (m : HM T unit A) : keeps_ eqh m -> aquiet (@lift T unit W A m).
  Proof. apply a_lift. exact Er. Qed.
  Lemma aq_catch A (m : AM A) : aquiet m -> aquiet (acatch m).
  Proof. intros H hp w. specialize (H hp w). unfold acatch. destruct (m hp w) as [[o hp'] w']. destruct o; exact H. Qed.
  Ltac aq1 := first
    [ solve [auto] | apply aq_ret | apply aq_ub | apply aq_ask | apply aq_catch
    | apply aq_bind; [|intros ?]
    | match goal with
      | |- akeeps_ _ (match ?x with _ => _ end) => destruct x
      | |- akeeps_ _ (let '(_, _) := ?x in _) => destruct x
      end ].
  Ltac aq := repeat aq1; eauto.
  Lemma aq_hs_iter m : aquiet (@hs_iter T W m).
  Proof. unfold hs_iter. aq. apply aq_lift, q_iter. Qed.
  Lemma aq_hs_next a : aquiet (@hs_next T W a).
  Proof. unfold hs_next. aq. apply aq_lift, q_iter_next. Qed.
  Lemma aq_contains x m : aquiet (@hs_contains T W kcmp x m).
  Proof. pose proof (@aq_get T unit W). unfold hs_contains. aq. Qed.
  Hint Resolve aq_hs_iter aq_hs_next aq_contains : core.
  Lemma aq_peek p : aquiet (@hsp_peek T W p). Proof. unfold hsp_peek. aq. Qed.
  Lemma aq_pnext p : aquiet (@hsp_next T W p). Proof. unfold hsp_next. aq. Qed.
  Lemma aq_cmp_opt x y a b : aquiet (@hs_cmp_opt T W kcmp x y a b). Proof. unfold hs_cmp_opt. aq. Qed.
  Lemma aq_lazy k s o : aquiet (@hs_lazy T W k s o).
  Proof. unfold hs_lazy. aq. Qed.
  Hint Resolve aq_peek aq_pnext aq_cmp_opt aq_lazy : core.
  Lemma aq_d_stitch fuel : forall x a b, aquiet (@hd_stitch T W kcmp fuel x a b).
  Proof. induction fuel as [|fuel IH]; intros; cbn [hd_stitch]; aq. Qed.
  Lemma aq_d_search fuel : forall a b, aquiet (@hd_search T W kcmp fuel a b).
  Proof. induction fuel as [|fuel IH]; intros; cbn [hd_search]; aq. Qed.
  Lemma aq_sym fuel : forall a b, aquiet (@hsym_loop T W kcmp fuel a b).
  Proof. induction fuel as [|fuel IH]; intros; cbn [hsym_loop]; aq. Qed.
  Lemma aq_union a b : aquiet (@hunion_next T W kcmp a b).
  Proof. unfold hunion_next. aq. Qed.
  Lemma aq_i_stitch fuel : forall x y a b, aquiet (@hi_stitch T W kcmp fuel x y a b).
  Proof. induction fuel as [|fuel IH]; intros; cbn [hi_stitch]; aq. Qed.
  Lemma aq_i_search fuel : forall a b, aquiet (@hi_search T W kcmp fuel a b).
  Proof. induction fuel as [|fuel IH]; intros; cbn [hi_search]; aq. Qed.
  Hint Resolve aq_d_stitch aq_d_search aq_sym aq_union aq_i_stitch aq_i_search : core.
  Lemma aq_lazy_next d : aquiet (@hlazy_next T W kcmp d).
  Proof. unfold hlazy_next. aq. Qed.
  Hint Resolve aq_lazy_next : core.
  Lemma aq_calls n : forall d, aquiet (@hlazy_calls T W kcmp n d).
  Proof. induction n as [|n IH]; intros; cbn [hlazy_calls]; aq. Qed.
  Hint Resolve aq_calls : core.
  Lemma aq_disjoint s o : aquiet (@hs_is_disjoint T W kcmp s o).
  Proof. unfold hs_is_disjoint. aq. Qed.
  Lemma aq_sub_stitch fuel : forall a b x y, aquiet (@hsub_stitch T W kcmp fuel a b x y).
  Proof. induction fuel as [|fuel IH]; intros; cbn [hsub_stitch]; aq. Qed.
  Lemma aq_sub_search fuel : forall x o, aquiet (@hsub_search T W kcmp fuel x o).
  Proof. induction fuel as [|fuel IH]; intros; cbn [hsub_search]; aq. Qed.
  Hint Resolve aq_sub_stitch aq_sub_search : core.
  Lemma aq_subset s o : aquiet (@hs_is_subset T W kcmp s o).
  Proof. unfold hs_is_subset. aq. Qed.

  (** ** Sessions *)
  Lemma aq_show fuel : forall a, aquiet (@hs_show T W fuel a).
  Proof. induction fuel as [|fuel IH]; intros; cbn [hs_show]; aq. Qed.
  Hint Resolve aq_show : core.
  Lemma aq_zshow d : aquiet (@zshow T W d).
  Proof. unfold zshow, zshow_iter, zshow_peek. aq. Qed.
  Lemma aq_d_stitch_c fuel : forall x a b, aquiet (@hd_stitch_c T W kcmp fuel x a b).
  Proof. induction fuel as [|fuel IH]; intros; cbn [hd_stitch_c]; aq. Qed.
  Lemma aq_d_search_c fuel : forall a b, aquiet (@hd_search_c T W kcmp fuel a b).
  Proof. induction fuel as [|fuel IH]; intros; cbn [hd_search_c]; aq. Qed.
  Lemma aq_sym_c fuel : forall a b, aquiet (@hsym_loop_c T W kcmp fuel a b).
  Proof. induction fuel as [|fuel IH]; intros; cbn [hsym_loop_c]; aq. Qed.
  Lemma aq_union_c a b : aquiet (@hunion_next_c T W kcmp a b).
  Proof. unfold hunion_next_c. aq. Qed.
  Lemma aq_i_stitch_c fuel : forall x y a b, aquiet (@hi_stitch_c T W kcmp fuel x y a b).
  Proof. induction fuel as [|fuel IH]; intros; cbn [hi_stitch_c]; aq. Qed.
  Lemma aq_i_search_c fuel : forall a b, aquiet (@hi_search_c T W kcmp fuel a b).
  Proof. induction fuel as [|fuel IH]; intros; cbn [hi_search_c]; aq. Qed.
  Hint Resolve aq_d_stitch_c aq_d_search_c aq_sym_c aq_union_c aq_i_stitch_c aq_i_search_c : core.
  Lemma aq_next_c d : aquiet (@hlazy_next_c T W kcmp d).
  Proof. unfold hlazy_next_c. aq. Qed.
  Hint Resolve aq_next_c aq_zshow : core.
  Lemma aq_zstep1 c pool : aquiet (@zstep1 T W kcmp c pool).
  Proof. unfold zstep1. aq. Qed.
  Hint Resolve aq_zstep1 : core.
  Lemma aq_zrun1 cs : forall pool, aquiet (@zrun1 T W kcmp cs pool).
  Proof. induction cs as [|c cs IH]; intros; cbn [zrun1]; aq. Qed.
  Hint Resolve aq_zrun1 : core.
  Lemma aq_look k s t cs : aquiet (abind (@hs_lazy T W k s t) (fun d => abind (zrun1 kcmp cs [d]) (fun l => aret (ZSession l)))).
  Proof. aq. Qed.
  (** what the readers of HostileSetModel run *)
  Lemma aq_xlazy k s t n m : aquiet (abind (@hs_lazy T W k s t) (fun d => abind (hlazy_calls kcmp n d) (fun a => abind (hlazy_calls kcmp m (snd a)) (fun b =>
    aret (XItems (fst a) (fst (hlazy_hint (snd a))) (snd (hlazy_hint (snd a))) (fst b)))))).
  Proof. aq. Qed.
  Hint Resolve aq_disjoint aq_subset : core.
  Lemma aq_xsub s t : aquiet (abind (@hs_is_subset T W kcmp s t) (fun b => aret (XBool (T := T) b))).
  Proof. aq. Qed.
  Lemma aq_xdis s t : aquiet (abind (@hs_is_disjoint T W kcmp s t) (fun b => aret (XBool (T := T) b))).
  Proof. aq. Qed.
End Quiet.
