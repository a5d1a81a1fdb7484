(** * DropProofs: maps whose destructors panic. *)
From Coq Require Import List Arith Lia Bool Permutation.
From Verif Require Import Base MapSpec MergeSpec IterSpec BTreeModel BTreeInv BTreeLemmas BTreeSearch BTreeInsert BTreeIterModel BTreeIter BTreeStep BTreeIterProofs.
From Verif Require Import BTreeRange BTreeOps BTreeEntry BTreeWrites BTreeBulkModel BTreeBorder BTreeSplit BTreeAppend BTreeClone HistoryModel HistorySpec HistoryProofs.
From Verif Require Import HeapModel HeapMapModel HeapArr HeapRep HeapWp HeapNode HeapInsert HeapRes HeapPart HeapMap HeapIter HeapInto HeapBorder HeapSplit HeapAppend.
From Verif Require Import HeapSpec DropModel DropSpec.
Import ListNotations.
Set Implicit Arguments.
Unset Strict Implicit.

Section Drops.
  Variables (K V W : Type).
  Notation kv := (K * V)%type.
  Notation heap := (heap K V).
  Notation HM := (HM K V).
  Notation ltree := (ltree K V).
  Notation lroot := (@lroot K V).
  Notation erase := (@erase K V).
  Notation bmap := (bmap K V).
  Notation src := (src K V).
  Notation res := (res K V).
  Implicit Types (hp : heap).
  Variables (kdrop : K -> W -> bool * W) (vdrop : V -> W -> bool * W).
  Notation panics := (panics kdrop vdrop).
  Notation kv_drop := (kv_drop kdrop vdrop).
  Notation blasts := (blasts kdrop vdrop).

  Lemma blasts_0 l : blasts l 0.
  Proof. induction l; constructor; auto. Qed.
  Lemma blasts_app a n b m : blasts a n -> blasts b m -> blasts (a ++ b) (n + m).
  Proof. intros Ha Hb. induction Ha as [|x l n Ha IH|x l n P Ha IH|x l n P P' Ha IH]; cbn [app plus]; [exact Hb|now constructor|now constructor|now constructor]. Qed.
  Lemma blasts_r a b m : blasts b m -> blasts (a ++ b) m.
  Proof. intros Hb. exact (blasts_app (blasts_0 a) Hb). Qed.
  Lemma blasts_l a n b : blasts a n -> blasts (a ++ b) n.
  Proof. intros Ha. rewrite <- (Nat.add_0_r n). exact (blasts_app Ha (blasts_0 b)). Qed.
  Lemma blasts_1 x : panics x -> blasts [x] 1.
  Proof. intros P. refine (@B_one _ _ _ _ _ _ _ 0 _ _); [exact P|constructor]. Qed.
  Lemma blasts_in x l : In x l -> panics x -> blasts l 1.
  Proof. intros I P. apply in_split in I as (a & b & ->). apply blasts_r. change (x :: b) with ([x] ++ b). now apply blasts_l, blasts_1. Qed.

  Lemma kv_drop_ok x (w : W) : match kv_drop x w with (Ret _, _) => True | (Panic, _) => panics x | (Abort, _) => panics x /\ blasts [x] 2 | _ => False end.
  Proof.
    unfold DropModel.kv_drop. destruct (kdrop (fst x) w) as [a w1] eqn:Ek. destruct (vdrop (snd x) w1) as [b w2] eqn:Ev.
    destruct a, b; auto.
    - exists w1. right. now rewrite Ev.
    - exists w. left. now rewrite Ek.
    - split; [exists w; left; now rewrite Ek|]. refine (@B_two _ _ _ _ _ _ _ 0 _ _ _); [exists w; now rewrite Ek|exists w1; now rewrite Ev|constructor].
  Qed.

  (** ** The rest of an IntoIter *)
  Lemma hd_drain_ret fuel n : forall it hp (w : W) l it' hp' w', hd_drain kdrop vdrop fuel n it hp w = (Ret tt, l, it', hp', w') ->
    h_drain fuel n it hp = Some ((l, it'), hp').
  Proof.
    induction n as [|n IH]; intros it hp w l it' hp' w' E; cbn [hd_drain h_drain] in *; unfold hbind in *;
      (destruct (h_into_next fuel it hp) as [[[[x|] i1] hp1]|]; try discriminate E; cbn [fst snd] in *).
    - now injection E as <- <- <- _.
    - destruct (DropModel.kv_drop kdrop vdrop x w) as [[u|e| | |] w1]; try discriminate E.
      destruct (hd_drain kdrop vdrop fuel n i1 hp1 w1) as [[[[o l2] it2] hp2] w2] eqn:Ed. injection E as -> <- <- <- <-.
      now rewrite (IH _ _ _ _ _ _ _ Ed).
    - now injection E as <- <- <- _.
  Qed.
  (** what is known of a destructor that stopped: the last entry it destroyed panicked *)
  Definition stopped (l all : list kv) : Prop := exists l0 x kept, l = l0 ++ [x] /\ all = l0 ++ x :: kept /\ panics x.
  Lemma stopped_cons y l all : stopped l all -> stopped (y :: l) (y :: all).
  Proof. intros (l0 & x & kept & -> & -> & P). exists (y :: l0), x, kept. auto. Qed.
  Lemma stopped_in l all : stopped l all -> exists x, In x l /\ In x all /\ panics x.
  Proof. intros (l0 & x & kept & -> & -> & P). exists x. repeat split; auto; apply in_or_app; right; now left. Qed.

  Lemma hd_drain_m s H fuel rs0 hp0 n : H <= fuel -> forall i1 i2 a b hp (w : W), nrep s H rs0 hp0 i1 i2 hp -> into_ok H (tree_of s) (shared_of s) a b i1 -> b - a <= n ->
    exists o l i2' hp' w', hd_drain kdrop vdrop fuel n i2 hp w = (o, l, i2', hp', w') /\
      (exists i1', nrep s H rs0 hp0 i1' i2' hp') /\
      match o with
      | Ret _ => l = seg (inorder (tree_of s)) a b
      | Panic => stopped l (seg (inorder (tree_of s)) a b)
      | Abort => stopped l (seg (inorder (tree_of s)) a b) /\ blasts l 2
      | _ => False
      end.
  Proof.
    intros Hf. induction n as [|n IH]; intros i1 i2 a b hp w R Ok Hn; cbn [hd_drain];
      pose proof (into_next_ok Ok) as Hs; assert (Hbd : a <= b <= length (inorder (tree_of s))) by (destruct Ok as [Hb _]; exact (between_bound Hb));
      (destruct (Nat.eqb_spec a b) as [Eab|Nab]; [destruct Hs as (i1' & E & Ok')|destruct Hs as (x & i1' & E & Hx & _ & Ok')]); try lia;
      pose proof (into_next_m Hf R E) as Wp; unfold wp in Wp; destruct (h_into_next fuel i2 hp) as [[[y i2'] hp1]|]; try contradiction; destruct Wp as (Oy & R1); cbn [fst snd] in *;
      destruct y as [y|]; cbn [orel] in Oy; try contradiction.
    - exists (Ret tt), [], i2', hp1, w. split; [reflexivity|]. split; [eauto|]. subst b. now rewrite seg_nil.
    - exists (Ret tt), [], i2', hp1, w. split; [reflexivity|]. split; [eauto|]. subst b. now rewrite seg_nil.
    - subst y. rewrite (@seg_front _ (inorder (tree_of s)) a b x) by (auto; lia). pose proof (kv_drop_ok x w) as Hk.
      destruct (kv_drop x w) as [[u|e| | |] w1]; try contradiction.
      + destruct (IH i1' i2' (Datatypes.S a) b hp1 w1 R1 Ok' ltac:(lia)) as (o & l & i2'' & hp' & w' & E2 & R2 & Ho). rewrite E2.
        exists o, (x :: l), i2'', hp', w'. split; [reflexivity|]. split; [exact R2|]. destruct o; try contradiction; [now rewrite Ho|now apply stopped_cons|destruct Ho; split; [now apply stopped_cons|now constructor]].
      + exists Panic, [x], i2', hp1, w1. split; [reflexivity|]. split; [eauto|]. exists [], x. eexists. split; [reflexivity|]. split; [reflexivity|exact Hk].
      + destruct Hk as [Hk Hb]. exists Abort, [x], i2', hp1, w1. split; [reflexivity|]. split; [eauto|]. split; [|exact Hb]. exists [], x. eexists. split; [reflexivity|]. split; [reflexivity|exact Hk].
  Qed.
  Lemma hd_drop_into_m s H fuel i1 i2 rs0 hp0 hp a b (w : W) : H <= fuel -> kids any H (tree_of s) -> nrep s H rs0 hp0 i1 i2 hp ->
    into_ok H (tree_of s) (shared_of s) a b i1 ->
    exists o l hp' w' lost, hd_drop_into_iter kdrop vdrop fuel i2 hp w = (o, l, hp', w') /\ goes hp0 rs0 hp' lost /\
      match o with
      | Ret _ => l = seg (inorder (tree_of s)) a b /\ lost = []
      | Panic => stopped l (seg (inorder (tree_of s)) a b)
      | Abort => stopped l (seg (inorder (tree_of s)) a b) /\ blasts l 2
      | _ => False
      end.
  Proof.
    intros Hf Hk R Ok. destruct (drop_into_iter_ok Hk Ok) as (fr & Ed & _). pose proof (drop_into_m Hf Hk R Ed) as Wp.
    assert (hleft i2 = b - a) as El. { destruct R as (_ & _ & _ & _ & ->). destruct Ok; tauto. }
    destruct (@hd_drain_m s H fuel rs0 hp0 (hleft i2) Hf i1 i2 a b hp w R Ok ltac:(lia)) as (o & l & i2' & hp1 & w1 & E & (i1' & R1) & Ho).
    unfold hd_drop_into_iter. rewrite E. destruct o as [u|e| | |]; try contradiction.
    - destruct u. apply hd_drain_ret in E. unfold wp, h_drop_into_iter, hbind in Wp. rewrite E in Wp. cbn [fst snd] in Wp.
      destruct (rl (fst (hfront i2')) =? sroot).
      + cbn in Wp. destruct Wp as (_ & G). exists (Ret tt), l, hp1, w1, []. auto.
      + unfold lift. cbv beta iota delta [hret] in Wp. destruct (h_free_spine (Datatypes.S fuel) (fst (hfront i2')) false hp1) as [[u hp2]|]; [|contradiction].
        destruct Wp as (_ & G). exists (Ret u), l, hp2, w1, []. auto.
    - exists Panic, l, hp1, w1. destruct R1 as (G & _). eexists. split; [reflexivity|]. split; [exact G|exact Ho].
    - exists Abort, l, hp1, w1. destruct R1 as (G & _). eexists. split; [reflexivity|]. split; [exact G|exact Ho].
  Qed.
  Lemma hd_drop_m m2 (m1 : bmap) s hp (w : W) : mrep m2 m1 s -> own hp (sres s) -> kids any (bheight m1) (bnode m1) -> blen m1 = length (entries m1) ->
    exists o l hp' w' lost, hd_drop kdrop vdrop m2 hp w = (o, l, hp', w') /\ goes hp (sres s) hp' lost /\
      match o with
      | Ret _ => l = entries m1 /\ lost = []
      | Panic => stopped l (entries m1)
      | Abort => stopped l (entries m1) /\ blasts l 2
      | _ => False
      end.
  Proof.
    intros R O Hk HL. destruct (into_iter_m R O Hk HL) as (it & E & Wp).
    destruct (@map_into_iter_ok K V m1 Hk HL) as (it' & E' & Ok).
    { destruct R as (_ & R); destruct s; [destruct R as (_ & -> & _); discriminate|tauto]. }
    rewrite E in E'. injection E' as <-. unfold hd_drop. unfold wp in Wp. destruct (h_into_iter m2 hp) as [[it2 hp1]|]; [|contradiction]. destruct Wp as (-> & R1).
    assert (bshared m1 = shared_of s) as Sh by (destruct R as (_ & R0); destruct s; tauto).
    assert (entries m1 = seg (inorder (tree_of s)) 0 (length (entries m1))) as Ee by (rewrite <- (tree_of_m R); unfold entries; now rewrite seg_all).
    set (all := entries m1) in *. rewrite Ee. subst all. eapply hd_drop_into_m; [exact (mrep_height R)| |exact R1|].
    - rewrite <- (tree_of_m R). exact Hk.
    - rewrite <- (tree_of_m R), <- Sh. exact Ok.
  Qed.
End Drops.
