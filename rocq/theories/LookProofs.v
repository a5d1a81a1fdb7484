(** * LookProofs: sessions with iterators *)
From Coq Require Import List Arith Lia Bool Permutation.
From Verif Require Import Base MapSpec IterSpec BTreeModel BTreeInv BTreeLemmas BTreeSearch BTreeInsert BTreeIterModel BTreeIter BTreeStep BTreeIterProofs.
From Verif Require Import BTreeRange BTreeOps BTreeEntry BTreeWrites BTreeBulkModel HistoryModel.
From Verif Require Import HeapModel HeapMapModel HeapArr HeapRep HeapWp HeapNode HeapOps HeapOps2 HeapOps3 HeapOps4 HeapZip HeapRemove HeapSearch HeapInsert HeapRes HeapPart HeapMap HeapIter HeapInto.
From Verif Require Import LookModel LookSpec.
Import ListNotations.
Set Implicit Arguments.
Unset Strict Implicit.

Section Look.
  Variables (K V : Type).
  Notation kv := (K * V)%type.
  Notation heap := (heap K V).
  Notation HM := (HM K V).
  Notation hitem := (hitem K V).
  Notation ltree := (ltree K V).
  Notation bmap := (bmap K V).
  Notation src := (src K V).
  Notation res := (res K V).
  Implicit Types (hp : heap).

  (** ** Iterators that only read: [R l it]: [it] has [l] left *)
  Section Pool.
    Variables (I : Type) (next next_back : I -> HM (option hitem * I)) (len : I -> option nat) (counted : bool) (bound : nat).
    Variables (hp : heap) (R : list kv -> I -> Prop).
    Hypothesis Hn : forall l it, R l it -> wp (next it) hp (fun r hp' => hp' = hp /\ option_map fst (fst r) = fst (dq_step Front l) /\ R (snd (dq_step Front l)) (snd r)).
    Hypothesis Hb : forall l it, R l it -> wp (next_back it) hp (fun r hp' => hp' = hp /\ option_map fst (fst r) = fst (dq_step Back l) /\ R (snd (dq_step Back l)) (snd r)).
    Hypothesis Hl : forall l it, R l it -> len it = if counted then Some (length l) else None.
    Hypothesis Hm : forall l it, R l it -> length l <= bound.

    Lemma show_ok n : forall l it, R l it -> length l <= n -> wp (h_show next n it) hp (fun r hp' => hp' = hp /\ r = l).
    Proof using Hn.
      induction n as [|n IH]; intros l it Hr Hle; cbn [h_show]; apply wp_bind; eapply wp_mono; try exact (Hn Hr); intros [a it'] hp' (-> & E & Hr'); cbn [fst snd] in *.
      - destruct l as [|x l]; [|cbn in Hle; lia]. cbn in E. destruct a; [discriminate E|]. apply wp_ret. now split.
      - destruct l as [|x l]; cbn in E, Hr'.
        + destruct a; [discriminate E|]. apply wp_ret. auto.
        + destruct a as [y|]; [|discriminate E]. cbn in E. injection E as E.
          apply wp_bind. eapply wp_mono; [apply (IH _ _ Hr'); cbn in Hle; lia|]. intros r hp' (-> & ->). apply wp_ret. split; [reflexivity|congruence].
    Qed.
    Lemma nth_R pool its i it : Forall2 R pool its -> nth_error its i = Some it -> exists l, nth_error pool i = Some l /\ R l it.
    Proof.
      intros F. revert i. induction F as [|l it0 pool its Hr F IH]; intros [|i] E; cbn in *; try discriminate; eauto. injection E as <-. eauto.
    Qed.
    Lemma nth_none pool its i : Forall2 R pool its -> nth_error its i = None -> nth_error pool i = None.
    Proof. intros F. revert i. induction F as [|l it0 pool its Hr F IH]; intros [|i] E; cbn in *; auto; discriminate. Qed.
    Lemma put_R pool its i l it : Forall2 R pool its -> R l it -> Forall2 R (firstn i pool ++ l :: skipn (S i) pool) (put_nth i it its).
    Proof.
      intros F Hr. unfold put_nth. revert i. induction F as [|l0 it0 pool its Hr0 F IH]; intros [|i]; cbn [firstn skipn app].
      - constructor; auto.
      - constructor; auto.
      - constructor; auto.
      - constructor; auto. apply IH.
    Qed.
    Lemma look_step_ok c pool its : Forall2 R pool its ->
      wp (look_step next next_back len bound c its) hp (fun r hp' => hp' = hp /\ fst r = fst (sees1 counted c pool) /\ Forall2 R (snd (sees1 counted c pool)) (snd r)).
    Proof using Hn Hb Hl Hm.
      intros F. destruct c as [e i|i|i|i]; cbn [look_step sees1]; destruct (nth_error its i) as [it|] eqn:E;
        try (rewrite (nth_none F E); apply wp_ret; auto; fail); destruct (nth_R F E) as (l & El & Hr); rewrite El.
      - apply wp_bind. assert (forall (m : HM (option hitem * I)), wp m hp (fun r hp' => hp' = hp /\ option_map fst (fst r) = fst (dq_step e l) /\ R (snd (dq_step e l)) (snd r)) ->
          wp m hp (fun a hp' => wp (hret (LItem (option_map fst (fst a)), put_nth i (snd a) its)) hp'
            (fun r hp'' => hp'' = hp /\ fst r = LItem (fst (dq_step e l)) /\ Forall2 R (firstn i pool ++ snd (dq_step e l) :: skipn (S i) pool) (snd r)))) as Q.
        { intros m Wm. eapply wp_mono; [exact Wm|]. intros a hp' (-> & E1 & E2). apply wp_ret. cbn [fst snd]. rewrite E1. split; [reflexivity|]. split; [reflexivity|]. now apply put_R. }
        cbn [fst snd]. apply Q. destruct e; [exact (Hn Hr)|exact (Hb Hr)].
      - apply wp_ret. cbn. rewrite (Hl Hr). auto.
      - apply wp_ret. cbn. split; [reflexivity|]. split; [reflexivity|]. apply Forall2_app; auto.
      - apply wp_bind. eapply wp_mono; [exact (show_ok Hr (Hm Hr))|]. intros r hp' (-> & ->). apply wp_ret. cbn. auto.
    Qed.
    Lemma look_run_ok cs : forall pool its, Forall2 R pool its ->
      wp (look_run next next_back len bound cs its) hp (fun r hp' => hp' = hp /\ r = sees counted cs pool).
    Proof using Hn Hb Hl Hm.
      induction cs as [|c cs IH]; intros pool its F; cbn [look_run sees]; [apply wp_ret; auto|].
      apply wp_bind. eapply wp_mono; [exact (look_step_ok c F)|]. intros r hp' (-> & E & F'). apply wp_bind.
      eapply wp_mono; [exact (IH _ _ F')|]. intros l hp' (-> & ->). apply wp_ret. split; [reflexivity|]. congruence.
    Qed.
  End Pool.

  (** the items of a list from both ends, by position *)
  Lemma dq_front (L : list kv) a b x : a < b -> nth_error L a = Some x -> dq_step Front (seg L a b) = (Some x, seg L (S a) b).
  Proof. intros H E. rewrite (seg_front L H E). reflexivity. Qed.
  Lemma dq_back (L : list kv) a b x : a < b -> nth_error L (b - 1) = Some x -> dq_step Back (seg L a b) = (Some x, seg L a (b - 1)).
  Proof.
    intros H E. replace b with (S (b - 1)) at 1 by lia. rewrite (@seg_back _ L a (b - 1) x); [|lia|exact E]. cbn [dq_step]. rewrite rev_app_distr. cbn.
    now rewrite rev_involutive.
  Qed.
  Lemma dq_none (L : list kv) a e : dq_step e (seg L a a) = (None, seg L a a).
  Proof. rewrite seg_nil. destruct e; reflexivity. Qed.

  (** ** Iter *)
  Definition iter_left (s : src) (H : nat) hp (l : list kv) (it : hiter) : Prop :=
    exists i1 a b, irep s H hp i1 it hp /\ iter_ok H (tree_of s) a b i1 /\ l = seg (inorder (tree_of s)) a b.
  Lemma orel_fst s a (b : option hitem) : orel (irel s) a b -> option_map fst b = option_map fst a.
  Proof. destruct a as [x|], b as [y|]; cbn; try tauto. intros [E _]. now rewrite E. Qed.

  Lemma iter_left_next s H hp fuel : own hp (sres s) -> H <= fuel -> forall l it, iter_left s H hp l it ->
    wp (h_iter_next fuel it) hp (fun r hp' => hp' = hp /\ option_map fst (fst r) = fst (dq_step Front l) /\ iter_left s H hp (snd (dq_step Front l)) (snd r)).
  Proof.
    intros O Hf l it (i1 & a & b & Ir & Ok & ->). pose proof (iter_next_ok Ok) as N. pose proof (between_bound (proj1 Ok)) as Bd.
    destruct (Nat.eqb_spec a b) as [Q|Q].
    - subst b. destruct N as (i' & E & Ok'). eapply wp_mono; [exact (iter_next_m O Hf Ir E)|]. intros [x it'] hp' (Or & Ir'). cbn [fst snd] in *.
      pose proof Ir' as (-> & _). rewrite dq_none. split; [reflexivity|]. split; [exact (orel_fst Or)|]. exists i', a, a. auto.
    - destruct N as (x & i' & E & En & _ & Ok'). eapply wp_mono; [exact (iter_next_m O Hf Ir E)|]. intros [y it'] hp' (Or & Ir'). cbn [fst snd] in *.
      pose proof Ir' as (-> & _). rewrite (@dq_front _ a b _ ltac:(lia) En). split; [reflexivity|]. split; [exact (orel_fst Or)|]. exists i', (S a), b. auto.
  Qed.
  Lemma iter_left_back s H hp fuel : own hp (sres s) -> H <= fuel -> forall l it, iter_left s H hp l it ->
    wp (h_iter_next_back fuel it) hp (fun r hp' => hp' = hp /\ option_map fst (fst r) = fst (dq_step Back l) /\ iter_left s H hp (snd (dq_step Back l)) (snd r)).
  Proof.
    intros O Hf l it (i1 & a & b & Ir & Ok & ->). pose proof (iter_next_back_ok Ok) as N. pose proof (between_bound (proj1 Ok)) as Bd.
    destruct (Nat.eqb_spec a b) as [Q|Q].
    - subst b. destruct N as (i' & E & Ok'). eapply wp_mono; [exact (iter_next_back_m O Hf Ir E)|]. intros [x it'] hp' (Or & Ir'). cbn [fst snd] in *.
      pose proof Ir' as (-> & _). rewrite dq_none. split; [reflexivity|]. split; [exact (orel_fst Or)|]. exists i', a, a. auto.
    - destruct N as (x & i' & E & En & _ & Ok'). eapply wp_mono; [exact (iter_next_back_m O Hf Ir E)|]. intros [y it'] hp' (Or & Ir'). cbn [fst snd] in *.
      pose proof Ir' as (-> & _). rewrite (@dq_back _ a b _ ltac:(lia) En). split; [reflexivity|]. split; [exact (orel_fst Or)|]. exists i', a, (b - 1). auto.
  Qed.
  Lemma iter_left_len s H hp l it : iter_left s H hp l it -> xlen it = length l.
  Proof.
    intros (i1 & a & b & (_ & _ & _ & _ & El) & Ok & ->). pose proof (between_bound (proj1 Ok)). rewrite seg_length by lia. rewrite El. apply (proj2 Ok).
  Qed.
  Lemma look_ok m2 (m1 : bmap) s hp cs : mrep m2 m1 s -> own hp (sres s) -> kids any (bheight m1) (bnode m1) -> blen m1 = length (entries m1) -> mlen m2 = length (entries m1) ->
    wp (h_look m2 cs) hp (fun r hp' => hp' = hp /\ r = sees true cs [entries m1]).
  Proof.
    intros Mr O Hk El El2. destruct (iter_m Mr O Hk El) as (it & Ei & Wp). destruct (map_iter_ok m1 Hk El) as (it0 & E0 & Ok). rewrite Ei in E0. injection E0 as <-.
    unfold h_look. apply wp_bind. eapply wp_mono; [exact Wp|]. intros it2 hp' Ir. pose proof Ir as (-> & _).
    pose proof (mrep_height Mr) as Hh. pose proof (tree_of_m Mr) as ET. rewrite ET in Ok.
    eapply look_run_ok with (R := fun l it => iter_left s (bheight m1) hp l it /\ length l <= mlen m2).
    - intros l i (Hl & Hle). eapply wp_mono; [exact (iter_left_next O Hh Hl)|]. intros r hp' (-> & E & Hl'). split; [reflexivity|]. split; [exact E|]. split; [exact Hl'|].
      destruct l; cbn in *; lia.
    - intros l i (Hl & Hle). eapply wp_mono; [exact (iter_left_back O Hh Hl)|]. intros r hp' (-> & E & Hl'). split; [reflexivity|]. split; [exact E|]. split; [exact Hl'|].
      cbn. destruct (rev l) as [|y l'] eqn:Er; cbn; [lia|]. rewrite rev_length. pose proof (rev_length l) as RL. rewrite Er in RL. cbn in RL. lia.
    - intros l i (Hl & _). cbn. now rewrite (iter_left_len Hl).
    - intros l i (_ & Hle). exact Hle.
    - constructor; [|constructor]. split; [|lia]. exists it, 0, (length (entries m1)). split; [exact Ir|]. split; [exact Ok|].
      unfold entries. rewrite ET. now rewrite seg_all.
  Qed.

  (** ** Range *)
  Definition range_left (s : src) (H : nat) hp (l : list kv) (r : hrange) : Prop :=
    exists r1 a b, rrep s H hp r1 r hp /\ between H (tree_of s) a b r1 /\ l = seg (inorder (tree_of s)) a b.
  Lemma range_left_next s H hp fuel : own hp (sres s) -> H <= fuel -> forall l it, range_left s H hp l it ->
    wp (h_range_next fuel it) hp (fun r hp' => hp' = hp /\ option_map fst (fst r) = fst (dq_step Front l) /\ range_left s H hp (snd (dq_step Front l)) (snd r)).
  Proof.
    intros O Hf l it (i1 & a & b & Ir & Ok & ->). pose proof (range_next_ok Ok) as N. pose proof (between_bound Ok) as Bd.
    destruct (Nat.eqb_spec a b) as [Q|Q].
    - subst b. destruct N as (i' & E & Ok'). eapply wp_mono; [exact (range_next_m O Hf Ir E)|]. intros [x it'] hp' (Or & Ir'). cbn [fst snd] in *.
      pose proof Ir' as (-> & _). rewrite dq_none. split; [reflexivity|]. split; [exact (orel_fst Or)|]. exists i', a, a. auto.
    - destruct N as (x & i' & E & En & _ & Ok'). eapply wp_mono; [exact (range_next_m O Hf Ir E)|]. intros [y it'] hp' (Or & Ir'). cbn [fst snd] in *.
      pose proof Ir' as (-> & _). rewrite (@dq_front _ a b _ ltac:(lia) En). split; [reflexivity|]. split; [exact (orel_fst Or)|]. exists i', (S a), b. auto.
  Qed.
  Lemma range_left_back s H hp fuel : own hp (sres s) -> H <= fuel -> forall l it, range_left s H hp l it ->
    wp (h_range_next_back fuel it) hp (fun r hp' => hp' = hp /\ option_map fst (fst r) = fst (dq_step Back l) /\ range_left s H hp (snd (dq_step Back l)) (snd r)).
  Proof.
    intros O Hf l it (i1 & a & b & Ir & Ok & ->). pose proof (range_next_back_ok Ok) as N. pose proof (between_bound Ok) as Bd.
    destruct (Nat.eqb_spec a b) as [Q|Q].
    - subst b. destruct N as (i' & E & Ok'). eapply wp_mono; [exact (range_next_back_m O Hf Ir E)|]. intros [x it'] hp' (Or & Ir'). cbn [fst snd] in *.
      pose proof Ir' as (-> & _). rewrite dq_none. split; [reflexivity|]. split; [exact (orel_fst Or)|]. exists i', a, a. auto.
    - destruct N as (x & i' & E & En & _ & Ok'). eapply wp_mono; [exact (range_next_back_m O Hf Ir E)|]. intros [y it'] hp' (Or & Ir'). cbn [fst snd] in *.
      pose proof Ir' as (-> & _). rewrite (@dq_back _ a b _ ltac:(lia) En). split; [reflexivity|]. split; [exact (orel_fst Or)|]. exists i', a, (b - 1). auto.
  Qed.
  Lemma range_left_le s H hp l it : range_left s H hp l it -> length l <= length (inorder (tree_of s)).
  Proof. intros (i1 & a & b & _ & Ok & ->). pose proof (between_bound Ok). rewrite seg_length; lia. Qed.
  Lemma look_range_ok m2 (m1 : bmap) s hp cs r l : mrep m2 m1 s -> own hp (sres s) -> mlen m2 = length (entries m1) ->
    range_left s (bheight m1) hp l r -> wp (h_look_range m2 r cs) hp (fun x hp' => hp' = hp /\ x = sees false cs [l]).
  Proof.
    intros Mr O El2 Rl. pose proof (mrep_height Mr) as Hh. pose proof (tree_of_m Mr) as ET.
    unfold h_look_range. eapply look_run_ok with (R := range_left s (bheight m1) hp).
    - exact (range_left_next O Hh).
    - exact (range_left_back O Hh).
    - reflexivity.
    - intros l0 it Hl. pose proof (range_left_le Hl) as L. rewrite El2. unfold entries. rewrite ET. exact L.
    - constructor; [exact Rl|constructor].
  Qed.

  (** ** IntoIter: printing reads what is not freed yet *)
  Lemma mid_alive H (T : node K V) a b hd1 hd2 hd : between H T a b (Range hd1 hd2) -> leaf_edge H T hd -> a <= pos hd <= b ->
    forall q, In q (spine (hc hd)) -> ~ In q (lpaths (hc hd1) ++ rpaths (hc hd2)).
  Proof.
    intros (H1 & H2 & E1 & E2 & Hle) Hd Hp q Hq Hin. cbn [rfront rback] in *. apply spine_prefix in Hq. destruct Hq as [s Es].
    apply in_app_or in Hin. destruct Hin as [Hin|Hin].
    - apply lpaths_dless in Hin. apply (dless_app_l s) in Hin. rewrite <- Es in Hin. pose proof (dless_pos Hd H1 Hin). lia.
    - apply rpaths_dless in Hin. apply (dless_app_r s) in Hin. rewrite <- Es in Hin. pose proof (dless_pos H2 Hd Hin). lia.
  Qed.
  (** a range within the part of the tree that is left *)
  Definition rest_left (s : src) (H a0 b0 : nat) (l : list kv) (r : hrange) : Prop :=
    exists r1 a b, between H (tree_of s) a b r1 /\ a0 <= a /\ b <= b0 /\ at_edge s (rfront r1) (xfront r) /\ at_edge s (rback r1) (xback r) /\
      l = seg (inorder (tree_of s)) a b.
  Lemma rest_next s H hp fuel F f0 k0 a0 b0 : own hp (pres s F) -> (forall q, In q F -> In q (lpaths (hc f0) ++ rpaths (hc k0))) ->
    between H (tree_of s) a0 b0 (Range f0 k0) -> H <= fuel -> forall l it, rest_left s H a0 b0 l it ->
    wp (h_range_next fuel it) hp (fun r hp' => hp' = hp /\ option_map fst (fst r) = fst (dq_step Front l) /\ rest_left s H a0 b0 (snd (dq_step Front l)) (snd r)).
  Proof.
    intros O HF B0 Hf l it (i1 & a & b & Ok & La & Lb & Af & Ab & ->). pose proof (range_next_ok Ok) as N. pose proof (between_bound Ok) as Bd.
    assert (hhandle_eqb (xfront it) (xback it) = handle_eqb (rfront i1) (rback i1)) as Eh.
    { destruct s as [T|].
      - destruct Af as (t1 & c1 & h1 & j1 & E1 & Ef & Er), Ab as (t2 & c2 & h2 & j2 & E2 & Eb & Er2). rewrite Ef, Er, Eb, Er2.
        assert (NoDup (locs T)) as ND by (apply (own_part_ok O)). pose proof (same_loc ND E1 E2) as SL.
        unfold hhandle_eqb, handle_eqb, hpath. cbn [fst snd rl hc hi]. f_equal.
        destruct (path_eqb_spec (cpath (ectx c1)) (cpath (ectx c2))) as [P|P]; [apply Nat.eqb_eq|apply Nat.eqb_neq]; tauto.
      - destruct Af as (-> & ->), Ab as (-> & ->). reflexivity. }
    unfold h_range_next. rewrite Eh. unfold range_next in N.
    destruct (Nat.eqb_spec a b) as [Q|Q].
    - subst b. destruct N as (i' & E & Ok'). destruct (handle_eqb (rfront i1) (rback i1)).
      + apply wp_ret. rewrite dq_none. cbn. split; [reflexivity|]. split; [reflexivity|]. exists i1, a, a. auto 10.
      + destruct (next_unchecked (rfront i1)); discriminate E.
    - destruct N as (x & i' & E & En & _ & Ok'). destruct (handle_eqb (rfront i1) (rback i1)); [discriminate E|].
      destruct (next_unchecked (rfront i1)) as [st_|] eqn:Es; [|discriminate E]. injection E as <- <-.
      rewrite (@dq_front _ a b _ ltac:(lia) En). destruct s as [T|].
      2:{ destruct Af as (Ef & _). rewrite Ef in Es. discriminate Es. }
      assert (dead_none F (hc (rfront i1))) as D1.
      { intros q Hq HqF. destruct Ok as (L1 & L2 & P1 & P2 & P3). apply (mid_alive B0 L1 (ltac:(lia)) Hq). now apply HF. }
      assert (dead_none F (hc (s_edge st_))) as D2.
      { intros q Hq HqF. destruct Ok' as (L1 & L2 & P1 & P2 & P3). cbn [rfront rback] in *. apply (mid_alive B0 L1 (ltac:(lia)) Hq). now apply HF. }
      apply wp_bind. eapply wp_mono; [eapply (@part_next _ _ T F hp (rfront i1) (xfront it) st_ H fuel); [exact (own_part_ok O)|exact Af|exact (proj1 Ok)|exact Hf|exact Es|exact D1|exact D2]|].
      intros y hp' (-> & E1 & E2 & E3). apply wp_ret. cbn [fst snd option_map]. split; [reflexivity|]. split; [f_equal; exact E1|].
      eexists _, (S a), b. split; [exact Ok'|]. cbn [rfront rback xfront xback]. split; [lia|]. split; [lia|]. split; [exact E3|]. split; [exact Ab|reflexivity].
  Qed.

  Definition into_left (s : src) (H : nat) (rs0 : list res) (hp0 : heap) (l : list kv) (it : hinto) hp : Prop :=
    exists i1 a b, nrep s H rs0 hp0 i1 it hp /\ into_ok H (tree_of s) (shared_of s) a b i1 /\ l = seg (inorder (tree_of s)) a b.
  Lemma into_show_ok s H rs0 hp0 hp fuel l it : H <= fuel -> into_left s H rs0 hp0 l it hp -> wp (h_into_show fuel it) hp (fun r hp' => hp' = hp /\ r = l).
  Proof.
    intros Hf (i1 & a & b & (G & _ & Af & Ab & El) & Ok & ->). pose proof Ok as (B0 & En & _ & _ & Pm). pose proof (between_bound B0) as Bd.
    unfold h_into_show. eapply show_ok with (R := rest_left s H a b).
    - eapply rest_next; [exact (go_own G)| |exact B0|exact Hf]. intros q Hq. exact (Permutation_in _ Pm Hq).
    - exists (Range (nfront i1) (nback i1)), a, b. cbn [rfront rback xfront xback]. auto 10.
    - rewrite seg_length by lia. lia.
  Qed.
  Lemma into_look_ok s H rs0 hp0 fuel cs : H <= fuel -> forall l it hp, into_left s H rs0 hp0 l it hp ->
    wp (into_look_run fuel cs it) hp (fun r hp' => fst r = fst (eats cs l) /\ into_left s H rs0 hp0 (snd (eats cs l)) (snd r) hp').
  Proof.
    intros Hf. induction cs as [|c cs IH]; intros l it hp Il; cbn [into_look_run]; [apply wp_ret; auto|]. apply wp_bind.
    assert (forall x l' (m : HM (lobs K V * hinto)), wp m hp (fun r hp' => fst r = x /\ into_left s H rs0 hp0 l' (snd r) hp') ->
      fst (eats (c :: cs) l) = x :: fst (eats cs l') -> snd (eats (c :: cs) l) = snd (eats cs l') ->
      wp m hp (fun a hp' => wp (hbind (into_look_run fuel cs (snd a)) (fun y => hret (fst a :: fst y, snd y))) hp'
        (fun r hp'' => fst r = fst (eats (c :: cs) l) /\ into_left s H rs0 hp0 (snd (eats (c :: cs) l)) (snd r) hp''))) as Q.
    { intros x l' m Wm E1 E2. eapply wp_mono; [exact Wm|]. intros a hp' (Ea & Il'). apply wp_bind. eapply wp_mono; [exact (IH _ _ _ Il')|].
      intros y hp'' (Ey & Il''). apply wp_ret. cbn [fst snd]. rewrite E1, E2. split; [congruence|exact Il'']. }
    destruct c as [e| |]; cbn [into_look_step].
    - apply Q with (x := LItem (fst (dq_step e l))) (l' := snd (dq_step e l)); [|reflexivity|reflexivity].
      destruct Il as (i1 & a & b & Nr & Ok & ->). pose proof (between_bound (proj1 Ok)) as Bd. apply wp_bind. destruct e.
      + pose proof (into_next_ok Ok) as N. destruct (Nat.eqb_spec a b) as [Eq|Nq].
        * subst b. destruct N as (i' & E & Ok'). eapply wp_mono; [exact (into_next_m Hf Nr E)|]. intros [x it'] hp' (Or & Nr'). cbn [fst snd] in *. apply wp_ret. cbn [fst snd].
          rewrite dq_none. cbn [fst snd]. split; [destruct x; [contradiction|reflexivity]|]. exists i', a, a. auto.
        * destruct N as (x & i' & E & En & _ & Ok'). eapply wp_mono; [exact (into_next_m Hf Nr E)|]. intros [y it'] hp' (Or & Nr'). cbn [fst snd] in *. apply wp_ret. cbn [fst snd].
          rewrite (@dq_front _ a b _ ltac:(lia) En). cbn [fst snd]. split; [destruct y; [cbn in Or; congruence|contradiction]|]. exists i', (S a), b. auto.
      + pose proof (into_next_back_ok Ok) as N. destruct (Nat.eqb_spec a b) as [Eq|Nq].
        * subst b. destruct N as (i' & E & Ok'). eapply wp_mono; [exact (into_next_back_m Hf Nr E)|]. intros [x it'] hp' (Or & Nr'). cbn [fst snd] in *. apply wp_ret. cbn [fst snd].
          rewrite dq_none. cbn [fst snd]. split; [destruct x; [contradiction|reflexivity]|]. exists i', a, a. auto.
        * destruct N as (x & i' & E & En & _ & Ok'). eapply wp_mono; [exact (into_next_back_m Hf Nr E)|]. intros [y it'] hp' (Or & Nr'). cbn [fst snd] in *. apply wp_ret. cbn [fst snd].
          rewrite (@dq_back _ a b _ ltac:(lia) En). cbn [fst snd]. split; [destruct y; [cbn in Or; congruence|contradiction]|]. exists i', a, (b - 1). auto.
    - apply Q with (x := LCount (Some (length l))) (l' := l); [|reflexivity|reflexivity]. apply wp_ret. cbn [fst snd]. split; [|exact Il].
      destruct Il as (i1 & a & b & (_ & _ & _ & _ & El) & Ok & ->). pose proof (between_bound (proj1 Ok)). rewrite seg_length by lia. destruct Ok as (_ & En & _). congruence.
    - apply Q with (x := LShown l) (l' := l); [|reflexivity|reflexivity]. apply wp_bind. eapply wp_mono; [exact (into_show_ok Hf Il)|].
      intros r hp' (-> & ->). apply wp_ret. auto.
  Qed.
  Lemma consume_ok m2 (m1 : bmap) s hp cs : mrep m2 m1 s -> own hp (sres s) -> kids any (bheight m1) (bnode m1) -> blen m1 = length (entries m1) ->
    (bshared m1 = true -> bheight m1 = 0) ->
    wp (hbind (h_into_iter m2) (fun it => hbind (into_look_run (rh (mroot m2)) cs it) (fun a => hbind (h_drop_into_iter (rh (mroot m2)) (snd a)) (fun d => hret (fst a, d))))) hp
      (fun r hp' => r = eats cs (entries m1) /\ goes hp (sres s) hp' []).
  Proof.
    intros Mr O Hk El Hs. destruct (into_iter_m Mr O Hk El) as (it & Ei & Wp). destruct (map_into_iter_ok m1 Hk El Hs) as (it0 & E0 & Ok).
    rewrite Ei in E0. injection E0 as <-. pose proof (mrep_height Mr) as Hh. pose proof (tree_of_m Mr) as ET.
    apply wp_bind. eapply wp_mono; [exact Wp|]. intros i2 hp' (-> & N).
    assert (into_left s (bheight m1) (sres s) hp (entries m1) i2 hp) as Il.
    { pose proof N as (_ & (p & q & Ok2) & _). exists it, 0, (length (entries m1)). split; [exact N|]. unfold entries in *. rewrite ET in *. split; [|now rewrite seg_all].
      destruct Ok as (O1 & O2 & _ & _ & O5), Ok2 as (_ & _ & O3 & O4 & _). split; [exact O1|]. auto. }
    apply wp_bind. eapply wp_mono; [exact (into_look_ok cs Hh Il)|]. intros [outs it'] hp1 (E1 & (i1' & a & b & N' & Ok' & E2)). cbn [fst snd] in *.
    rewrite ET in Hk. destruct (drop_into_iter_ok Hk Ok') as (fr & Ed & _).
    apply wp_bind. eapply wp_mono; [eapply (@drop_into_m _ _ s (bheight m1)); [exact Hh|exact Hk|exact N'|exact Ed]|].
    intros d hp2 (-> & G). apply wp_ret. split; [|exact G]. rewrite <- E2, E1. now destruct (eats cs (entries m1)).
  Qed.
End Look.
