(** * BTreeSets: the set iterators and relations against ascending lists *)
From Coq Require Import List Arith Lia Bool Sorted.
From Verif Require Import Base MapSpec SetSpec IterSpec BTreeModel BTreeInv BTreeLemmas BTreeSearch BTreeIterModel BTreeIterProofs BTreeOps BTreeBulkModel BTreeSetModel.
Import ListNotations.
Set Implicit Arguments.

Section ListAlg.
  Variables (T : Type) (cmp : T -> T -> comparison).
  Hypothesis laws : ord_laws cmp.
  Implicit Types (x y : T) (A B : list T).

  Definition memb x B : bool := existsb (fun y => match cmp x y with Eq => true | _ => false end) B.
  Lemma memb_ok x B : memb x B = true <-> member cmp x B.
  Proof.
    unfold memb, member. rewrite existsb_exists. split; intros (y & H1 & H2); exists y; split; auto.
    - destruct (cmp x y); auto; discriminate.
    - now rewrite H2.
  Qed.
  Lemma memb_gt x y B : cmp x y = Gt -> memb x (y :: B) = memb x B.
  Proof. unfold memb. simpl. now intros ->. Qed.
  Lemma cmp_gt_lt x y : cmp x y = Gt <-> cmp y x = Lt.
  Proof. rewrite (cmp_antisym laws x y). destruct (cmp x y); simpl; split; congruence. Qed.
  Lemma cmp_eq_sym_ x y : cmp x y = Eq <-> cmp y x = Eq.
  Proof. rewrite (cmp_antisym laws x y). destruct (cmp x y); simpl; split; congruence. Qed.
  Lemma cmp_eq_r x y z : cmp x y = Eq -> cmp z x = cmp z y.
  Proof. intros H. rewrite (cmp_antisym laws x z), (cmp_antisym laws y z). f_equal. now apply (cmp_eq_l laws). Qed.

  Lemma asc_cons x A : ascending cmp (x :: A) -> ascending cmp A /\ Forall (fun y => cmp x y = Lt) A.
  Proof. intros H. inversion H; auto. Qed.
  Lemma memb_none x B : Forall (fun y => cmp x y = Lt) B -> memb x B = false.
  Proof. induction 1 as [|y B Hy HB IH]; simpl; auto. unfold memb in *. simpl. now rewrite Hy. Qed.
  Lemma memb_lt x y B : cmp x y = Lt -> ascending cmp (y :: B) -> memb x (y :: B) = false.
  Proof.
    intros H HA. apply asc_cons in HA. destruct HA as [_ HF]. apply memb_none. constructor; auto.
    eapply Forall_impl; [|exact HF]. intros z. simpl. intros Hz. exact (cmp_lt_trans laws _ _ _ H Hz).
  Qed.
  Lemma memb_eq x y B : cmp x y = Eq -> memb x (y :: B) = true.
  Proof. intros H. unfold memb. simpl. now rewrite H. Qed.
  Lemma asc_below x y A : cmp y x = Lt \/ cmp y x = Eq -> Forall (fun z => cmp x z = Lt) A -> Forall (fun z => cmp y z = Lt) A.
  Proof.
    intros H HF. eapply Forall_impl; [|exact HF]. simpl. intros z Hz. destruct H as [H|H].
    - exact (cmp_lt_trans laws _ _ _ H Hz).
    - now rewrite (cmp_eq_l laws _ _ _ H).
  Qed.
  Lemma asc_filter f A : ascending cmp A -> ascending cmp (filter f A).
  Proof.
    induction A as [|x A IH]; simpl; intros H; auto. apply asc_cons in H. destruct H as [H HF].
    destruct (f x); auto. constructor; [apply IH; auto|]. rewrite Forall_forall in *. intros z Hz. apply filter_In in Hz. now apply HF.
  Qed.

  Definition diffl A B := filter (fun x => negb (memb x B)) A.
  Definition interl A B := filter (fun x => memb x B) A.

  Lemma filter_memb_skip (f : bool -> bool) A y B : Forall (fun z => cmp y z = Lt) A ->
    filter (fun x => f (memb x (y :: B))) A = filter (fun x => f (memb x B)) A.
  Proof.
    intros H. apply filter_ext_in. intros x Hx. rewrite Forall_forall in H. rewrite memb_gt; auto. apply cmp_gt_lt. auto.
  Qed.
  Lemma diffl_skip A y B : Forall (fun z => cmp y z = Lt) A -> diffl A (y :: B) = diffl A B.
  Proof. apply (filter_memb_skip negb). Qed.
  Lemma interl_skip A y B : Forall (fun z => cmp y z = Lt) A -> interl A (y :: B) = interl A B.
  Proof. apply (filter_memb_skip (fun b => b)). Qed.
  Lemma diffl_nil A : diffl A [] = A.
  Proof. unfold diffl. simpl. induction A; simpl; congruence. Qed.
  Lemma interl_nil A : interl A [] = [].
  Proof. unfold interl. simpl. induction A; simpl; congruence. Qed.

  Fixpoint unionl A : list T -> list T :=
    fix go B := match A, B with
                | [], _ => B
                | _, [] => A
                | x :: A', y :: B' => match cmp x y with Lt => x :: unionl A' B | Eq => x :: unionl A' B' | Gt => y :: go B' end
                end.
  Fixpoint syml A : list T -> list T :=
    fix go B := match A, B with
                | [], _ => B
                | _, [] => A
                | x :: A', y :: B' => match cmp x y with Lt => x :: syml A' B | Eq => syml A' B' | Gt => y :: go B' end
                end.
  Lemma unionl_nil_r A : unionl A [] = A.
  Proof. destruct A; auto. Qed.
  Lemma syml_nil_r A : syml A [] = A.
  Proof. destruct A; auto. Qed.
  Lemma unionl_nil_l B : unionl [] B = B.
  Proof. destruct B; auto. Qed.
  Lemma syml_nil_l B : syml [] B = B.
  Proof. destruct B; auto. Qed.
  Lemma unionl_cons x A y B : unionl (x :: A) (y :: B) =
    match cmp x y with Lt => x :: unionl A (y :: B) | Eq => x :: unionl A B | Gt => y :: unionl (x :: A) B end.
  Proof. reflexivity. Qed.
  Lemma syml_cons x A y B : syml (x :: A) (y :: B) =
    match cmp x y with Lt => x :: syml A (y :: B) | Eq => syml A B | Gt => y :: syml (x :: A) B end.
  Proof. reflexivity. Qed.

  Lemma not_member_nil x : ~ member cmp x [].
  Proof. intros (y & [] & _). Qed.
  Lemma member_cons x y B : member cmp x (y :: B) <-> cmp x y = Eq \/ member cmp x B.
  Proof.
    split.
    - intros (z & [<-|Hz] & E); auto. right. exists z. auto.
    - intros [E|(z & Hz & E)]; [exists y|exists z]; simpl; auto.
  Qed.
  Lemma member_below x B : Forall (fun z => cmp x z = Lt) B -> ~ member cmp x B.
  Proof. intros H Hm. apply memb_ok in Hm. rewrite memb_none in Hm; auto. discriminate. Qed.
  Lemma member_above x y B : In x B -> Forall (fun z => cmp y z = Lt) B -> cmp x y = Gt.
  Proof. intros H HF. rewrite Forall_forall in HF. apply cmp_gt_lt. auto. Qed.

  Lemma unionl_spec n : forall A B, length A + length B <= n -> ascending cmp A -> ascending cmp B ->
    ascending cmp (unionl A B) /\ (forall x, In x (unionl A B) <-> In x A \/ (In x B /\ ~ member cmp x A)) /\
    (forall z, Forall (fun x => cmp z x = Lt) A -> Forall (fun x => cmp z x = Lt) B -> Forall (fun x => cmp z x = Lt) (unionl A B)) /\
    Nat.max (length A) (length B) <= length (unionl A B) <= length A + length B.
  Proof.
    induction n as [|n IH]; intros A B Hn HA HB.
    - destruct A, B; simpl in Hn; try lia. simpl. repeat split; try constructor; intuition lia.
    - destruct A as [|a A]; [rewrite unionl_nil_l|]; [|destruct B as [|b B]; [rewrite unionl_nil_r|]].
      + split; auto. split; [|split; auto; simpl; lia]. intros x. split; [|simpl; tauto]. intros H. right. split; auto. apply not_member_nil.
      + split; auto. split; [|split; auto; simpl; lia]. intros x. simpl. tauto.
      + rewrite unionl_cons. destruct (asc_cons HA) as [HA1 HA2]. destruct (asc_cons HB) as [HB1 HB2]. simpl in Hn.
        destruct (cmp a b) eqn:E.
        * destruct (IH A B) as (I1 & I2 & I3 & I4); auto; [lia|]. split; [constructor; auto; apply I3; auto|].
          { eapply asc_below; [|exact HB2]. right. apply E. }
          split; [|split].
          -- intros x. split.
             ++ intros [->|H]; [simpl; auto|]. apply I2 in H. destruct H as [H|[H1 H2]]; [simpl; auto|].
                right. split; [simpl; auto|]. rewrite member_cons. intros [H|H]; auto.
                rewrite (cmp_eq_r x E) in H. rewrite (@member_above _ _ _ H1 HB2) in H. discriminate.
             ++ intros [[->|H]|[H1 H2]]; [simpl; auto| |].
                ** right. apply I2. auto.
                ** rewrite member_cons in H2. destruct H1 as [<-|H1]; [exfalso; apply H2; left; now apply cmp_eq_sym_|].
                   right. apply I2. tauto.
          -- intros z H1 H2. inversion H1; inversion H2; subst. constructor; auto.
          -- simpl. lia.
        * destruct (IH A (b :: B)) as (I1 & I2 & I3 & I4); auto; [simpl; lia|]. split; [constructor; auto; apply I3; auto|].
          { constructor; auto. eapply asc_below; [left; exact E|auto]. }
          split; [|split].
          -- intros x. split.
             ++ intros [->|H]; [simpl; auto|]. apply I2 in H. destruct H as [H|[H1 H2]]; [simpl; auto|].
                right. split; [auto|]. rewrite member_cons. intros [H|H]; auto.
                apply cmp_eq_sym_ in H. destruct H1 as [->|H1]; [congruence|].
                rewrite Forall_forall in HB2. apply HB2 in H1. rewrite (cmp_lt_trans laws _ _ _ E H1) in H. discriminate.
             ++ rewrite member_cons. intros [[->|H]|[H1 H2]]; [simpl; auto| |].
                ** right. apply I2. auto.
                ** right. apply I2. tauto.
          -- intros z H1 H2. inversion H1; subst. constructor; auto.
          -- simpl in *. lia.
        * destruct (IH (a :: A) B) as (I1 & I2 & I3 & I4); auto; [simpl; lia|]. assert (E' : cmp b a = Lt) by now apply cmp_gt_lt.
          split; [constructor; auto; apply I3; auto|].
          { constructor; auto. eapply asc_below; [left; exact E'|auto]. }
          split; [|split].
          -- intros x. split.
             ++ intros [->|H].
                ** right. split; [now left|]. apply member_below. constructor; auto. eapply asc_below; [left; exact E'|auto].
                ** apply I2 in H. simpl. tauto.
             ++ intros [H|[[<-|H1] H2]]; [right|left|right]; auto; apply I2; auto.
          -- intros z H1 H2. inversion H2; subst. constructor; auto.
          -- cbn [length] in *. lia.
  Qed.

  Lemma syml_spec n : forall A B, length A + length B <= n -> ascending cmp A -> ascending cmp B ->
    ascending cmp (syml A B) /\ (forall x, In x (syml A B) <-> (In x A /\ ~ member cmp x B) \/ (In x B /\ ~ member cmp x A)) /\
    (forall z, Forall (fun x => cmp z x = Lt) A -> Forall (fun x => cmp z x = Lt) B -> Forall (fun x => cmp z x = Lt) (syml A B)) /\
    length (syml A B) <= length A + length B.
  Proof.
    induction n as [|n IH]; intros A B Hn HA HB.
    - destruct A, B; simpl in Hn; try lia. simpl. repeat split; try constructor; intuition lia.
    - destruct A as [|a A]; [rewrite syml_nil_l|]; [|destruct B as [|b B]; [rewrite syml_nil_r|]].
      + split; auto. split; [|split; auto; simpl; lia]. intros x. split; [|simpl; tauto]. intros H. right. split; auto. apply not_member_nil.
      + split; auto. split; [|split; auto; simpl; lia]. intros x. split; [|simpl; tauto]. intros H. left. split; auto. apply not_member_nil.
      + rewrite syml_cons. destruct (asc_cons HA) as [HA1 HA2]. destruct (asc_cons HB) as [HB1 HB2]. simpl in Hn.
        destruct (cmp a b) eqn:E.
        * destruct (IH A B) as (I1 & I2 & I3 & I4); auto; [lia|]. split; [exact I1|]. assert (E' := proj1 (cmp_eq_sym_ _ _) E).
          split; [|split].
          -- intros x. rewrite I2. simpl. rewrite !member_cons. split.
             ++ intros [[H1 H2]|[H1 H2]]; [left|right]; (split; [auto|]); intros [H|H]; auto.
                ** rewrite <- (cmp_eq_r x E) in H. rewrite (@member_above _ _ _ H1 HA2) in H. discriminate.
                ** rewrite (cmp_eq_r x E) in H. rewrite (@member_above _ _ _ H1 HB2) in H. discriminate.
             ++ intros [[[<-|H1] H2]|[[<-|H1] H2]]; tauto.
          -- intros z H1 H2. inversion H1; inversion H2; subst. auto.
          -- simpl. lia.
        * destruct (IH A (b :: B)) as (I1 & I2 & I3 & I4); auto; [simpl; lia|].
          assert (Ha : Forall (fun z => cmp a z = Lt) (b :: B)) by (constructor; auto; eapply asc_below; [left; exact E|auto]).
          split; [constructor; auto; apply I3; auto|].
          split; [|split].
          -- intros x. split.
             ++ intros [->|H].
                ** left. split; [now left|]. now apply member_below.
                ** apply I2 in H. destruct H as [H|[H1 H2]]; [left; simpl; tauto|]. right. split; auto.
                   rewrite member_cons. intros [H|H]; auto. rewrite (@member_above _ _ _ H1 Ha) in H. discriminate.
             ++ intros [[[->|H] H']|[H1 H2]]; [simpl; auto| |]; right; apply I2; auto. rewrite member_cons in H2. tauto.
          -- intros z H1 H2. inversion H1; subst. constructor; auto.
          -- simpl in *. lia.
        * destruct (IH (a :: A) B) as (I1 & I2 & I3 & I4); auto; [simpl; lia|]. assert (E' : cmp b a = Lt) by now apply cmp_gt_lt.
          assert (Hb : Forall (fun z => cmp b z = Lt) (a :: A)) by (constructor; auto; eapply asc_below; [left; exact E'|auto]).
          split; [constructor; auto; apply I3; auto|].
          split; [|split].
          -- intros x. split.
             ++ intros [->|H].
                ** right. split; [now left|]. now apply member_below.
                ** apply I2 in H. destruct H as [[H1 H2]|H]; [|right; simpl; tauto]. left. split; auto.
                   rewrite member_cons. intros [H|H]; auto. rewrite (@member_above _ _ _ H1 Hb) in H. discriminate.
             ++ intros [[H H']|[[->|H1] H2]]; [|simpl; auto|]; right; apply I2; auto. rewrite member_cons in H'. tauto.
          -- intros z H1 H2. inversion H2; subst. constructor; auto.
          -- cbn [length] in *. lia.
  Qed.

  Lemma diffl_In A B x : In x (diffl A B) <-> In x A /\ ~ member cmp x B.
  Proof. unfold diffl. rewrite filter_In. rewrite <- memb_ok. destruct (memb x B); simpl; intuition congruence. Qed.
  Lemma interl_In A B x : In x (interl A B) <-> In x A /\ member cmp x B.
  Proof. unfold interl. rewrite filter_In. rewrite <- memb_ok. reflexivity. Qed.

  (** |A \ B| >= |A| - |B| *)
  Lemma diffl_cons A b B : ascending cmp A -> length (diffl A B) <= length (diffl A (b :: B)) + 1.
  Proof.
    induction A as [|a A IH]; intros HA; [simpl; lia|]. destruct (asc_cons HA) as [HA1 HA2]. specialize (IH HA1).
    unfold diffl in *. cbn [filter]. destruct (cmp a b) eqn:E.
    - rewrite memb_eq by auto. cbn [negb].
      assert (E2 : filter (fun x => negb (memb x (b :: B))) A = filter (fun x => negb (memb x B)) A).
      { apply (@diffl_skip A b B). eapply asc_below; [|exact HA2]. right. now apply cmp_eq_sym_. }
      rewrite E2. destruct (negb (memb a B)); cbn [length]; lia.
    - assert (E2 : memb a (b :: B) = memb a B) by (unfold memb; simpl; now rewrite E).
      rewrite E2. destruct (negb (memb a B)); cbn [length]; lia.
    - rewrite memb_gt by auto. destruct (negb (memb a B)); cbn [length]; lia.
  Qed.
  Lemma diffl_length A B : ascending cmp A -> length A - length B <= length (diffl A B) <= length A.
  Proof.
    intros HA. split.
    - induction B as [|b B IH]; [rewrite diffl_nil; simpl; lia|]. pose proof (diffl_cons b B HA). simpl. lia.
    - unfold diffl. induction A as [|a A IH]; simpl; auto. apply asc_cons in HA. destruct (negb _); simpl; intuition lia.
  Qed.
  Lemma interl_length A B : length (interl A B) <= length A.
  Proof. unfold interl. induction A as [|a A IH]; simpl; auto. destruct (memb _ _); simpl; lia. Qed.
End ListAlg.

Section SetIters.
  Variables (T : Type) (cmp : T -> T -> comparison).
  Hypothesis laws : ord_laws cmp.
  Notation bset := (bset T).
  Notation memb := (memb cmp).
  Notation diffl := (diffl cmp).
  Notation interl := (interl cmp).
  Notation unionl := (unionl cmp).
  Notation syml := (syml cmp).
  Implicit Types (s o : bset) (it : siter T) (p : speek T) (l la lb : list T) (x y : T).

  (** the elements of a set in iteration order *)
  Definition elems s : list T := map fst (entries s).
  (** a set of the code is in a legal state *)
  Definition set_valid s : Prop := valid cmp s.

  Lemma map_fst_asc (l : list (T * unit)) : sorted cmp l <-> ascending cmp (map fst l).
  Proof.
    unfold sorted, ascending. split.
    - induction 1 as [|a l H IH HF]; simpl; constructor; auto. rewrite Forall_map. exact HF.
    - intros H. remember (map fst l) as l' eqn:E. revert l E. induction H as [|a l' H IH HF]; intros [|b l] E; inversion E; subst; constructor; auto.
      rewrite Forall_map in HF. exact HF.
  Qed.
  Lemma elems_asc s : set_valid s -> ascending cmp (elems s).
  Proof. intros [_ H]. now apply map_fst_asc. Qed.
  Lemma elems_len s : set_valid s -> set_len s = length (elems s).
  Proof. intros [(_ & _ & H) _]. unfold elems. rewrite map_length. exact H. Qed.

  (** [it] still has to deliver [l] from the front *)
  Definition holds it l : Prop := exists H Tn a b, iter_ok H Tn a b it /\ map fst (seg (inorder Tn) a b) = l.
  Definition pholds p l : Prop :=
    match sp p with
    | None => holds (sinner p) l
    | Some None => l = [] /\ holds (sinner p) []
    | Some (Some x) => exists l', l = x :: l' /\ holds (sinner p) l'
    end.

  Lemma set_next_ok it l : holds it l -> exists it', set_next it = Ret (hd_error l, it') /\ holds it' (tl l).
  Proof.
    intros (H & Tn & a & b & Hok & E). pose proof (iter_next_ok Hok) as Hn. unfold set_next.
    destruct (Nat.eqb_spec a b) as [->|Hab].
    - destruct Hn as (it' & -> & Hok'). rewrite seg_nil in E. subst l. cbn. exists it'. split; auto.
      exists H, Tn, b, b. split; auto. now rewrite seg_nil.
    - destruct Hn as (x & it' & -> & Hx & _ & Hok'). pose proof (between_bound (proj1 Hok)) as Hb.
      rewrite (@seg_front _ _ a b (fst x)) in E by (auto; lia). subst l. cbn. exists it'. split; auto.
      exists H, Tn, (S a), b. auto.
  Qed.
  Lemma holds_len it l : holds it l -> siter_len it = length l.
  Proof.
    intros (H & Tn & a & b & Hok & <-). pose proof (between_bound (proj1 Hok)) as Hb. unfold siter_len.
    rewrite map_length, seg_length by auto. apply Hok.
  Qed.
  Lemma set_iter_ok s : set_valid s -> exists it, set_iter s = Ret it /\ holds it (elems s).
  Proof.
    intros [(Hb & _ & Hl) _]. destruct (map_iter_ok s) as (it & E & Hok); auto.
    { destruct Hb as [_ Hb]. eapply kids_weaken; [|exact Hb]. now unfold any. }
    exists it. split; auto. exists (bheight s), (bnode s), 0, (length (entries s)). split; auto.
    unfold elems, entries. now rewrite seg_all.
  Qed.
  Lemma peek_ok_ p l : pholds p l -> exists p', sp_peek p = Ret (hd_error l, p') /\ pholds p' l.
  Proof.
    unfold sp_peek, pholds. destruct (sp p) as [[x|]|] eqn:E.
    - intros (l' & -> & H). exists p. rewrite E. split; auto. eauto.
    - intros (-> & H). exists p. rewrite E. auto.
    - intros H. destruct (set_next_ok H) as (it' & -> & H'). cbn. eexists. split; [reflexivity|]. cbn. destruct l; cbn in *; eauto.
  Qed.
  Lemma pnext_ok_ p l : pholds p l -> exists p', sp_next p = Ret (hd_error l, p') /\ pholds p' (tl l).
  Proof.
    unfold sp_next, pholds. destruct (sp p) as [[x|]|] eqn:E.
    - intros (l' & -> & H). eexists. split; [reflexivity|]. exact H.
    - intros (-> & H). eexists. split; [reflexivity|]. exact H.
    - intros H. destruct (set_next_ok H) as (it' & -> & H'). cbn. eexists. split; [reflexivity|]. exact H'.
  Qed.
  Lemma pholds_len p l : pholds p l -> sp_len p = length l.
  Proof.
    unfold pholds, sp_len. destruct (sp p) as [[x|]|].
    - intros (l' & -> & H). rewrite (holds_len H). simpl. lia.
    - now intros (-> & _).
    - apply holds_len.
  Qed.
  Lemma speekable_ok it l : holds it l -> pholds (speekable it) l.
  Proof. auto. Qed.

  Lemma find_map_fst q (l : list (T * unit)) : (match find (hit q) l with Some _ => true | None => false end) =
    existsb (fun y => match q y with Eq => true | _ => false end) (map fst l).
  Proof. induction l as [|a l IH]; simpl; auto. unfold hit at 1. destruct (q (fst a)); simpl; auto. Qed.
  Lemma contains_ok s x : set_valid s -> set_contains (cmp x) s = Ret (memb x (elems s)).
  Proof.
    intros [Hm Hs]. unfold set_contains, contains_key, get. rewrite get_key_value_ok; auto; [|now apply cutq_key].
    cbn [omap]. f_equal. unfold BTreeSets.memb, elems. rewrite <- find_map_fst. unfold s_get. destruct (find _ _) as [[? []]|]; reflexivity.
  Qed.

  (** ** Difference *)
  Definition drep (d : difference T) (R : list T) : Prop :=
    match d with
    | DStitch a b => exists la lb, holds a la /\ pholds b lb /\ ascending cmp la /\ ascending cmp lb /\ R = diffl la lb
    | DSearch a o => exists la, holds a la /\ set_valid o /\ ascending cmp la /\ R = diffl la (elems o)
    end.

  Lemma diff_cons x la lb : diffl (x :: la) lb = if memb x lb then diffl la lb else x :: diffl la lb.
  Proof. unfold BTreeSets.diffl. cbn [filter]. now destruct (memb x lb). Qed.

  Lemma diff_stitch_ok fuel : forall x a b la lb, holds a la -> pholds b lb -> ascending cmp (x :: la) -> ascending cmp lb ->
    length la + length lb < fuel ->
    exists d, diff_stitch cmp fuel x a b = Ret (hd_error (diffl (x :: la) lb), d) /\ drep d (tl (diffl (x :: la) lb)).
  Proof.
    induction fuel as [|fuel IH]; intros x a b la lb Ha Hb HA HB Hf; [lia|]. cbn [diff_stitch].
    destruct (@peek_ok_ _ _ Hb) as (b1 & -> & Hb1). cbn [obind]. destruct (asc_cons HA) as [HA1 HA2].
    destruct lb as [|y lb]; cbn [hd_error].
    - rewrite diff_cons. cbn. eexists. split; [reflexivity|]. exists la, []. auto.
    - destruct (asc_cons HB) as [HB1 HB2]. destruct (cmp x y) eqn:E.
      + destruct (set_next_ok Ha) as (a' & -> & Ha'). cbn [obind].
        assert (ED : diffl (x :: la) (y :: lb) = diffl la lb).
        { rewrite diff_cons, memb_eq by auto. apply (diffl_skip laws). eapply (asc_below laws); [|exact HA2]. right. now apply cmp_eq_sym_. }
        rewrite ED. destruct la as [|x' la]; cbn [hd_error tl] in *.
        * eexists. split; [reflexivity|]. exists [], (y :: lb). auto.
        * destruct (@pnext_ok_ _ _ Hb1) as (b2 & -> & Hb2). cbn [obind tl] in *. apply IH; auto. simpl in Hf. lia.
      + rewrite diff_cons, (@memb_lt _ _ laws _ _ _ E HB). eexists. split; [reflexivity|]. exists la, (y :: lb). auto.
      + destruct (@pnext_ok_ _ _ Hb1) as (b2 & -> & Hb2). cbn [obind tl] in *.
        assert (ED : diffl (x :: la) (y :: lb) = diffl (x :: la) lb).
        { apply (diffl_skip laws). assert (Hyx : cmp y x = Lt) by now apply cmp_gt_lt. constructor; auto. eapply (asc_below laws); [left; exact Hyx|auto]. }
        rewrite ED. apply IH; auto. simpl in Hf. lia.
  Qed.
  Lemma diff_search_ok fuel : forall a o la, holds a la -> set_valid o -> ascending cmp la -> length la < fuel ->
    exists d, diff_search cmp fuel a o = Ret (hd_error (diffl la (elems o)), d) /\ drep d (tl (diffl la (elems o))).
  Proof.
    induction fuel as [|fuel IH]; intros a o la Ha Ho HA Hf; [lia|]. cbn [diff_search].
    destruct (set_next_ok Ha) as (a' & -> & Ha'). cbn [obind]. destruct la as [|x la]; cbn [hd_error tl] in *.
    - eexists. split; [reflexivity|]. exists []. auto.
    - rewrite contains_ok by auto. cbn [obind]. destruct (asc_cons HA) as [HA1 HA2]. rewrite diff_cons. simpl in Hf.
      destruct (memb x (elems o)); [apply IH; auto; lia|]. eexists. split; [reflexivity|]. exists la. auto.
  Qed.
  Lemma diff_next_ok d R : drep d R -> exists d', diff_next cmp d = Ret (hd_error R, d') /\ drep d' (tl R).
  Proof.
    destruct d as [a b|a o].
    - intros (la & lb & Ha & Hb & HA & HB & ->). cbn [diff_next]. destruct (set_next_ok Ha) as (a' & -> & Ha'). cbn [obind].
      destruct la as [|x la]; cbn [hd_error tl] in *.
      + eexists. split; [reflexivity|]. exists [], lb. auto.
      + apply diff_stitch_ok; auto. rewrite (holds_len Ha'), (@pholds_len _ _ Hb). lia.
    - intros (la & Ha & Ho & HA & ->). cbn [diff_next]. apply diff_search_ok; auto. rewrite (holds_len Ha). lia.
  Qed.
  Lemma diff_hint_ok d R : drep d R -> exists lo hi, diff_size_hint d = (lo, Some hi) /\ lo <= length R <= hi.
  Proof.
    destruct d as [a b|a o].
    - intros (la & lb & Ha & Hb & HA & HB & ->). cbn [diff_size_hint]. eexists _, _. split; [reflexivity|].
      rewrite (holds_len Ha), (@pholds_len _ _ Hb). now apply diffl_length.
    - intros (la & Ha & Ho & HA & ->). cbn [diff_size_hint]. eexists _, _. split; [reflexivity|].
      rewrite (holds_len Ha), (elems_len Ho). now apply diffl_length.
  Qed.
  Lemma set_difference_ok s o : set_valid s -> set_valid o -> exists d, set_difference s o = Ret d /\ drep d (diffl (elems s) (elems o)).
  Proof.
    intros Hs Ho. unfold set_difference. destruct (set_iter_ok Hs) as (a & -> & Ha). cbn [obind].
    destruct (_ <? _).
    - destruct (set_iter_ok Ho) as (b & -> & Hb). cbn [obind]. eexists. split; [reflexivity|].
      exists (elems s), (elems o). pose proof (elems_asc Hs). pose proof (elems_asc Ho). auto.
    - eexists. split; [reflexivity|]. exists (elems s). pose proof (elems_asc Hs). auto.
  Qed.

  (** ** SymmetricDifference, Union *)
  Definition two_rep (f : list T -> list T -> list T) (st : speek T * speek T) (R : list T) : Prop :=
    exists la lb, pholds (fst st) la /\ pholds (snd st) lb /\ ascending cmp la /\ ascending cmp lb /\ R = f la lb.

  Lemma asc_tl l : ascending cmp l -> ascending cmp (tl l).
  Proof. intros H. destruct l; auto. now apply asc_cons in H. Qed.

  Lemma union_next_ok st R : two_rep unionl st R -> exists st', union_next cmp st = Ret (hd_error R, st') /\ two_rep unionl st' (tl R).
  Proof.
    destruct st as [a b]. intros (la & lb & Ha & Hb & HA & HB & ->). cbn [fst snd] in *. unfold union_next.
    destruct (@peek_ok_ _ _ Ha) as (a1 & -> & Ha1). destruct (@peek_ok_ _ _ Hb) as (b1 & -> & Hb1). cbn [obind].
    destruct (@pnext_ok_ _ _ Ha1) as (a2 & Ea & Ha2). destruct (@pnext_ok_ _ _ Hb1) as (b2 & Eb & Hb2).
    pose proof (asc_tl HA) as HA'. pose proof (asc_tl HB) as HB'.
    destruct la as [|x la]; cbn [hd_error cmp_opt tl] in *.
    - rewrite Eb. cbn [obind]. eexists. split; [now rewrite unionl_nil_l|]. exists [], (tl lb). rewrite !unionl_nil_l. auto.
    - destruct lb as [|y lb]; cbn [hd_error cmp_opt tl] in *.
      + rewrite Ea. cbn [obind]. eexists. split; [now rewrite unionl_nil_r|]. exists la, []. rewrite !unionl_nil_r. auto.
      + rewrite unionl_cons. destruct (cmp x y) eqn:E; rewrite ?Eb; cbn [obind]; rewrite ?Ea; cbn [obind]; eexists; (split; [reflexivity|]).
        * exists la, lb. auto.
        * exists la, (y :: lb). auto.
        * exists (x :: la), lb. auto.
  Qed.
  Lemma union_hint_ok st R : two_rep unionl st R -> exists lo hi, union_size_hint st = (lo, Some hi) /\ lo <= length R <= hi.
  Proof.
    destruct st as [a b]. intros (la & lb & Ha & Hb & HA & HB & ->). cbn [fst snd] in *. eexists _, _. split; [reflexivity|].
    cbn [fst snd]. rewrite (@pholds_len _ _ Ha), (@pholds_len _ _ Hb). now apply (unionl_spec laws (le_n _) HA HB).
  Qed.

  Lemma sym_loop_ok fuel : forall a b la lb, pholds a la -> pholds b lb -> ascending cmp la -> ascending cmp lb ->
    length la + length lb < fuel ->
    exists st', sym_loop cmp fuel a b = Ret (hd_error (syml la lb), st') /\ two_rep syml st' (tl (syml la lb)).
  Proof.
    induction fuel as [|fuel IH]; intros a b la lb Ha Hb HA HB Hf; [lia|]. cbn [sym_loop].
    destruct (@peek_ok_ _ _ Ha) as (a1 & -> & Ha1). destruct (@peek_ok_ _ _ Hb) as (b1 & -> & Hb1). cbn [obind].
    destruct (@pnext_ok_ _ _ Ha1) as (a2 & Ea & Ha2). destruct (@pnext_ok_ _ _ Hb1) as (b2 & Eb & Hb2).
    pose proof (asc_tl HA) as HA'. pose proof (asc_tl HB) as HB'.
    destruct la as [|x la]; cbn [hd_error cmp_opt tl] in *.
    - rewrite Eb. cbn [obind]. eexists. split; [now rewrite syml_nil_l|]. exists [], (tl lb). rewrite !syml_nil_l. auto.
    - destruct lb as [|y lb]; cbn [hd_error cmp_opt tl] in *.
      + rewrite Ea. cbn [obind]. eexists. split; [now rewrite syml_nil_r|]. exists la, []. rewrite !syml_nil_r. auto.
      + rewrite syml_cons. destruct (cmp x y) eqn:E; rewrite ?Ea; cbn [obind]; rewrite ?Eb; cbn [obind].
        * apply IH; auto. simpl in Hf. lia.
        * eexists; (split; [reflexivity|]). exists la, (y :: lb). auto.
        * eexists; (split; [reflexivity|]). exists (x :: la), lb. auto.
  Qed.
  Lemma sym_next_ok st R : two_rep syml st R -> exists st', sym_next cmp st = Ret (hd_error R, st') /\ two_rep syml st' (tl R).
  Proof.
    destruct st as [a b]. intros (la & lb & Ha & Hb & HA & HB & ->). cbn [fst snd] in *. unfold sym_next. cbn [fst snd].
    apply sym_loop_ok; auto. rewrite (@pholds_len _ _ Ha), (@pholds_len _ _ Hb). lia.
  Qed.
  Lemma sym_hint_ok st R : two_rep syml st R -> exists lo hi, sym_size_hint st = (lo, Some hi) /\ lo <= length R <= hi.
  Proof.
    destruct st as [a b]. intros (la & lb & Ha & Hb & HA & HB & ->). cbn [fst snd] in *. eexists _, _. split; [reflexivity|].
    cbn [fst snd]. rewrite (@pholds_len _ _ Ha), (@pholds_len _ _ Hb). split; [lia|]. now apply (syml_spec laws (le_n _) HA HB).
  Qed.
  Lemma set_two_ok f s o : set_valid s -> set_valid o -> exists st, set_two s o = Ret st /\ two_rep f st (f (elems s) (elems o)).
  Proof.
    intros Hs Ho. unfold set_two. destruct (set_iter_ok Hs) as (a & -> & Ha). destruct (set_iter_ok Ho) as (b & -> & Hb). cbn [obind].
    eexists. split; [reflexivity|]. exists (elems s), (elems o). pose proof (elems_asc Hs). pose proof (elems_asc Ho). auto.
  Qed.

  (** ** Intersection *)
  Definition irep (d : intersection T) (R : list T) : Prop :=
    match d with
    | IStitch a b => exists la lb, holds a la /\ holds b lb /\ ascending cmp la /\ ascending cmp lb /\ R = interl la lb
    | ISearch a o => exists la, holds a la /\ set_valid o /\ ascending cmp la /\ R = interl la (elems o)
    end.
  Lemma inter_cons x la lb : interl (x :: la) lb = if memb x lb then x :: interl la lb else interl la lb.
  Proof. reflexivity. Qed.

  Lemma inter_stitch_ok fuel : forall x y a b la lb, holds a la -> holds b lb -> ascending cmp (x :: la) -> ascending cmp (y :: lb) ->
    length la + length lb < fuel ->
    exists d, inter_stitch cmp fuel x y a b = Ret (hd_error (interl (x :: la) (y :: lb)), d) /\ irep d (tl (interl (x :: la) (y :: lb))).
  Proof.
    induction fuel as [|fuel IH]; intros x y a b la lb Ha Hb HA HB Hf; [lia|]. cbn [inter_stitch].
    destruct (asc_cons HA) as [HA1 HA2]. destruct (asc_cons HB) as [HB1 HB2]. destruct (cmp x y) eqn:E.
    - rewrite inter_cons, memb_eq by auto. eexists. split; [reflexivity|]. cbn [tl]. exists la, lb. do 4 (split; [now auto|]).
      apply (interl_skip laws). eapply (asc_below laws); [|exact HA2]. right. now apply cmp_eq_sym_.
    - rewrite inter_cons, (@memb_lt _ _ laws _ _ _ E HB). destruct (set_next_ok Ha) as (a' & -> & Ha'). cbn [obind].
      destruct la as [|x' la]; cbn [hd_error tl] in *.
      + eexists. split; [reflexivity|]. exists [], lb. auto.
      + apply IH; auto. simpl in Hf. lia.
    - assert (ED : interl (x :: la) (y :: lb) = interl (x :: la) lb).
      { apply (interl_skip laws). assert (Hyx : cmp y x = Lt) by now apply cmp_gt_lt. constructor; auto. eapply (asc_below laws); [left; exact Hyx|auto]. }
      rewrite ED. destruct (set_next_ok Hb) as (b' & -> & Hb'). cbn [obind]. destruct lb as [|y' lb]; cbn [hd_error tl] in *.
      + rewrite interl_nil. eexists. split; [reflexivity|]. exists la, []. rewrite interl_nil. auto.
      + apply IH; auto. simpl in Hf. lia.
  Qed.
  Lemma inter_search_ok fuel : forall a o la, holds a la -> set_valid o -> ascending cmp la -> length la < fuel ->
    exists d, inter_search cmp fuel a o = Ret (hd_error (interl la (elems o)), d) /\ irep d (tl (interl la (elems o))).
  Proof.
    induction fuel as [|fuel IH]; intros a o la Ha Ho HA Hf; [lia|]. cbn [inter_search].
    destruct (set_next_ok Ha) as (a' & -> & Ha'). cbn [obind]. destruct la as [|x la]; cbn [hd_error tl] in *.
    - eexists. split; [reflexivity|]. exists []. auto.
    - rewrite contains_ok by auto. cbn [obind]. destruct (asc_cons HA) as [HA1 HA2]. rewrite inter_cons. simpl in Hf.
      destruct (memb x (elems o)); [|apply IH; auto; lia]. eexists. split; [reflexivity|]. exists la. auto.
  Qed.
  Lemma inter_next_ok d R : irep d R -> exists d', inter_next cmp d = Ret (hd_error R, d') /\ irep d' (tl R).
  Proof.
    destruct d as [a b|a o].
    - intros (la & lb & Ha & Hb & HA & HB & ->). cbn [inter_next]. destruct (set_next_ok Ha) as (a' & -> & Ha'). cbn [obind].
      destruct la as [|x la]; cbn [hd_error tl] in *.
      + eexists. split; [reflexivity|]. exists [], lb. auto.
      + destruct (asc_cons HA) as [HA1 HA2]. destruct (set_next_ok Hb) as (b' & -> & Hb'). cbn [obind].
        destruct lb as [|y lb]; cbn [hd_error tl] in *.
        * rewrite interl_nil. eexists. split; [reflexivity|]. exists la, []. rewrite interl_nil. auto.
        * apply inter_stitch_ok; auto. rewrite (holds_len Ha'), (holds_len Hb'). lia.
    - intros (la & Ha & Ho & HA & ->). cbn [inter_next]. apply inter_search_ok; auto. rewrite (holds_len Ha). lia.
  Qed.
  Lemma inter_hint_ok d R : irep d R -> exists lo hi, inter_size_hint d = (lo, Some hi) /\ lo <= length R <= hi.
  Proof.
    destruct d as [a b|a o].
    - intros (la & lb & Ha & Hb & HA & HB & ->). eexists _, _. split; [reflexivity|]. cbv iota.
      rewrite (holds_len Ha). split; [lia|apply interl_length].
    - intros (la & Ha & Ho & HA & ->). eexists _, _. split; [reflexivity|]. cbv iota.
      rewrite (holds_len Ha). split; [lia|apply interl_length].
  Qed.
  Definition small_first s o : list T :=
    if set_len s <=? set_len o then interl (elems s) (elems o) else interl (elems o) (elems s).
  Lemma set_intersection_ok s o : set_valid s -> set_valid o -> exists d, set_intersection s o = Ret d /\ irep d (small_first s o).
  Proof.
    intros Hs Ho. unfold set_intersection, small_first.
    assert (G : forall s o, set_valid s -> set_valid o -> exists d,
      (do! a := set_iter s in
        if set_len o / ITER_PERFORMANCE_TIPPING_SIZE_DIFF <? set_len s then do! b := set_iter o in Ret (IStitch a b) else Ret (ISearch a o)) = Ret d
      /\ irep d (interl (elems s) (elems o))).
    { clear s o Hs Ho. intros s o Hs Ho. destruct (set_iter_ok Hs) as (a & -> & Ha). cbn [obind].
      destruct (_ <? _).
      - destruct (set_iter_ok Ho) as (b & -> & Hb). cbn [obind]. eexists. split; [reflexivity|].
        exists (elems s), (elems o). pose proof (elems_asc Hs). pose proof (elems_asc Ho). auto.
      - eexists. split; [reflexivity|]. exists (elems s). pose proof (elems_asc Hs). auto. }
    destruct (_ <=? _); apply G; auto.
  Qed.

  (** ** Relations *)
  Definition subl la lb : bool := forallb (fun x => memb x lb) la.
  Lemma subl_ok la lb : subl la lb = true <-> forall x, In x la -> member cmp x lb.
  Proof. unfold subl. rewrite forallb_forall. split; intros H x Hx; apply memb_ok; auto; now apply H. Qed.

  Lemma is_disjoint_ok s o : set_valid s -> set_valid o ->
    exists b, is_disjoint cmp s o = Ret b /\ (b = true <-> forall x, In x (elems s) -> ~ member cmp x (elems o)).
  Proof.
    intros Hs Ho. unfold is_disjoint. destruct (set_intersection_ok Hs Ho) as (d & -> & Hd). cbn [obind].
    destruct (@inter_next_ok _ _ Hd) as (d' & -> & _). cbn [obind]. eexists. split; [reflexivity|].
    assert (G : (match hd_error (small_first s o) with None => true | Some _ => false end) = true <-> small_first s o = []).
    { destruct (small_first s o); simpl; split; congruence. }
    rewrite G. clear G. unfold small_first. destruct (_ <=? _).
    - split.
      + intros E x Hx Hm. assert (In x []) as []. rewrite <- E. apply interl_In. auto.
      + intros H. destruct (interl (elems s) (elems o)) as [|x l] eqn:E; auto. exfalso.
        assert (Hx : In x (interl (elems s) (elems o))) by (rewrite E; now left). apply interl_In in Hx. destruct Hx. eapply H; eauto.
    - split.
      + intros E x Hx (y & Hy & Exy). assert (In y []) as []. rewrite <- E. apply interl_In. split; auto.
        exists x. split; auto. now apply cmp_eq_sym_.
      + intros H. destruct (interl (elems o) (elems s)) as [|x l] eqn:E; auto. exfalso.
        assert (Hx : In x (interl (elems o) (elems s))) by (rewrite E; now left). apply interl_In in Hx. destruct Hx as [H1 (y & H2 & H3)].
        apply (H y); auto. exists x. split; auto. now apply cmp_eq_sym_.
  Qed.

  Lemma subset_stitch_ok fuel : forall (la lb : list T) (x y : siter T), holds x (tl la) -> holds y (tl lb) -> ascending cmp la -> ascending cmp lb ->
    length la + length lb < fuel ->
    subset_stitch cmp fuel (hd_error la) (hd_error lb) x y = Ret (subl la lb).
  Proof.
    induction fuel as [|fuel IH]; intros la lb x y Hx Hy HA HB Hf; [lia|]. cbn [subset_stitch].
    destruct la as [|a la]; cbn [hd_error]; auto. destruct lb as [|b lb]; cbn [hd_error]; auto. cbn [tl] in *.
    destruct (asc_cons HA) as [HA1 HA2]. destruct (asc_cons HB) as [HB1 HB2].
    destruct (set_next_ok Hx) as (x' & Ex & Hx'). destruct (set_next_ok Hy) as (y' & Ey & Hy').
    simpl in Hf. destruct (cmp b a) eqn:E.
    - rewrite Ex. cbn [obind]. rewrite Ey. cbn [obind]. rewrite (IH la lb) by (auto; lia). f_equal. unfold subl. cbn [forallb].
      rewrite memb_eq by now apply cmp_eq_sym_. cbn [andb].
      assert (G : forall l, Forall (fun z => cmp a z = Lt) l -> forallb (fun x0 => memb x0 lb) l = forallb (fun x0 => memb x0 (b :: lb)) l).
      { induction 1 as [|z l Hz HF IHF]; cbn [forallb]; auto. rewrite IHF, (@memb_gt _ cmp z b lb); auto.
        apply cmp_gt_lt; auto. now rewrite (cmp_eq_l laws _ _ _ E). }
      apply G. auto.
    - rewrite Ey. cbn [obind]. change (Some a) with (hd_error (a :: la)). rewrite (IH (a :: la) lb) by (auto; simpl; lia). f_equal.
      unfold subl. assert (G : forall l, Forall (fun z => cmp b z = Lt) l -> forallb (fun x0 => memb x0 lb) l = forallb (fun x0 => memb x0 (b :: lb)) l).
      { induction 1 as [|z l Hz HF IHF]; cbn [forallb]; auto. rewrite IHF, (@memb_gt _ cmp z b lb); auto. apply cmp_gt_lt; auto. }
      apply G. constructor; auto. eapply (asc_below laws); [left; exact E|auto].
    - unfold subl. cbn [forallb]. rewrite (@memb_lt _ _ laws _ _ _ (proj1 (cmp_gt_lt laws _ _) E) HB). reflexivity.
  Qed.
  Lemma subset_search_ok fuel : forall la (x : siter T) o, holds x la -> set_valid o -> length la < fuel ->
    subset_search cmp fuel x o = Ret (subl la (elems o)).
  Proof.
    induction fuel as [|fuel IH]; intros la x o Hx Ho Hf; [lia|]. cbn [subset_search].
    destruct (set_next_ok Hx) as (x' & -> & Hx'). cbn [obind]. destruct la as [|a la]; cbn [hd_error tl] in *; auto.
    rewrite contains_ok by auto. cbn [obind]. unfold subl. cbn [forallb]. simpl in Hf. destruct (memb a (elems o)); auto.
    rewrite (IH la) by (auto; lia). reflexivity.
  Qed.

  (** a subset has at most as many elements *)
  Lemma sub_length la : forall lb, ascending cmp la -> ascending cmp lb -> (forall x, In x la -> member cmp x lb) -> length la <= length lb.
  Proof.
    intros lb HA HB HS. pose proof (@diffl_length _ cmp laws la lb HA) as [H _].
    destruct (diffl la lb) as [|x l] eqn:E; [simpl in H; lia|]. exfalso.
    assert (Hx : In x (diffl la lb)) by (rewrite E; now left). apply diffl_In in Hx. destruct Hx as [H1 H2]. auto.
  Qed.

  Lemma is_subset_ok s o : set_valid s -> set_valid o ->
    exists b, is_subset cmp s o = Ret b /\ (b = true <-> forall x, In x (elems s) -> member cmp x (elems o)).
  Proof.
    intros Hs Ho. unfold is_subset. rewrite (elems_len Hs), (elems_len Ho). pose proof (elems_asc Hs) as HA. pose proof (elems_asc Ho) as HB.
    destruct (Nat.ltb_spec (length (elems o)) (length (elems s))) as [Hlt|Hge].
    - exists false. split; auto. split; [discriminate|]. intros H. pose proof (sub_length HA HB H). lia.
    - destruct (set_iter_ok Hs) as (x & -> & Hx). cbn [obind]. destruct (set_iter_ok Ho) as (y & -> & Hy). cbn [obind].
      exists (subl (elems s) (elems o)). split; [|apply subl_ok]. destruct (_ <? _).
      + destruct (set_next_ok Hx) as (x' & -> & Hx'). cbn [obind]. destruct (set_next_ok Hy) as (y' & -> & Hy'). cbn [obind].
        apply subset_stitch_ok; auto. rewrite (holds_len Hx'), (holds_len Hy').
        destruct (elems s), (elems o); simpl; lia.
      + apply subset_search_ok; auto. rewrite (holds_len Hx). lia.
  Qed.
End SetIters.
