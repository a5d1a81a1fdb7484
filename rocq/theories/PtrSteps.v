(** * PtrSteps: every call of a pointer program is as specified, and its books balance *)
From Coq Require Import List Arith Lia Bool.
Import ListNotations.
From Verif Require Import Base VecModel PtrModel PtrSpec PtrProofs.
Set Implicit Arguments.

Lemma Forall2_len A B (P : A -> B -> Prop) l l' : Forall2 P l l' -> length l = length l'.
Proof. induction 1; cbn; congruence. Qed.
Ltac sp := repeat match goal with |- _ /\ _ => split end.

Section Ptr.
  Variables (T W : Type) (alloc : nat -> W -> answer * W) (place : pheap T -> W -> nat).
  Variables (isize_max usize_bytes sz : nat) (tclone : T -> W -> outcome reserve_error T * W) (tdrop : T -> W -> W).
  Variable wt : T -> nat.
  Hypothesis place_fresh : forall hp w, pget hp (place hp w) = None.
  Notation stores := (stores sz). Notation holds_ := (holds_ usize_bytes sz). Notation inv := (inv usize_bytes sz).
  Notation csize := (counted_size usize_bytes sz).
  Implicit Types (S : owns T) (v : pvars T) (hp : pheap T) (ps : list (slot T)) (hs : list (handle T)) (d : list (pevent T)).

  Definition rw (p : ptr T) : nat := match p with Dangling x => wt x | At _ => 0 end.
  Definition dw (a : slot T) : nat := match a with Boxed p => rw p | _ => 0 end.
  Definition sumw {A} (f : A -> nat) (l : list A) : nat := list_sum (map f l).
  Definition tw v hp ps n := hw wt hp + total dw (regs v) n + sumw rw (raws v) + sumw dw ps.
  Definition dsum d := sumw (fun e => match e with PDrop x => wt x | PMade _ => 0 end) d.
  Definition msum d := sumw (fun e => match e with PDrop _ => 0 | PMade x => wt x end) d.
  Lemma sumw_app A (f : A -> nat) l l' : sumw f (l ++ l') = sumw f l + sumw f l'.
  Proof. unfold sumw. now rewrite map_app, list_sum_app. Qed.
  Lemma sumw_nil A (f : A -> nat) : sumw f [] = 0.
  Proof. reflexivity. Qed.
  Lemma sumw_one A (f : A -> nat) x : sumw f [x] = f x.
  Proof. unfold sumw. cbn. lia. Qed.
  Lemma tw_grow S v hp ps hs n m : n <= m -> inv S v hp ps hs n -> tw v hp ps m = tw v hp ps n.
  Proof. intros L I. unfold tw. rewrite (@total_grow T dw (regs v) n m L); auto. intros r Hr. now rewrite (i_void I). Qed.

  Lemma dangling_in S v hp ps hs n t : sz = 0 -> inv S v hp ps hs n <-> inv S v hp (Boxed (Dangling t) :: ps) (HBox t :: hs) n.
  Proof.
    intros Z. split; intros [H1 H2 H3 H4 H5 H6]; constructor; auto.
    - constructor; [split; auto|auto].
    - now inversion H3.
  Qed.

  Lemma pbox_new_ok S v hp n t (w : W) : inv S v hp [] [] n ->
    match pbox_new alloc place isize_max sz tdrop t hp w with
    | (Ret p, hp', _, d) => d = [] /\ inv S v hp' [Boxed p] [HBox t] n /\ hw wt hp' + rw p = hw wt hp + wt t
    | (Err e, hp', _, d) => box_refused alloc isize_max sz e /\ hp' = hp /\ d = [PDrop t]
    | (Abort, _, _, _) => shrink_refused alloc sz
    | _ => False
    end.
  Proof.
    intros I. unfold pbox_new. destruct (Nat.eqb_spec sz 0) as [Z|Z].
    - split; auto. split; [now apply dangling_in|]. cbn. lia.
    - destruct (Nat.ltb_spec isize_max sz) as [L|L]; [split; [split; auto|auto]|].
      destruct (alloc sz w) as [[extra|e] w1] eqn:E1.
      + destruct extra as [|extra].
        * cbn [Nat.eqb]. replace ((1 + 0) * sz) with sz by lia. split; auto. split; [apply box_new; auto|]. cbn. lia.
        * cbn [Nat.eqb]. destruct (alloc sz w1) as [[x|e] w2] eqn:E2.
          -- cbn [pfree]. rewrite Nat.eqb_refl. split; auto. split; [apply box_new; auto|]. cbn. lia.
          -- split; auto. split; [eauto|]. exists w1, e. now rewrite E2.
      + split; [|auto]. split; auto. right. exists w. now rewrite E1.
  Qed.

  (** what dropping a pointer of state [S] on its way drops *)
  Definition drops_ S (h : handle T) d : Prop :=
    match h with
    | HNone => d = []
    | HBox x => d = [PDrop x]
    | HShared id x => ((forall r x', vars S r <> HShared id x') /\ d = [PDrop x]) \/ ((exists r x', vars S r = HShared id x') /\ d = [])
    end.
  Lemma shared_counted S v hp ps hs n r id x : inv S v hp ps hs n -> vars S r = HShared id x -> regs v r = Counted id.
  Proof. intros I E. pose proof (i_regs I r) as H. rewrite E in H. destruct (regs v r); cbn in H; try contradiction. now destruct H as (-> & _). Qed.
  Lemma counted_shared S v hp ps hs n r l : inv S v hp ps hs n -> regs v r = Counted l -> exists x, vars S r = HShared l x.
  Proof. intros I E. pose proof (i_regs I r) as H. rewrite E in H. destruct (vars S r); cbn in H; try contradiction. destruct H as (-> & _). eauto. Qed.
  Lemma counted_lt S v hp ps hs n r l : inv S v hp ps hs n -> regs v r = Counted l -> r < n.
  Proof. intros I E. destruct (le_lt_dec n r) as [L|L]; auto. rewrite (i_void I L) in E. discriminate. Qed.
  Lemma counted_some S v hp n l : inv S v hp [] [] n -> 1 <= nc l v [] n <-> exists r x, vars S r = HShared l x.
  Proof.
    intros I. unfold nc. cbn. rewrite Nat.add_0_r. split.
    - intros H. apply total_ex in H as (r & L & Hr). exists r. eapply counted_shared; eauto.
      destruct (regs v r); cbn in Hr; try lia. destruct (Nat.eqb_spec l l0); [congruence|cbn in Hr; lia].
    - intros (r & x & E). pose proof (shared_counted _ I E) as E'. pose proof (counted_lt _ I E') as L.
      pose proof (@total_le T (fun a => b2n (is_counted l a)) (regs v) n r L) as H. cbn beta in H. rewrite E' in H. cbn in H. rewrite Nat.eqb_refl in H. exact H.
  Qed.

  Lemma punbox_ok S v hp p x n : inv S v hp [Boxed p] [HBox x] n ->
    exists hp', punbox sz p hp = Some (x, hp') /\ inv S v hp' [] [] n /\ hw wt hp' + wt x = hw wt hp + rw p.
  Proof.
    intros I. destruct p as [y|l].
    - pose proof (i_pend I) as H. inversion H as [|? ? ? ? Ha _]; subst. destruct Ha as [Z ->]. exists hp. split; [auto|]. split; [now apply dangling_in in I|]. cbn. lia.
    - destruct (box_block I) as [Z B]. exists (pfree hp l). cbn. rewrite B, Nat.eqb_refl. split; auto. split; [eapply box_free; eauto|].
      rewrite (hw_pfree wt hp l B). cbn. lia.
  Qed.
  Lemma pdrop_ok S v hp a h n (w : W) : inv S v hp [a] [h] n ->
    exists hp' w' d, pdrop usize_bytes sz tdrop a hp w = Some (hp', w', d) /\ inv S v hp' [] [] n /\ hw wt hp' + dsum d = hw wt hp + dw a /\ msum d = 0 /\ drops_ S h d.
  Proof.
    intros I. pose proof (i_pend I) as H. inversion H as [|? ? ? ? Ha _]; subst. destruct a as [|p|l].
    - destruct h; try contradiction. exists hp, w, []. apply inv_void in I. cbn. sp; auto.
    - destruct h as [|x|]; try contradiction. destruct p as [y|l].
      + destruct Ha as [Z ->]. exists hp, (tdrop x w), [PDrop x]. apply dangling_in in I; auto. cbn. sp; auto.
      + destruct (box_block I) as [Z B]. exists (pfree hp l), (tdrop x w), [PDrop x]. cbn. rewrite B, Nat.eqb_refl.
        sp; auto; [eapply box_free; eauto|]. rewrite (hw_pfree wt hp l B). cbn. lia.
    - destruct (counted_block I) as (x & c & -> & B & Z & C). cbn [pdrop]. unfold pcounted_drop. rewrite B, C. destruct (nc l v [] n) as [|c'] eqn:E.
      + rewrite Nat.eqb_refl. exists (pfree hp l), (tdrop x w), [PDrop x]. rewrite C in B. pose proof (counted_last I B) as I'.
        sp; auto.
        * rewrite (hw_pfree wt hp l B). cbn. lia.
        * left. split; auto. intros r x' Er. assert (1 <= nc l v [] n); [|lia]. apply (counted_some _ I'). eauto.
      + eexists. exists w, []. split; [reflexivity|]. rewrite C in B. assert (inv S v (pput hp l (Block csize (Some x) (Datatypes.S c'))) [] [] n) as I'.
        { eapply counted_less; [exact I|exact B|lia]. }
        sp; auto.
        * pose proof (hw_pput wt hp l (Block csize (Some x) (Datatypes.S c')) B) as X. cbn in X |- *. lia.
        * right. split; auto. apply (counted_some _ I'). lia.
  Qed.

  Lemma drops_conv S S' r h d : (forall r', r' <> r -> vars S' r' = vars S r') -> vars S' r = h ->
    (forall id x x', vars S r = HShared id x -> h = HShared id x' -> exists r' x'', r' <> r /\ vars S r' = HShared id x'') ->
    drops_ S' (vars S r) d -> drops_with S r d.
  Proof.
    intros H1 H2 H3. unfold drops_, drops_with. destruct (vars S r) as [|x|id x] eqn:E; auto. intros [[Hn ->]|[(r' & x' & Hr) ->]].
    - left. split; auto. intros r' x' N. rewrite <- (H1 r' N). apply Hn.
    - right. split; auto. destruct (Nat.eq_dec r' r) as [->|N]; [|rewrite H1 in Hr by auto; eauto].
      rewrite H2 in Hr. destruct (H3 id x x' eq_refl Hr) as (r' & x2 & N & E2). eauto.
  Qed.
  Lemma passign_ok S v hp a h n r (w : W) d0 : inv S v hp [a] [h] n -> r < n ->
    exists hp' w' d, passign usize_bytes sz tdrop v r a hp w d0 = (Ret PUnit, pset_ v r a, hp', w', d0 ++ d) /\
      inv (Owns (upd (vars S) r h) (raw_values S)) (pset_ v r a) hp' [] [] n /\
      tw (pset_ v r a) hp' [] n + dsum d = tw v hp [a] n /\ msum d = 0 /\ drops_ (Owns (upd (vars S) r h) (raw_values S)) (vars S r) d.
  Proof.
    intros I L. pose proof (inv_swap L I) as I2. destruct (pdrop_ok w I2) as (hp' & w' & d & E & I3 & E1 & E2 & E3).
    exists hp', w', d. unfold passign. rewrite E. sp; auto. unfold tw. cbn [regs raws pset_].
    pose proof (@total_upd T dw (regs v) n r a L). cbn [sumw map list_sum]. unfold sumw at 2 4. cbn. lia.
  Qed.

  Definition given (c : pop T) : nat := match c with BoxNew _ t | BoxSet _ t | RcNew _ t | ArcNew _ t => wt t | _ => 0 end.
  Definition back (o : outcome reserve_error (pobs T)) : nat := match o with Ret (PMoved (Some x)) => wt x | _ => 0 end.
  Notation pspec := (pspec alloc isize_max usize_bytes sz tclone).
  Notation pstep := (pstep alloc place isize_max usize_bytes sz tclone tdrop).
  (** the step is as specified and the books balance *)
  Definition fine (c : pop T) S v hp n (z : outcome reserve_error (pobs T) * pvars T * pheap T * W * list (pevent T)) : Prop :=
    let '(o, v', hp', _, d) := z in
    exists S', pspec c S o S' d /\
      (o = Abort \/ o = UB \/ exists n', n <= n' /\ inv S' v' hp' [] [] n' /\ tw v' hp' [] n' + dsum d + back o = tw v hp [] n + given c + msum d).

  Lemma same_refl S : same S S.
  Proof. split; auto. Qed.
  Lemma fine_same c S v hp n o d (w : W) : inv S v hp [] [] n -> pspec c S o S d -> dsum d + back o = given c + msum d -> fine c S v hp n (o, v, hp, w, d).
  Proof. intros I H E. exists S. split; auto. right. right. exists n. sp; auto. lia. Qed.
  Lemma becomes_upd S r h : becomes S r h (Owns (upd (vars S) r h) (raw_values S)).
  Proof. unfold becomes. sp; cbn; [apply upd_same| |auto]. intros r' N. now apply upd_other. Qed.
  Lemma other_upd S r (h : handle T) r' : r' <> r -> upd (vars S) r h r' = vars S r'.
  Proof. apply upd_other. Qed.

  Lemma step_box_new S v hp n r t (w : W) c before : inv S v hp [] [] n ->
    (forall o S' d, new_box alloc isize_max sz before t r S o S' d -> pspec c S o S' d) ->
    dsum before = 0 -> given c + msum before = wt t ->
    fine c S v hp n
      (match pbox_new alloc place isize_max sz tdrop t hp w with
       | (Ret p, hp1, w1, d) => passign usize_bytes sz tdrop v r (Boxed p) hp1 w1 (before ++ d)
       | (o, hp1, w1, d) => (pfail T o, v, hp1, w1, before ++ d)
       end).
  Proof.
    intros I HS D G. apply (inv_grow (Nat.le_max_l n (Datatypes.S r))) in I as I2. set (m := Nat.max n (Datatypes.S r)) in *.
    pose proof (pbox_new_ok t w I2) as B. destruct (pbox_new _ _ _ _ _ _ _ _) as [[[[p|e| | |] hp1] w1] d]; try contradiction.
    - destruct B as (-> & I3 & E). rewrite app_nil_r. destruct (@passign_ok _ _ _ _ _ _ r w1 before I3) as (hp' & w' & d & -> & I4 & E4 & E5 & E6); [unfold m; lia|].
      eexists. split.
      + apply HS. left. split; auto. split; [apply becomes_upd|]. exists d. split; auto. eapply drops_conv; [| | |exact E6]; cbn.
        * intros. now apply upd_other.
        * apply upd_same.
        * discriminate.
      + right. right. exists m. split; [unfold m; lia|]. split; [exact I4|]. unfold dsum, msum in *. rewrite !sumw_app. cbn [back].
        rewrite <- (tw_grow (Nat.le_max_l n (Datatypes.S r)) I). fold m. unfold tw in *. rewrite !sumw_one, ?sumw_nil in *. cbn [dw] in *. lia.
    - destruct B as (B & -> & ->). exists S. split; [apply HS; right; left; exists e; sp; auto using same_refl|]. right. right. exists n. sp; auto.
      unfold dsum, msum in *. rewrite !sumw_app, !sumw_one. cbn [back pfail]. lia.
    - exists S. split; [apply HS; right; right; auto|]. now left.
  Qed.

  (** after an assignment *)
  Lemma fine_assign c S v hp0 hp n m r a h (w : W) d0 : inv S v hp [a] [h] m -> n <= m -> r < m -> inv S v hp0 [] [] n ->
    tw v hp [a] m + dsum d0 = tw v hp0 [] n + given c + msum d0 ->
    (forall d, drops_ (Owns (upd (vars S) r h) (raw_values S)) (vars S r) d ->
       pspec c S (Ret PUnit) (Owns (upd (vars S) r h) (raw_values S)) (d0 ++ d)) ->
    fine c S v hp0 n (passign usize_bytes sz tdrop v r a hp w d0).
  Proof.
    intros I L Lr _ E HS. destruct (@passign_ok _ _ _ _ _ _ r w d0 I Lr) as (hp' & w' & d & -> & I4 & E4 & E5 & E6).
    eexists. split; [apply HS, E6|]. right. right. exists m. split; auto. split; [exact I4|]. unfold dsum, msum in *. rewrite !sumw_app. cbn [back]. lia.
  Qed.
  Lemma drops_fresh S r h d : (forall id x, h <> HShared id x) \/ (exists id x, h = HShared id x /\ forall r' x', vars S r' <> HShared id x') ->
    drops_ (Owns (upd (vars S) r h) (raw_values S)) (vars S r) d -> drops_with S r d.
  Proof.
    intros H. apply drops_conv with (h := h); cbn; [intros; now apply upd_other|apply upd_same|].
    intros id x x' E ->. exfalso. destruct H as [H|(id' & x1 & [= <- <-] & H)]; [eapply H; eauto|eapply H; eauto].
  Qed.

  Lemma step_rc S v hp n r l t (w : W) c hp1 : inv S v hp [] [] n -> inv S v hp1 [] [] (Nat.max n (Datatypes.S r)) -> pget hp1 l = None ->
    (forall d S', new_shared t r S (Ret PUnit) S' d -> pspec c S (Ret PUnit) S' d) -> hw wt hp1 = hw wt hp -> given c = wt t ->
    fine c S v hp n (passign usize_bytes sz tdrop v r (Counted l) ((l, Block csize (Some t) 1) :: hp1) w []).
  Proof.
    intros I I2 F HS Hw G. pose proof (counted_new l t F I2) as I3.
    assert (forall r' x', vars S r' <> HShared l x') as Fr.
    { intros r' x' E. pose proof (i_regs I2 r') as X. rewrite E in X. destruct (regs v r'); cbn in X; try contradiction. destruct X as (-> & k & X). congruence. }
    eapply fine_assign with (m := Nat.max n (Datatypes.S r)); [exact I3|lia|lia|exact I| |].
    - rewrite <- (tw_grow (Nat.le_max_l n (Datatypes.S r)) I). unfold tw. rewrite sumw_one, sumw_nil. unfold dsum, msum. rewrite !sumw_nil. cbn. lia.
    - intros d Hd. apply HS. split; auto. split; [eapply drops_fresh; [|exact Hd]; right; eauto|]. exists l. split; auto. apply becomes_upd.
  Qed.

  Lemma step_ok c S v hp n (w : W) : inv S v hp [] [] n -> fine c S v hp n (pstep c v hp w).
  Proof.
    intros I. destruct c as [r t|r s|r|r t|r|r|i|i r|r t|r t|r s|r]; cbn [PtrModel.pstep].
    - (* BoxNew *)
      apply (@step_box_new S v hp n r t w (BoxNew r t) []); auto; cbn; lia.
    - (* BoxClone *)
      pose proof (i_regs I r) as Hr. destruct (regs v r) as [|p|l] eqn:Er; destruct (vars S r) as [|x|id x] eqn:Es; cbn in Hr; try contradiction.
      + apply fine_same; auto. cbn [PtrSpec.pspec]. rewrite Es. sp; auto using same_refl.
      + assert (pread p hp = Some x) as ->. { destruct p; cbn in *; [destruct Hr; congruence|]. destruct Hr as [_ ->]. reflexivity. }
        destruct (tclone x w) as [u w1] eqn:Ec. destruct u as [y|e| | |].
        * apply (@step_box_new S v hp n s y w1 (BoxClone r s) [PMade y]); auto.
          -- intros o S' d H. cbn [PtrSpec.pspec]. rewrite Es. left. exists w, y, w1. auto.
          -- cbn. lia.
        * apply fine_same; auto. cbn [PtrSpec.pspec]. rewrite Es. right. exists w, (Err e), w1. sp; auto using same_refl. discriminate.
        * apply fine_same; auto. cbn [PtrSpec.pspec]. rewrite Es. right. exists w, Panic, w1. sp; auto using same_refl. discriminate.
        * exists S. split; [|auto]. cbn [PtrSpec.pspec]. rewrite Es. right. exists w, Abort, w1. sp; auto using same_refl. discriminate.
        * exists S. split; [|auto]. cbn [PtrSpec.pspec]. rewrite Es. right. exists w, UB, w1. sp; auto using same_refl. discriminate.
      + apply fine_same; auto. cbn [PtrSpec.pspec]. rewrite Es. sp; auto using same_refl.
    - (* Deref *)
      pose proof (i_regs I r) as Hr. destruct (regs v r) as [|p|l] eqn:Er; destruct (vars S r) as [|x|id x] eqn:Es; cbn in Hr; try contradiction.
      + apply fine_same; auto. cbn [PtrSpec.pspec]. rewrite Es. sp; auto using same_refl.
      + assert (pread p hp = Some x) as ->. { destruct p; cbn in *; [destruct Hr; congruence|]. destruct Hr as [_ ->]. reflexivity. }
        apply fine_same; auto. cbn [PtrSpec.pspec]. rewrite Es. sp; auto using same_refl.
      + destruct Hr as (-> & c & E). cbn [pread]. rewrite E. cbn [pval]. apply fine_same; auto. cbn [PtrSpec.pspec]. rewrite Es. sp; auto using same_refl.
    - (* BoxSet *)
      pose proof (i_regs I r) as Hr. destruct (regs v r) as [|p|l] eqn:Er; destruct (vars S r) as [|x|id x] eqn:Es; cbn in Hr; try contradiction.
      + apply fine_same; auto. cbn [PtrSpec.pspec]. rewrite Es. sp; auto using same_refl.
      + assert (r < n) as L. { destruct (le_lt_dec n r) as [L|L]; auto. rewrite (i_void I L) in Er. discriminate. }
        apply inv_void in I as I1. apply (inv_swap L) in I1. rewrite Er, Es in I1.
        destruct p as [y|l].
        * destruct Hr as [Z ->]. apply dangling_in in I1; auto. apply (dangling_in _ _ _ _ _ _ t Z) in I1. apply (inv_swap L) in I1. cbn [regs vars raw_values pset_ raws] in I1.
          rewrite !upd_same in I1. apply inv_void in I1.
          exists (Owns (upd (vars S) r (HBox t)) (raw_values S)). split.
          -- cbn [PtrSpec.pspec]. rewrite Es. sp; auto. apply becomes_upd.
          -- right. right. exists n. split; auto. split.
             ++ destruct I1 as [H1 H2 H3 H4 H5 H6]. constructor; auto.
                ** intros r'. specialize (H1 r'). cbn in *. unfold upd in *. destruct (r' =? r); auto.
                ** intros r' L'. specialize (H5 r' L'). cbn in *. unfold upd in *. destruct (r' =? r); auto.
                ** intros l. specialize (H6 l). unfold nb, nc in *. cbn [regs raws pset_] in *.
                   rewrite (@total_ext T _ (upd (regs v) r (Boxed (Dangling t))) (upd (upd (regs v) r Void) r (Boxed (Dangling t))) n),
                     (@total_ext T (fun a => b2n (is_counted l a)) (upd (regs v) r (Boxed (Dangling t))) (upd (upd (regs v) r Void) r (Boxed (Dangling t))) n); auto;
                     intros r' _; unfold upd; destruct (r' =? r); auto.
             ++ unfold tw. cbn [regs raws pset_ back given]. pose proof (@total_upd T dw (regs v) n r (Boxed (Dangling t)) L) as X. rewrite Er in X. cbn [dw rw] in X.
                unfold dsum, msum. rewrite !sumw_one. lia.
        * destruct Hr as [Z B]. rewrite B. pose proof (box_write t I1) as I2. apply (inv_swap L) in I2. cbn [regs vars raw_values pset_ raws] in I2.
          rewrite !upd_same in I2. apply inv_void in I2.
          exists (Owns (upd (vars S) r (HBox t)) (raw_values S)). split.
          -- cbn [PtrSpec.pspec]. rewrite Es. sp; auto. apply becomes_upd.
          -- right. right. exists n. split; auto. split.
             ++ assert (forall r', upd (upd (regs v) r Void) r (Boxed (At l)) r' = regs v r') as Q.
                { intros r'. unfold upd. destruct (Nat.eqb_spec r' r); congruence. }
                destruct I2 as [H1 H2 H3 H4 H5 H6]. constructor; auto.
                ** intros r'. specialize (H1 r'). cbn [regs vars pset_] in *. rewrite Q in H1. unfold upd in *. destruct (r' =? r); auto.
                ** intros r' L'. specialize (H5 r' L'). cbn [regs pset_] in H5. now rewrite Q in H5.
                ** intros l'. specialize (H6 l'). unfold nb, nc in *. cbn [regs raws pset_] in *.
                   rewrite (@total_ext T _ (upd (upd (regs v) r Void) r (Boxed (At l))) (regs v) n),
                     (@total_ext T (fun a => b2n (is_counted l' a)) (upd (upd (regs v) r Void) r (Boxed (At l))) (regs v) n) in H6; auto;
                     intros r' _; now rewrite Q.
             ++ unfold tw. cbn [back given]. pose proof (hw_pput wt hp l (Block sz (Some t) 0) B) as X. cbn [bw pval] in X. unfold dsum, msum. rewrite !sumw_one. lia.
      + apply fine_same; auto. cbn [PtrSpec.pspec]. rewrite Es. sp; auto using same_refl.
    - (* Unbox *)
      pose proof (i_regs I r) as Hr. destruct (regs v r) as [|p|l] eqn:Er; destruct (vars S r) as [|x|id x] eqn:Es; cbn in Hr; try contradiction.
      + apply fine_same; auto. cbn [PtrSpec.pspec]. rewrite Es. sp; auto using same_refl.
      + assert (r < n) as L. { destruct (le_lt_dec n r) as [L|L]; auto. rewrite (i_void I L) in Er. discriminate. }
        apply inv_void in I as I1. apply (inv_swap L) in I1. rewrite Er, Es in I1.
        destruct (punbox_ok I1) as (hp' & -> & I2 & E2). eexists. split.
        * cbn [PtrSpec.pspec]. rewrite Es. sp; auto. apply becomes_upd.
        * right. right. exists n. split; auto. split; [exact I2|]. unfold tw. cbn [regs raws pset_ back given].
          pose proof (@total_upd T dw (regs v) n r Void L) as X. rewrite Er in X. cbn [dw] in X. unfold dsum, msum. rewrite !sumw_nil. lia.
      + apply fine_same; auto. cbn [PtrSpec.pspec]. rewrite Es. sp; auto using same_refl.
    - (* IntoRaw *)
      pose proof (i_regs I r) as Hr. destruct (regs v r) as [|p|l] eqn:Er; destruct (vars S r) as [|x|id x] eqn:Es; cbn in Hr; try contradiction.
      + apply fine_same; auto. cbn [PtrSpec.pspec]. rewrite Es. sp; auto using same_refl.
      + assert (r < n) as L. { destruct (le_lt_dec n r) as [L|L]; auto. rewrite (i_void I L) in Er. discriminate. }
        apply inv_void in I as I1. apply (inv_swap L) in I1. rewrite Er, Es in I1.
        exists (Owns (upd (vars S) r HNone) (raw_values S ++ [x])). split.
        * cbn [PtrSpec.pspec]. rewrite Es. cbn. sp; auto; [apply upd_same|intros; now apply upd_other].
        * right. right. exists n. split; auto. split.
          -- destruct I1 as [H1 H2 H3 H4 H5 H6]. inversion H3 as [|? ? ? ? Ha _]; subst. constructor; auto.
             ++ apply Forall2_app; auto.
             ++ intros l. specialize (H6 l). unfold nb, nc in *. cbn [regs raws pset_] in *. rewrite plen_app. rewrite !plen_cons in *. unfold plen in *. cbn in *.
                destruct p as [y|l1]; cbn in *; destruct (pget hp l); lia.
          -- unfold tw. cbn [regs raws back given]. pose proof (@total_upd T dw (regs v) n r Void L) as X. rewrite Er in X. cbn [dw] in X.
             unfold dsum, msum. rewrite sumw_app, sumw_one, !sumw_nil. lia.
      + apply fine_same; auto. cbn [PtrSpec.pspec]. rewrite Es. sp; auto using same_refl.
    - (* RawRead *)
      pose proof (i_raws I) as HR. destruct (nth_error (raws v) i) as [p|] eqn:E.
      + assert (exists x, nth_error (raw_values S) i = Some x /\ stores hp p x) as (x & Ex & Hx).
        { clear - HR E. revert i E. induction HR as [|a b l l' H HR IH]; intros [|i] E; try discriminate; cbn in *; [injection E as <-; eauto|eauto]. }
        assert (pread p hp = Some x) as ->. { destruct p; cbn in *; [destruct Hx; congruence|]. destruct Hx as [_ ->]. reflexivity. }
        apply fine_same; auto. cbn [PtrSpec.pspec]. rewrite Ex. sp; auto using same_refl.
      + assert (nth_error (raw_values S) i = None) as En. { apply nth_error_None. apply nth_error_None in E. now rewrite <- (Forall2_len HR). }
        apply fine_same; auto. cbn [PtrSpec.pspec]. rewrite En. sp; auto using same_refl.
    - (* FromRaw *)
      pose proof (i_raws I) as HR. destruct (nth_error (raws v) i) as [p|] eqn:E.
      + destruct (nth_error_split _ _ E) as (l1 & l2 & El & Ln). rewrite El in HR. apply Forall2_app_inv_l in HR as (x1 & x2' & HR1 & HR2 & Ex).
        inversion HR2 as [|? x ? x2 Hx HR3]; subst x2'. pose proof (Forall2_len HR1) as Ln'.
        assert (firstn i (raws v) = l1 /\ skipn (Datatypes.S i) (raws v) = l2) as [-> ->].
        { rewrite El, <- Ln. split; [rewrite firstn_app, Nat.sub_diag, firstn_all, app_nil_r; auto|].
          replace (Datatypes.S (length l1)) with (length (l1 ++ [p])) by (rewrite app_length; cbn; lia).
          change (p :: l2) with ([p] ++ l2). rewrite app_assoc, skipn_app, skipn_all, Nat.sub_diag. reflexivity. }
        assert (nth_error (raw_values S) i = Some x /\ firstn i (raw_values S) = x1 /\ skipn (Datatypes.S i) (raw_values S) = x2) as (Ei & Ef & Ek).
        { rewrite Ex, <- Ln, Ln'. split; [rewrite nth_error_app2, Nat.sub_diag; auto|]. split; [rewrite firstn_app, Nat.sub_diag, firstn_all, app_nil_r; auto|].
          replace (Datatypes.S (length x1)) with (length (x1 ++ [x])) by (rewrite app_length; cbn; lia).
          change (x :: x2) with ([x] ++ x2). rewrite app_assoc, skipn_app, skipn_all, Nat.sub_diag. reflexivity. }
        apply (inv_grow (Nat.le_max_l n (Datatypes.S r))) in I as I2. set (m := Nat.max n (Datatypes.S r)) in *.
        assert (inv (Owns (vars S) (x1 ++ x2)) (PVars (regs v) (l1 ++ l2)) hp [Boxed p] [HBox x] m) as I3.
        { destruct I2 as [H1 H2 H3 H4 H5 H6]. constructor; auto; [apply Forall2_app; auto|]. intros q. specialize (H6 q). unfold nb, nc in *. cbn [regs raws] in *.
          rewrite El in H6. rewrite plen_app, !plen_cons in *. unfold plen in *. destruct p as [y0|l0]; cbn in *; destruct (pget hp q); lia. }
        destruct (@passign_ok _ _ _ _ _ _ r w [] I3) as (hp' & w' & d & -> & I4 & E4 & E5 & E6); [unfold m; lia|].
        assert (drops_with (Owns (vars S) (x1 ++ x2)) r d) as Dw. { apply (@drops_fresh (Owns (vars S) (x1 ++ x2)) r (HBox x) d); [|exact E6]. left. intros. discriminate. }
        exists (Owns (upd (vars S) r (HBox x)) (x1 ++ x2)). split.
        * cbn [PtrSpec.pspec]. rewrite Ei. split; auto. split; [exact Dw|].
          cbn [vars raw_values]. split; [apply upd_same|]. split; [intros; now apply upd_other|]. now rewrite Ef, Ek.
        * right. right. exists m. split; [unfold m; lia|]. split; [exact I4|]. cbn [back given app].
          rewrite <- (tw_grow (Nat.le_max_l n (Datatypes.S r)) I). fold m. unfold tw in *. cbn [regs raws pset_] in *. rewrite El. rewrite !sumw_app in *.
          change (p :: l2) with ([p] ++ l2). rewrite sumw_app, !sumw_one, !sumw_nil in *. cbn [dw] in *. lia.
      + assert (nth_error (raw_values S) i = None) as En. { apply nth_error_None. apply nth_error_None in E. now rewrite <- (Forall2_len HR). }
        apply fine_same; auto. cbn [PtrSpec.pspec]. rewrite En. sp; auto using same_refl.
    - (* RcNew *)
      unfold prc_new. apply (inv_grow (Nat.le_max_l n (Datatypes.S r))) in I as I2.
      pose proof (pbox_new_ok t w I2) as B. destruct (pbox_new _ _ _ _ _ _ _ _) as [[[[p|e| | |] hp1] w1] d]; try contradiction.
      + destruct B as (-> & I3 & E). destruct (alloc csize w1) as [[extra|e] w2] eqn:Ea.
        * pose proof (place_fresh hp1 w2) as F. set (l := place hp1 w2) in *. destruct p as [y|l1].
          -- cbn [punbox pput]. rewrite Nat.eqb_refl. pose proof (i_pend I3) as H. inversion H as [|? ? ? ? Ha _]; subst. destruct Ha as [Z ->].
             apply dangling_in in I3; auto. eapply step_rc; eauto; [|cbn in E; lia]. intros d S' H'. cbn [PtrSpec.pspec]. auto.
          -- destruct (box_block I3) as [Z B]. pose proof (box_free I3) as I4. assert (l1 <> l) as N by congruence.
             cbn [punbox pget]. apply Nat.eqb_neq in N as N1. rewrite N1, B, Nat.eqb_refl. cbn [pfree]. rewrite N1. cbn [pput]. rewrite Nat.eqb_refl.
             eapply step_rc; eauto.
             ++ rewrite pget_pfree_other; auto.
             ++ intros d S' H'. cbn [PtrSpec.pspec]. auto.
             ++ pose proof (hw_pfree wt hp1 l1 B) as X. cbn in X, E. lia.
        * exists S. split; [|auto]. cbn [PtrSpec.pspec]. right. right. split; auto. right. exists w1, e. unfold counted_size in Ea. now rewrite Ea.
      + destruct B as (B & -> & ->). apply fine_same; auto. cbn [PtrSpec.pspec]. right. left. exists e. sp; auto using same_refl.
      + exists S. split; [|auto]. cbn [PtrSpec.pspec]. auto.
    - (* ArcNew *)
      unfold parc_new. apply (inv_grow (Nat.le_max_l n (Datatypes.S r))) in I as I2. destruct (alloc csize w) as [[extra|e] w1] eqn:Ea.
      + eapply step_rc; eauto. intros d S' H'. cbn [PtrSpec.pspec]. auto.
      + apply fine_same; auto. cbn [PtrSpec.pspec]. right. sp; auto using same_refl.
        exists w, e. unfold counted_size in Ea. now rewrite Ea.
    - (* CountedClone *)
      pose proof (i_regs I r) as Hr. destruct (regs v r) as [|p|l] eqn:Er; destruct (vars S r) as [|x|id x] eqn:Es; cbn in Hr; try contradiction.
      + apply fine_same; auto. cbn [PtrSpec.pspec]. rewrite Es. sp; auto using same_refl.
      + apply fine_same; auto. cbn [PtrSpec.pspec]. rewrite Es. sp; auto using same_refl.
      + destruct Hr as (-> & c & E). change (sz + (usize_bytes + (usize_bytes + 0))) with csize in E. unfold pcounted_clone. rewrite E.
        assert (1 <= nc l v [] n) as N by (apply (counted_some _ I); eauto).
        destruct (Nat.ltb_spec isize_max c) as [Lc|Lc].
        * exists S. split; [|auto]. cbn [PtrSpec.pspec]. rewrite Es. right. right. split; auto.
          exists (filter (fun r0 => is_counted l (regs v r0)) (seq 0 n)). split; [apply NoDup_filter, seq_NoDup|]. split.
          -- pose proof (i_count I l) as X. rewrite E in X. cbn [pcount] in X. pose proof (refs_total (is_counted l) (regs v) n) as R. unfold refs in R. rewrite R.
             unfold nc, plen in *. cbn in *. lia.
          -- intros r' Hi. apply filter_In in Hi as [_ Hi]. eapply counted_shared; eauto. destruct (regs v r'); cbn in Hi; try discriminate. apply Nat.eqb_eq in Hi. congruence.
        * apply (inv_grow (Nat.le_max_l n (Datatypes.S s))) in I as I2. set (m := Nat.max n (Datatypes.S s)) in *.
          assert (1 <= nc l v [] m) as N' by (apply (counted_some _ I2); eauto).
          pose proof (counted_more l I2 E N') as I3. eapply fine_assign with (m := m); [exact I3|unfold m; lia|unfold m; lia|exact I| |].
          -- rewrite <- (tw_grow (Nat.le_max_l n (Datatypes.S s)) I). fold m. unfold tw. rewrite sumw_one, sumw_nil. cbn [dw given]. unfold dsum, msum. rewrite !sumw_nil.
             pose proof (hw_pput wt hp l (Block csize (Some x) (Datatypes.S c)) E) as X. cbn [bw pval] in X. lia.
          -- intros d Hd. cbn [PtrSpec.pspec app]. rewrite Es. destruct (Nat.eq_dec r s) as [->|Nrs].
             ++ right. left. rewrite Es in Hd. destruct Hd as [[Hn _]|[_ ->]]; [exfalso; apply (Hn s x); cbn; apply upd_same|]. sp; auto.
                split; auto. cbn. intros r'. unfold upd. destruct (Nat.eqb_spec r' s); congruence.
             ++ left. sp; auto; [|apply becomes_upd]. eapply drops_conv; [| | |exact Hd]; cbn; [intros; now apply upd_other|apply upd_same|].
                intros id y y' Ey [= <- <-]. eauto.
    - (* Release *)
      apply (inv_grow (Nat.le_max_l n (Datatypes.S r))) in I as I2. apply inv_void in I2 as I3.
      eapply fine_assign with (m := Nat.max n (Datatypes.S r)); [exact I3|lia|lia|exact I| |].
      + rewrite <- (tw_grow (Nat.le_max_l n (Datatypes.S r)) I). unfold tw. rewrite sumw_one, sumw_nil. unfold dsum, msum. rewrite !sumw_nil. cbn. lia.
      + intros d Hd. cbn [PtrSpec.pspec app]. split; auto. split; [|apply becomes_upd]. eapply drops_fresh; [|exact Hd]. left. discriminate.
  Qed.
End Ptr.
