(** * Properties_Ptr: C52

    Programs over Box/TryBox, raw pointers made from them, Rc and Arc on memory
    blocks ([PtrModel]).  [PtrSpec.pspec] says what each call does, about values
    in boxes and shared values; [PtrSpec.pmemory] which blocks are behind them. *)
From Coq Require Import List Arith Lia Bool Permutation.
Import ListNotations.
From Verif Require Import Base VecModel VecConserve PtrModel PtrSpec PtrProofs PtrSteps.
Set Implicit Arguments.

Section PtrPrograms.
  Variables (T W : Type) (alloc : nat -> W -> answer * W) (place : pheap T -> W -> nat).
  Variables (isize_max usize_bytes sz : nat) (tclone : T -> W -> outcome reserve_error T * W) (tdrop : T -> W -> W).
  Notation prun := (prun alloc place isize_max usize_bytes sz tclone tdrop).
  Notation pstep := (pstep alloc place isize_max usize_bytes sz tclone tdrop).
  Notation pspec := (pspec alloc isize_max usize_bytes sz tclone).
  Notation pagrees := (pagrees alloc isize_max usize_bytes sz tclone).
  Notation pmemory := (pmemory usize_bytes sz).
  Notation inv := (inv usize_bytes sz).
  Definition owns_nothing : owns T := Owns (fun _ => HNone) [].

  Lemma start_inv : inv owns_nothing (pstart T) [] [] [] 0.
  Proof. constructor; cbn; auto; try constructor; intros; exact I. Qed.

  (** ** C52: every program, whatever the allocator answers and wherever it puts blocks *)
  Theorem C52_history : (forall hp w, pget hp (place hp w) = None) ->
    forall ops w, pagrees owns_nothing ops (prun ops (pstart T) [] w).
  Proof.
    intros PF ops w. pose proof start_inv as I. revert I. generalize owns_nothing (pstart T) (@nil (nat * block T)) 0. revert w.
    induction ops as [|c ops IH]; intros w S v hp n I; cbn [PtrModel.prun]; [constructor|].
    pose proof (@step_ok _ _ alloc place isize_max usize_bytes sz tclone tdrop (fun _ => 0) PF c S v hp n w I) as F.
    destruct (pstep c v hp w) as [[[[o v'] hp'] w'] d]. destruct F as (S' & HS & F).
    destruct F as [-> |[-> |(n' & _ & I' & _)]]; [eapply PA_dead; eauto|eapply PA_dead; eauto|].
    destruct o; try (eapply PA_dead; [exact HS|auto]; fail); (eapply PA_step; [exact HS|apply inv_memory; eauto|discriminate|discriminate|]; eapply IH; eauto).
  Qed.

  (** ** The books *)
  (** values handed to a call, made by it, dropped by it, moved out of it *)
  Definition handed_in (c : pop T) : list T := match c with BoxNew _ t | BoxSet _ t | RcNew _ t | ArcNew _ t => [t] | _ => [] end.
  Definition made (d : list (pevent T)) : list T := flat_map (fun e => match e with PMade x => [x] | PDrop _ => [] end) d.
  Definition dropped (d : list (pevent T)) : list T := flat_map (fun e => match e with PDrop x => [x] | PMade _ => [] end) d.
  Definition moved_out (o : outcome reserve_error (pobs T)) : list T := match o with Ret (PMoved (Some x)) => [x] | _ => [] end.
  (** the calls name only variables below [n] *)
  Definition within (n : nat) (c : pop T) : Prop :=
    match c with
    | BoxNew r _ | Deref_ r | BoxSet r _ | Unbox r | IntoRaw r | FromRaw _ r | RcNew r _ | ArcNew r _ | Release r => r < n
    | BoxClone r s | CountedClone r s => r < n /\ s < n
    | RawRead _ => True
    end.
  Notation step_result := (outcome reserve_error (pobs T) * pvars T * pheap T * list (pevent T))%type.
  (** the program ran to its end *)
  Definition survived (x : step_result) : Prop := let '(o, _, _, _) := x in o <> Abort /\ o <> UB.

  Lemma last_any A (x : A) l d d' : last (x :: l) d = last (x :: l) d'.
  Proof. revert x; induction l as [|y l IH]; intros x; [reflexivity|]. apply (IH y). Qed.
  (** the variables and the memory after the last step *)
  Definition final (tr : list step_result) : pvars T * pheap T := last (map (fun x => let '(_, v, hp, _) := x in (v, hp)) tr) (pstart T, []).
  (** the values and the addresses behind the raw pointers that were not turned back *)
  Definition left_raw (v : pvars T) (hp : pheap T) : list T := flat_map (fun p => match pread p hp with Some x => [x] | None => [] end) (raws v).
  Definition raw_blocks (v : pvars T) : list nat := flat_map (fun p => match p with At l => [l] | Dangling _ => [] end) (raws v).

  Section Books.
    Variable wt : T -> nat.
    Notation tw := (tw wt).
    Lemma dsum_weigh d : dsum wt d = weigh wt (dropped d).
    Proof. unfold dsum, sumw, weigh. induction d as [|[x|x] d IH]; cbn in *; auto. Qed.
    Lemma msum_weigh d : msum wt d = weigh wt (made d).
    Proof. unfold msum, sumw, weigh. induction d as [|[x|x] d IH]; cbn in *; auto. Qed.
    Lemma run_books (PF : forall hp w, pget hp (place hp w) = None) ops : forall w S v hp n, inv S v hp [] [] n ->
      let tr := prun ops v hp w in Forall survived tr ->
      exists S' v' hp' n', length tr = length ops /\ inv S' v' hp' [] [] n' /\ n <= n' /\
        (v', hp') = last (map (fun x => let '(_, v1, hp1, _) := x in (v1, hp1)) tr) (v, hp) /\
        (forall m, Forall (within m) ops -> (forall r, m <= r -> vars S r = HNone) -> forall r, m <= r -> vars S' r = HNone) /\
        tw v' hp' [] n' + weigh wt (flat_map (fun x => dropped (snd x)) tr) + weigh wt (flat_map (fun x => moved_out (fst (fst (fst x)))) tr) =
        tw v hp [] n + weigh wt (flat_map handed_in ops) + weigh wt (flat_map (fun x => made (snd x)) tr).
    Proof.
      induction ops as [|c ops IH]; intros w S v hp n I tr HF.
      - exists S, v, hp, n. cbn in *. sp; auto.
      - cbn [PtrModel.prun] in tr. pose proof (@step_ok _ _ alloc place isize_max usize_bytes sz tclone tdrop wt PF c S v hp n w I) as F.
        destruct (pstep c v hp w) as [[[[o v1] hp1] w1] d]. destruct F as (S1 & HS & F).
        unfold tr in HF. inversion HF as [|? ? Hsv HF']; subst. cbn in Hsv. destruct Hsv as [Ha Hu].
        destruct F as [-> |[-> |(n1 & L1 & I1 & E1)]]; [congruence|congruence|].
        assert (tr = (o, v1, hp1, d) :: prun ops v1 hp1 w1) as -> by (unfold tr; destruct o; congruence).
        assert (Forall survived (prun ops v1 hp1 w1)) as HF1 by (destruct o; try congruence; auto).
        destruct (IH w1 S1 v1 hp1 n1 I1 HF1) as (S' & v' & hp' & n' & EL & I' & L' & EV & HV & EB).
        exists S', v', hp', n'. cbn [length map flat_map snd fst]. rewrite EL. sp; auto; [lia| | |].
        + rewrite EV. destruct (prun ops v1 hp1 w1) as [|x l]; auto. cbn [map]. change (last (?a :: ?b :: ?l) ?d) with (last (b :: l) d). apply last_any.
        + intros m Hm HN. inversion Hm as [|? ? Hc Hm']; subst. apply HV; auto. clear - HS HN Hc Ha.
          intros r Hr. specialize (HN r Hr).
          assert (forall r0 h S2, becomes S r0 h S2 -> r0 < m -> vars S2 r = HNone) as HB.
          { intros r0 h S2 (_ & X & _) L. rewrite X; auto. lia. }
          assert (forall S2, same S S2 -> vars S2 r = HNone) as Hsame by (intros S2 [X _]; now rewrite X).
          assert (forall t r0 o S2 d, new_shared t r0 S o S2 d -> r0 < m -> vars S2 r = HNone) as Hsh.
          { intros t r0 o2 S2 d2 (_ & _ & id & _ & X) L. eauto. }
          assert (forall b t r0 o S2 d, new_box alloc isize_max sz b t r0 S o S2 d -> r0 < m -> o <> Abort -> vars S2 r = HNone) as Hnb.
          { intros b t r0 o2 S2 d2 [(_ & X & _)|[(e & _ & _ & X & _)|[X _]]] L NA; eauto. congruence. }
          destruct c as [r0 t|r0 s|r0|r0 t|r0|r0|i|i r0|r0 t|r0 t|r0 s|r0]; cbn [PtrSpec.pspec within] in *.
          * eauto.
          * destruct (vars S r0); [destruct HS as (_ & X & _); auto| |destruct HS as (_ & X & _); auto].
            destruct HS as [(w0 & y & w2 & _ & X)|(w0 & u & w2 & _ & _ & _ & X & _)]; [eapply Hnb; eauto; apply Hc|auto].
          * destruct HS as (_ & X & _). auto.
          * destruct (vars S r0); destruct HS as (_ & X & _); eauto.
          * destruct (vars S r0); destruct HS as (_ & X & _); eauto.
          * destruct (vars S r0); [destruct HS as (_ & X & _); auto| |destruct HS as (_ & X & _); auto]. destruct HS as (_ & _ & X & _). rewrite X; auto. lia.
          * destruct HS as (_ & X & _). auto.
          * destruct (nth_error _ _); [|destruct HS as (_ & X & _); auto]. destruct HS as (_ & _ & _ & X & _). rewrite X; auto. lia.
          * destruct HS as [X|[(e & _ & _ & X & _)|[X _]]]; eauto. congruence.
          * destruct HS as [X|(_ & _ & X & _)]; eauto.
          * destruct (vars S r0); [destruct HS as (_ & X & _); auto|destruct HS as (_ & X & _); auto|].
            destruct HS as [(_ & _ & X & _)|[(_ & _ & _ & X)|[X _]]]; [eapply HB; eauto; apply Hc|auto|congruence].
          * destruct HS as (_ & _ & X). eauto.
        + rewrite !weigh_app, <- dsum_weigh, <- msum_weigh.
          assert (given wt c = weigh wt (handed_in c)) as G by (destruct c; cbn; lia).
          assert (back wt o = weigh wt (moved_out o)) as B by (destruct o as [[| |[x|]]| | | |]; cbn; lia).
          rewrite <- G, <- B. lia.
    Qed.

    Lemma raw_out (f : nat -> handle T) x xs g p ps hp n : inv (Owns f (x :: xs)) (PVars g (p :: ps)) hp [] [] n ->
      inv (Owns f xs) (PVars g ps) hp [Boxed p] [HBox x] n.
    Proof.
      intros [H1 H2 H3 H4 H5 H6]. cbn in *. inversion H2; subst. constructor; cbn; auto.
      intros l. specialize (H6 l). unfold nb, nc in *. cbn [regs raws] in *. rewrite !plen_cons in *.
      assert (b2n (is_box l (Boxed p)) = b2n (is_raw l p)) as E by (destruct p; reflexivity). rewrite E.
      assert (b2n (is_counted l (Boxed p)) = 0) as E' by reflexivity. rewrite E'.
      change (plen (is_box l) []) with 0 in *. change (plen (is_counted l) []) with 0 in *.
      destruct (pget hp l); lia.
    Qed.
    Lemma all_raw g ps : forall f xs hp n, inv (Owns f xs) (PVars g ps) hp [] [] n -> (forall r, g r = Void) ->
      hw wt hp + sumw (rw wt) ps = weigh wt xs /\ Permutation (map fst hp) (raw_blocks (PVars g ps)).
    Proof.
      induction ps as [|p ps IH]; intros f xs hp n I HV.
      - pose proof (i_raws I) as F. cbn in F. inversion F; subst.
        destruct hp as [|[l b] hp]; [split; [reflexivity|constructor]|].
        exfalso. pose proof (i_count I l) as C. cbn in C. rewrite Nat.eqb_refl in C.
        assert (forall h, h Void = 0 -> total h g n = 0) as T0.
        { intros h Hh. clear - HV Hh. induction n; cbn; auto. rewrite HV. lia. }
        unfold nb, nc, plen in C. cbn [regs raws filter length] in C. rewrite !T0 in C by reflexivity. lia.
      - pose proof (i_raws I) as F. cbn in F. inversion F as [|? x ? xs' Hs Hr]; subst.
        pose proof (raw_out I) as I1. destruct p as [y|l]; cbn in Hs.
        + destruct Hs as [Z ->]. apply dangling_in in I1; [|exact Z]. destruct (IH _ _ _ _ I1 HV) as [E P].
          split; [|exact P]. rewrite weigh_cons. change (sumw (rw wt) (Dangling x :: ps)) with (wt x + sumw (rw wt) ps). lia.
        + destruct Hs as [Z G]. pose proof (box_free I1) as I2. destruct (IH _ _ _ _ I2 HV) as [E P].
          split.
          * rewrite (hw_pfree wt _ _ G), weigh_cons. change (sumw (rw wt) (At l :: ps)) with (sumw (rw wt) ps). change (bw wt (Block sz (Some x) 0)) with (wt x). lia.
          * cbn. etransitivity; [|apply perm_skip; exact P]. clear - G. induction hp as [|[l' b] hp IH]; [discriminate|].
            cbn in *. destruct (Nat.eqb_spec l l') as [Q|N]; [subst l'; reflexivity|]. cbn. etransitivity; [apply perm_skip; apply IH; auto|]. apply perm_swap.
    Qed.
  End Books.

  Lemma prun_app a b : forall v hp w, Forall survived (prun (a ++ b) v hp w) ->
    exists v1 hp1 w1, prun (a ++ b) v hp w = prun a v hp w ++ prun b v1 hp1 w1 /\
      (v1, hp1) = last (map (fun x => let '(_, v2, hp2, _) := x in (v2, hp2)) (prun a v hp w)) (v, hp).
  Proof.
    induction a as [|c a IH]; intros v hp w HF; cbn [app PtrModel.prun] in *.
    - exists v, hp, w. split; reflexivity.
    - destruct (pstep c v hp w) as [[[[o v1] hp1] w1] d].
      inversion HF as [|? ? Hsv HF']; subst. cbn in Hsv. destruct Hsv as [Ha Hu].
      assert (Forall survived (prun (a ++ b) v1 hp1 w1)) as HF1 by (destruct o; try congruence; auto).
      destruct (IH _ _ _ HF1) as (v2 & hp2 & w2 & E & EL). exists v2, hp2, w2.
      assert (forall l, match o with Abort | UB => [] | _ => l end = l :> list step_result) as M by (intros; destruct o; congruence).
      rewrite !M, E. split; [reflexivity|]. rewrite EL. cbn [map].
      destruct (prun a v1 hp1 w1) as [|x l]; auto. cbn [map]. change (last (?a :: ?b :: ?l) ?d) with (last (b :: l) d). apply last_any.
  Qed.
  Lemma releases (PF : forall hp w, pget hp (place hp w) = None) l : forall v hp w S n, inv S v hp [] [] n -> Forall survived (prun (map Release l) v hp w) ->
    exists S' v' hp' n', inv S' v' hp' [] [] n' /\
      (v', hp') = last (map (fun x => let '(_, v2, hp2, _) := x in (v2, hp2)) (prun (map Release l) v hp w)) (v, hp) /\
      forall r, In r l \/ vars S r = HNone -> vars S' r = HNone.
  Proof.
    induction l as [|r0 l IH]; intros v hp w S n I HF; cbn [map PtrModel.prun] in *.
    - exists S, v, hp, n. sp; auto. intros r [[]|]; auto.
    - pose proof (@step_ok _ _ alloc place isize_max usize_bytes sz tclone tdrop (fun _ => 0) PF (Release r0) S v hp n w I) as F.
      destruct (pstep (Release r0) v hp w) as [[[[o v1] hp1] w1] d]. destruct F as (S1 & HS & F).
      inversion HF as [|? ? Hsv HF']; subst. cbn in Hsv. destruct Hsv as [Ha Hu].
      destruct F as [-> |[-> |(n1 & L1 & I1 & E1)]]; [congruence|congruence|].
      cbn in HS. destruct HS as (-> & _ & HB & HB' & _).
      destruct (IH _ _ _ _ _ I1 HF') as (S' & v' & hp' & n' & I' & EL & HV). exists S', v', hp', n'. sp; auto.
      + rewrite EL. cbn [map]. destruct (prun (map Release l) v1 hp1 w1) as [|x l0]; auto. cbn [map]. change (last (?a :: ?b :: ?l) ?d) with (last (b :: l) d). apply last_any.
      + intros r Hr. apply HV. destruct (Nat.eq_dec r r0) as [Q|N]; [subst r; auto|].
        destruct Hr as [[Q|Hr]|Hr]; [congruence|auto|right; rewrite HB'; auto].
  Qed.
  Lemma left_values v hp S n : inv S v hp [] [] n -> left_raw v hp = raw_values S.
  Proof.
    intros I. pose proof (i_raws I) as F. unfold left_raw. induction F as [|p x ps xs Hs F IH]; [reflexivity|]. cbn [flat_map].
    rewrite IH. destruct p as [y|l]; cbn in *; [destruct Hs as [_ ->]; reflexivity|]. destruct Hs as [_ ->]. reflexivity.
  Qed.

  (** A program that ends by dropping its variables: every value it handed in or
      made by cloning was dropped once, was moved out once, or is behind one of the
      raw pointers the program kept; and the blocks left are those behind these
      pointers, no others *)
  Theorem C52_balance : (forall hp w, pget hp (place hp w) = None) -> (forall x y : T, {x = y} + {x <> y}) ->
    forall n ops w, Forall (within n) ops ->
    let tr := prun (ops ++ map Release (seq 0 n)) (pstart T) [] w in
    Forall survived tr ->
    let '(v, hp) := final tr in
    Permutation (flat_map handed_in ops ++ flat_map (fun x => made (snd x)) tr)
      (flat_map (fun x => dropped (snd x)) tr ++ flat_map (fun x => moved_out (fst (fst (fst x)))) tr ++ left_raw v hp) /\
    Permutation (map fst hp) (raw_blocks v).
  Proof.
    intros PF dec n ops w Hn tr HF. destruct (final tr) as [v hp] eqn:EF.
    assert (forall wt, weigh wt (flat_map handed_in ops ++ flat_map (fun x => made (snd x)) tr) =
      weigh wt (flat_map (fun x => dropped (snd x)) tr ++ flat_map (fun x => moved_out (fst (fst (fst x)))) tr ++ left_raw v hp) /\
      Permutation (map fst hp) (raw_blocks v)) as Main.
    { intros wt.
      destruct (run_books wt PF (ops ++ map Release (seq 0 n)) w start_inv HF) as (S' & v' & hp' & n' & _ & I' & _ & EV & _ & EB).
      unfold final in EF. cbv zeta in EV, EB. fold tr in EV, EB. assert ((v', hp') = (v, hp)) as EV' by (rewrite EV; exact EF). inversion EV'; subst v' hp'.
      destruct (prun_app ops _ _ _ _ HF) as (v1 & hp1 & w1 & E1 & EL1).
      assert (Forall survived (prun ops (pstart T) [] w) /\ Forall survived (prun (map Release (seq 0 n)) v1 hp1 w1)) as [F1 F2].
      { fold tr in E1. rewrite E1 in HF. apply Forall_app in HF. exact HF. }
      destruct (run_books wt PF ops w start_inv F1) as (S1 & v1' & hp1' & n1 & _ & I1 & _ & EV1 & HV1 & _).
      rewrite <- EL1 in EV1. inversion EV1; subst v1' hp1'.
      destruct (releases PF (seq 0 n) w1 I1 F2) as (S2 & v2 & hp2 & n2 & I2 & EL2 & HV2).
      assert (v2 = v /\ hp2 = hp) as [-> ->].
      { fold tr in E1. rewrite E1, map_app in EF. clear - EL1 EL2 EF.
        destruct (prun (map Release (seq 0 n)) v1 hp1 w1) as [|x l]; cbn [map] in *.
        - rewrite app_nil_r in EF. cbn in EL2. assert ((v2, hp2) = (v, hp)) as X by (rewrite EL2, EL1; exact EF). inversion X; auto.
        - assert (forall A (a : list A) x l d d', last (a ++ x :: l) d = last (x :: l) d') as LA.
          { intros A a y l0 d d'. induction a as [|z a IH]; [apply last_any|]. cbn [app]. rewrite <- IH. destruct a; reflexivity. }
          rewrite (LA _ _ _ _ _ (v1, hp1)) in EF. assert ((v2, hp2) = (v, hp)) as X by (rewrite EL2; exact EF). inversion X; auto. }
      assert (forall r, vars S2 r = HNone) as HN.
      { intros r. apply HV2. destruct (le_lt_dec n r) as [L|L]; [right; apply (HV1 n); auto|left; apply in_seq; lia]. }
      assert (forall r, regs v r = Void) as HVd.
      { intros r. pose proof (i_regs I2 r) as Hr. rewrite HN in Hr. cbn in Hr. destruct (regs v r); auto; contradiction. }
      destruct v as [g ps]. destruct S2 as [f xs]. destruct (all_raw wt I2 HVd) as [EW P].
      split; [|exact P]. rewrite (left_values I2). cbn [raw_values]. rewrite !weigh_app.
      assert (flat_map handed_in (ops ++ map Release (seq 0 n)) = flat_map handed_in ops) as EH.
      { rewrite flat_map_app. assert (flat_map handed_in (map Release (seq 0 n)) = []) as -> by (generalize (seq 0 n); clear; intros l; induction l; cbn; auto). apply app_nil_r. }
      rewrite EH in EB. unfold PtrSteps.tw in EB. cbn [raws regs] in EB.
      assert (total (dw wt) g n' = 0) as T0. { cbn in HVd. clear - HVd. induction n' as [|m IH]; cbn; auto. rewrite HVd. cbn. lia. }
      rewrite T0 in EB. cbn in EB. unfold sumw in *. cbn [map list_sum fold_right] in EB. lia. }
    split; [|apply (Main (fun _ => 0))].
    apply weigh_permutation; auto. intros wt. apply Main.
  Qed.

  (** ** With memory, no call fails *)
  Lemma spec_returns c S o S' d L :
    (forall n w, exists extra, fst (alloc n w) = Grant extra) -> sz <= isize_max -> (forall x w, exists y, fst (tclone x w) = Ret y) ->
    (forall r, vars S r <> HNone -> In r L) -> length L <= isize_max -> pspec c S o S' d ->
    (exists x, o = Ret x) /\ exists r0, forall r, vars S' r <> HNone -> In r (r0 :: L).
  Proof.
    intros HA HZ HC HL HN HS.
    assert (forall n w e, fst (alloc n w) = Refuse e -> False) as NR by (intros n w e E; destruct (HA n w) as [x X]; congruence).
    assert (forall e, ~ box_refused alloc isize_max sz e) as NB by (intros e [_ [[X _]|[w X]]]; [lia|eauto]).
    assert (~ shrink_refused alloc sz) as NS by (intros (_ & _ & w & e & X); eauto).
    assert (~ counted_refused alloc usize_bytes sz) as NC by (intros (w & e & X); eauto).
    assert (forall S2, same S S2 -> forall r0 r, vars S2 r <> HNone -> In r (r0 :: L)) as Hsame.
    { intros S2 [X _] r0 r Hr. rewrite X in Hr. right; auto. }
    assert (forall r0 S2, (forall r', r' <> r0 -> vars S2 r' = vars S r') -> forall r, vars S2 r <> HNone -> In r (r0 :: L)) as Hbut.
    { intros r0 S2 X r Hr. destruct (Nat.eq_dec r r0) as [Q|N]; [left; auto|]. rewrite (X _ N) in Hr. right; auto. }
    assert (forall b t r0 o2 S2 d2, new_box alloc isize_max sz b t r0 S o2 S2 d2 -> (exists x, o2 = Ret x) /\ exists r0, forall r, vars S2 r <> HNone -> In r (r0 :: L)) as Hnb.
    { intros b t r0 o2 S2 d2 [(X & (_ & Y & _) & _)|[(e & _ & X & _)|[_ X]]]; [split; [eauto|exists r0; eauto]|exfalso; eapply NB; eauto|contradiction]. }
    assert (forall t r0 o2 S2 d2, new_shared t r0 S o2 S2 d2 -> (exists x, o2 = Ret x) /\ exists r0, forall r, vars S2 r <> HNone -> In r (r0 :: L)) as Hns.
    { intros t r0 o2 S2 d2 (X & _ & id & _ & (_ & Y & _)). split; [eauto|exists r0; eauto]. }
    assert (forall (o2 : outcome reserve_error (pobs T)) x S2, o2 = Ret x -> same S S2 -> (exists x, o2 = Ret x) /\ exists r0, forall r, vars S2 r <> HNone -> In r (r0 :: L)) as Hret.
    { intros o2 x S2 -> X. split; [eauto|exists 0; eauto]. }
    assert (forall (o2 : outcome reserve_error (pobs T)) x r0 h S2, o2 = Ret x -> becomes S r0 h S2 -> (exists x, o2 = Ret x) /\ exists r0, forall r, vars S2 r <> HNone -> In r (r0 :: L)) as Hbec.
    { intros o2 x r0 h S2 -> (_ & X & _). split; [eauto|exists r0; eauto]. }
    destruct c as [r0 t|r0 s|r0|r0 t|r0|r0|i|i r0|r0 t|r0 t|r0 s|r0]; cbn [PtrSpec.pspec] in HS.
    - eauto.
    - destruct (vars S r0) as [|x|id x]; [destruct HS as (X & Y & _); eauto| |destruct HS as (X & Y & _); eauto].
      destruct HS as [(w0 & y & w2 & _ & X)|(w0 & u & w2 & X & N & _)]; [eauto|].
      destruct (HC x w0) as [y Y]. rewrite X in Y. cbn in Y. exfalso; eapply N; eauto.
    - destruct HS as (X & Y & _). eauto.
    - destruct (vars S r0); destruct HS as (X & Y & _); eauto.
    - destruct (vars S r0); destruct HS as (X & Y & _); eauto.
    - destruct (vars S r0); [destruct HS as (X & Y & _); eauto| |destruct HS as (X & Y & _); eauto].
      destruct HS as (-> & _ & Y & _). split; [eauto|exists r0; eauto].
    - destruct HS as (X & Y & _). eauto.
    - destruct (nth_error _ _); [|destruct HS as (X & Y & _); eauto]. destruct HS as (-> & _ & _ & Y & _). split; [eauto|exists r0; eauto].
    - destruct HS as [X|[(e & _ & X & _)|[_ [X|X]]]]; [eauto|exfalso; eapply NB; eauto|contradiction|contradiction].
    - destruct HS as [X|(_ & X & _)]; [eauto|contradiction].
    - destruct (vars S r0) as [|x|id x]; [destruct HS as (X & Y & _); eauto|destruct HS as (X & Y & _); eauto|].
      destruct HS as [(X & _ & Y & _)|[(_ & X & _ & Y)|(_ & l & ND & LT & Hl)]]; [eauto|eauto|].
      exfalso. assert (length l <= length L); [|lia]. apply NoDup_incl_length; auto. intros r Hr. apply HL. destruct (Hl _ Hr) as [x' ->]. discriminate.
    - destruct HS as (X & _ & Y). exact (Hbec _ _ _ _ _ X Y).
    Unshelve. all: exact 0.
  Qed.
  Theorem C52_with_memory : (forall hp w, pget hp (place hp w) = None) ->
    (forall n w, exists extra, fst (alloc n w) = Grant extra) -> sz <= isize_max -> (forall x w, exists y, fst (tclone x w) = Ret y) ->
    forall ops w, length ops <= isize_max ->
    let tr := prun ops (pstart T) [] w in
    length tr = length ops /\ Forall (fun x => exists obs, fst (fst (fst x)) = Ret obs) tr.
  Proof.
    intros PF HA HZ HC ops w HL. pose proof (C52_history PF ops w) as HP.
    assert (exists L : list nat, (forall r, vars owns_nothing r <> HNone -> In r L) /\ length L + length ops <= isize_max) as (L & HV & HB).
    { exists []. split; [intros r X; cbn in X; congruence|cbn; lia]. }
    cbv zeta. clear HL. revert L HV HB. induction HP as [S|S c l o v hp d S' rest HS HM NA NU HP IH|S c l o v hp d S' HS HD]; intros L HV HB; cbn [length] in HB.
    - cbn. auto.
    - destruct (spec_returns c S o S' d L HA HZ HC HV ltac:(lia) HS) as [R (r0 & HV')].
      destruct (IH _ HV') as [E F]; [cbn; lia|]. cbn. split; [lia|]. constructor; auto.
    - destruct (spec_returns c S o S' d L HA HZ HC HV ltac:(lia) HS) as [[x R] _]. destruct HD; congruence.
  Qed.
End PtrPrograms.

(** ** The hypotheses can be met: an allocator that puts a block above all others, so that
    the address of the highest block is used again after it is freed *)
Definition place_above {T} (hp : pheap T) (w : nat) : nat := S (list_max (map fst hp)).
Example place_above_fresh T (hp : pheap T) w : pget hp (place_above hp w) = None.
Proof.
  apply pget_out. unfold place_above. intros H.
  assert (forall l x, In x l -> x <= list_max l) as M.
  { induction l as [|y l IH]; intros x X; [destruct X|]. destruct X as [Q|X]; change (list_max (y :: l)) with (Nat.max y (list_max l)); [subst; lia|specialize (IH _ X); lia]. }
  apply M in H. lia.
Qed.
(** a program with a clone, a value moved out, a raw pointer used and turned back, a shared value dropped with its last reference *)
Definition demo_ptr : list (pop nat) :=
  [BoxNew 0 10; BoxClone 0 1; BoxSet 1 11; IntoRaw 0; RawRead 0; FromRaw 0 2; Unbox 2; RcNew 0 12; CountedClone 0 2; Release 0; Deref_ 2;
   BoxNew 0 13; IntoRaw 0; Release 2; ArcNew 1 14].
Notation demo_trace budget sz := (prun (fun _ w => match w with 0 => (Refuse AllocError, 0) | S w' => (Grant 0, w') end)
  place_above 1000 8 sz (fun x w => (Ret (x + 100), w)) (fun _ w => w) (demo_ptr ++ map Release (seq 0 3)) (pstart nat) [] budget).
Notation brief tr := (map (fun x => (fst (fst (fst x)), snd x)) tr) (only parsing).
Example demo_ptr_runs : brief (demo_trace 9 4) =
  [(Ret PUnit, []); (Ret PUnit, [PMade 110]); (Ret PUnit, [PDrop 110]); (Ret PUnit, []); (Ret (PSeen (Some 10)), []); (Ret PUnit, []);
   (Ret (PMoved (Some 10)), []); (Ret PUnit, []); (Ret PUnit, []); (Ret PUnit, []); (Ret (PSeen (Some 12)), []);
   (Ret PUnit, []); (Ret PUnit, []); (Ret PUnit, [PDrop 12]); (Ret PUnit, [PDrop 11]);
   (Ret PUnit, []); (Ret PUnit, [PDrop 14]); (Ret PUnit, [])]
  /\ snd (final (demo_trace 9 4)) = [(5, Block 4 (Some 13) 0)].
Proof. split; vm_compute; reflexivity. Qed.
Example demo_ptr_balances : Forall (within 3) demo_ptr /\ Forall (@survived nat) (demo_trace 9 4).
Proof. split; [repeat (constructor; cbn; auto)|]. vm_compute. repeat (constructor; [split; discriminate|]). constructor. Qed.
(** no memory for the first box: the value handed in is dropped; for the counted block of an Rc: the process ends *)
Example demo_ptr_err : nth_error (brief (demo_trace 1 4)) 1 = Some (Err AllocError, [PMade 110; PDrop 110]) /\
  last (map fst (brief (demo_trace 3 4))) UB = Abort.
Proof. split; vm_compute; reflexivity. Qed.
(** a zero-sized type: boxes have no block, counted pointers do *)
Example demo_ptr_zst : snd (final (demo_trace 9 0)) = [] /\ nth_error (map (fun x => length (snd (fst x))) (demo_trace 9 0)) 7 = Some 1.
Proof. split; vm_compute; reflexivity. Qed.

Print Assumptions C52_history.
Print Assumptions C52_balance.
Print Assumptions C52_with_memory.
