(** * Properties_VecHistory: C45 and C46

    Programs over several vectors.  [VecHistorySpec.vspec] says what each call
    may do in terms of plain lists; [VecHistorySpec.vhistory] what a program
    may do.  [VecConserve] has the vocabulary of the ledger. *)
From Coq Require Import List Arith Lia Bool Permutation.
Import ListNotations.
From Verif Require Import Base VecModel VecSpec VecProofs VecProofs2 VecHistoryModel VecHistorySpec VecHistoryProofs VecConserve.
Set Implicit Arguments.

Section Props.
  Variable W : Type.
  Variable alloc : nat -> W -> answer * W.
  Variable isize_max : nat.
  Variable T : Type.
  Variable sz : nat.
  Variable tdrop : T -> W -> outcome reserve_error unit * W.
  Variable tclone : T -> W -> outcome reserve_error T * W.
  Notation vrun := (vrun alloc isize_max sz tdrop tclone).
  Notation vspec := (vspec alloc isize_max sz tdrop tclone).
  Notation vhistory := (vhistory alloc isize_max sz tdrop tclone).
  Notation holds := (holds isize_max sz).

  Definition all_new : vregs T := fun _ => vec_new T.
  Definition all_empty : nat -> list T := fun _ => [].
  Lemma new_table : table isize_max sz all_new all_empty.
  Proof. intros r. apply holds_new. Qed.

  (** C45: for every allocator, every element type with arbitrary (also
      panicking) destructors and clones, and every program, what the program
      observes is a history of plain lists, and at the end (unless an abort or
      the case of C06 cut it short) every vector is valid and holds exactly
      its list. *)
  Theorem C45_history (cs : list (vop W T)) (w : W) :
    drop_returns_or_panics tdrop -> clone_ok tclone -> Forall (@vop_ok W T) cs ->
    exists os g' w' R, vrun cs (all_new, w) = (os, (g', w')) /\
      vhistory cs all_empty w os R w' /\
      (forall S, R = Some S -> (forall r, holds (g' r) (S r)) /\ Forall (fun o => o <> UB /\ o <> Abort) os).
  Proof. intros Hd Hc Hok. exact (run_fine alloc Hd Hc Hok w new_table). Qed.

  (** *** destructors that never panic *)
  Section Quiet.
    Hypothesis Hd : drop_returns tdrop.
    Hypothesis Hc : clone_ok tclone.

    Lemma quiet_glue xs : forall b w, fst (drop_glue tdrop b xs w) = if b then Panic else Ret tt.
    Proof.
      induction xs as [|x xs IH]; intros b w; cbn [drop_glue]; [destruct b; reflexivity|].
      pose proof (Hd x w) as Hx. destruct (tdrop x w) as [o w1]. cbn [fst] in Hx. subst o. apply IH.
    Qed.
    Lemma quiet_ending E A (o : outcome E A) xs w : fst (ending tdrop o xs w) = o.
    Proof.
      unfold ending. pose proof (quiet_glue xs false w) as H1. pose proof (quiet_glue xs true w) as H2.
      destruct o; cbn [fst].
      - destruct (drop_glue tdrop false xs w) as [o w1]. cbn in H1. now subst o.
      - destruct (drop_glue tdrop false xs w) as [o w1]. cbn in H1. now subst o.
      - destruct (drop_glue tdrop true xs w) as [o w1]. cbn in H2. now subst o.
      - reflexivity.
      - reflexivity.
    Qed.
    Lemma quiet_drops xs : forall w, fst (drops tdrop xs w) = Ret tt.
    Proof.
      induction xs as [|x xs IH]; intros w; cbn [drops]; [reflexivity|].
      pose proof (Hd x w) as Hx. destruct (tdrop x w) as [o w1]. cbn [fst] in Hx. subst o. apply IH.
    Qed.
    Lemma quiet_no_break c S w : ~ breaks tdrop c S w.
    Proof. destruct c; cbn; auto. intros [_ H]. rewrite quiet_drops in H. discriminate. Qed.

    Lemma ending_same E A (o : outcome E A) xs w o' w' : ending tdrop o xs w = (o', w') -> o' = o.
    Proof. intros E1. pose proof (quiet_ending o xs w) as H. rewrite E1 in H. exact H. Qed.
    Lemma push_calm x l w o l' w' : a_push alloc isize_max sz tdrop x l w o l' w' -> o <> Abort.
    Proof. intros H. inversion H; subst; [discriminate|]. match goal with E : ending _ _ _ _ = _ |- _ => apply ending_same in E; subst end. discriminate. Qed.
    Lemma collect_calm f n l w o l' w' : closure_ok f -> a_collect alloc isize_max sz tdrop f n l w o l' w' -> o <> Abort.
    Proof.
      intros Hf H. induction H as [l w|n l w w' Ef|n l w w' Ef|n l w x w1 l1 w2 o l' w' Ef Hp Hk IH|n l w x w1 o l' w' Ef Hp Ho]; try discriminate; [exact IH|].
      now apply push_calm in Hp.
    Qed.
    Lemma resize_no_copy_calm n x l w o l' w' : a_resize_no_copy alloc isize_max sz tdrop tclone n x l w o l' w' -> o <> Abort.
    Proof.
      intros H. inversion H as [? ? w1 ys ? Hn G C|? ? w1 ys o1 w2 ? ? Hn G C Ho E|? ? e w1 ? ? Hn D E|? ? w1 ? ? Hn D E]; subst; try discriminate.
      - apply ending_same in E. subst o. pose proof (clones_ok (repeat x (n - length l - 1)) w1 Hc) as [Ha _]. rewrite C in Ha. exact Ha.
      - apply ending_same in E. subst o. discriminate.
      - apply ending_same in E. subst o. discriminate.
    Qed.
    Lemma extend_no_copy_calm xs l w o l' w' : a_extend_no_copy alloc isize_max sz tclone xs l w o l' w' -> o <> Abort.
    Proof.
      intros H. inversion H as [? ? w1 ys ? ? G C|]; subst; [|discriminate].
      pose proof (clones_ok xs w1 Hc) as [Ha _]. rewrite C in Ha. exact Ha.
    Qed.
    Lemma extends_calm ls l w o l' w' : a_extends alloc isize_max sz tclone ls l w o l' w' -> o <> Abort.
    Proof. intros H. induction H as [l w|xs ls l w l1 w1 o l' w' H1 H2 IH|xs ls l w o l' w' H1 Ho]; [discriminate|exact IH|]. now apply extend_no_copy_calm in H1. Qed.
    Lemma calls_calm (f : W -> outcome reserve_error T * W) n : closure_ok f -> forall w ys o w', calls f n w = (ys, o, w') -> o <> Abort.
    Proof.
      intros Hf w ys o w' E. pose proof (@calls_not_bad W T f n Hf w) as H. rewrite E in H. cbn in H. destruct H; subst; discriminate.
    Qed.
    Lemma acts_calm c r a l w o l' w' : vop_ok c -> acts alloc isize_max sz tdrop tclone c = Some (r, a) -> a l w o l' w' -> o <> Abort.
    Proof.
      intros Hok E Ha. destruct c; cbn [acts vop_ok] in *; try discriminate; inversion E; subst.
      - inversion Ha; subst; discriminate.
      - now apply push_calm in Ha.
      - inversion Ha; subst.
        + match goal with C : calls _ _ _ = _ |- _ => exact (calls_calm _ Hok _ C) end.
        + discriminate.
        + match goal with E : ending _ _ _ _ = _ |- _ => apply ending_same in E; subst end. discriminate.
      - now apply resize_no_copy_calm in Ha.
      - now apply extend_no_copy_calm in Ha.
      - inversion Ha; subst. match goal with E : ending _ _ _ _ = _ |- _ => apply ending_same in E; subst end. discriminate.
      - inversion Ha; subst; match goal with E : ending _ _ _ _ = _ |- _ => apply ending_same in E; subst end; discriminate.
      - inversion Ha; subst; try discriminate. match goal with E : ending _ _ _ _ = _ |- _ => apply ending_same in E; subst end. discriminate.
      - inversion Ha; subst; discriminate.
    Qed.
    Lemma makes_calm c S r a l w o l' w' : vop_ok c -> makes alloc isize_max sz tdrop tclone c S = Some (r, a) -> a l w o l' w' -> o <> Abort.
    Proof.
      intros Hok E Ha. destruct c; cbn [makes vop_ok] in *; try discriminate; inversion E; subst.
      - destruct Ha as (-> & _). discriminate.
      - inversion Ha; subst; discriminate.
      - now apply resize_no_copy_calm in Ha.
      - now apply extend_no_copy_calm in Ha.
      - now apply (collect_calm Hok) in Ha.
      - inversion Ha as [n ? ? l1 w1 ? ? ? _ _ H1 H2| |]; subst; try discriminate. now apply extends_calm in H2.
    Qed.
    Lemma quiet_spec c S w o S' w' : vop_ok c -> vspec c S w o S' w' -> o <> Abort.
    Proof.
      intros Hok H. destruct H as [c r a S w o l' w' Hk Ha|c r a S w l' w1 o w' Hk Ha He|c r a S w o1 l' w1 o w' Hk Ha Hn He
        |r x S w w' G|r x S w e w' D|r i x S w w' Hi G|r i x S w e w' D|r i x S w w1 o w' Hi G He
        |r t S w w' Hne G|r t S w e w' Hne D|r S w|r S w E|r S w l x E|r S w]; try discriminate.
      - pose proof (@acts_calm c r a _ _ _ _ _ Hok Hk Ha). destruct o; cbn; congruence.
      - apply ending_same in He. subst o. discriminate.
      - apply ending_same in He. subst o. pose proof (@makes_calm c S r a _ _ _ _ _ Hok Hk Ha). destruct o1; cbn; congruence.
      - apply ending_same in He. subst o. discriminate.
    Qed.
    Lemma quiet_history cs S w os R w' : vhistory cs S w os R w' -> Forall (@vop_ok W T) cs -> R <> None.
    Proof.
      intros H. induction H as [S w|c cs S w o S1 w1 os R w' Hv Ha Hh IH|c cs S w S1 w' Hv|c cs S w os w' Hb]; intros F.
      - discriminate.
      - apply IH. now inversion F.
      - exfalso. inversion F; subst. now apply (quiet_spec ltac:(eassumption) Hv).
      - now apply quiet_no_break in Hb.
    Qed.
  End Quiet.

  Lemma quiet_drop : drop_returns tdrop -> drop_returns_or_panics tdrop.
  Proof. intros H x w. left. apply H. Qed.

  (** C45, destructors that do not panic: no program over vectors aborts, is
      undefined, or ends early, whatever the allocator and the clones do. *)
  Theorem C45_quiet (cs : list (vop W T)) (w : W) :
    drop_returns tdrop -> clone_ok tclone -> Forall (@vop_ok W T) cs ->
    exists os g' w' S, vrun cs (all_new, w) = (os, (g', w')) /\
      vhistory cs all_empty w os (Some S) w' /\ length os = length cs /\
      (forall r, holds (g' r) (S r)) /\ Forall (fun o => o <> UB /\ o <> Abort) os.
  Proof.
    intros Hd Hc Hok. destruct (@C45_history cs w (quiet_drop Hd) Hc Hok) as (os & g' & w' & R & Hr & Hh & HR).
    pose proof (quiet_history Hd Hc Hh Hok) as Hn. destruct R as [S|]; [|congruence]. destruct (HR S eq_refl) as [H1 H2].
    exists os, g', w', S. split; [exact Hr|]. split; [exact Hh|]. split; [|auto].
    clear - Hh. remember (Some S) as R eqn:E. induction Hh; try discriminate; cbn; auto.
  Qed.

  (** C46: with any ledger, in any program that does not use the two
      operations for Copy types and was not cut short: what was put in plus
      what clones and closures made is what was handed back, plus what was
      dropped, plus what is still in the vectors. *)
  Section Ledger.
    Variables (made gone : W -> list T).

    Theorem C46_conservation (N : nat) (cs : list (vop W T)) (w : W) :
      drop_returns_or_panics tdrop -> clone_ok tclone -> Forall (@vop_ok W T) cs ->
      ledger_alloc made gone alloc -> ledger_drop made gone tdrop -> (forall x, ledger_make made gone (tclone x)) ->
      Forall (ledger_op made gone) cs -> Forall (@moves W T) cs -> Forall (below N) cs ->
      made w = [] -> gone w = [] ->
      exists os g' w' R, vrun cs (all_new, w) = (os, (g', w')) /\ vhistory cs all_empty w os R w' /\
        (forall S, R = Some S -> (forall r, holds (g' r) (S r)) /\
           forall wt, weigh wt (flat_map (@taken W T) cs ++ made w') =
                      weigh wt (flat_map (@handed T) os ++ gone w' ++ live N S)).
    Proof.
      intros Hd Hc Hok La Ld Lc Lo Mv Bl M0 G0.
      destruct (@C45_history cs w Hd Hc Hok) as (os & g' & w' & R & Hr & Hh & HR).
      exists os, g', w', R. split; [exact Hr|]. split; [exact Hh|]. intros S ES. destruct (HR S ES) as [H1 H2]. split; [exact H1|].
      intros wt. assert (Fl : Forall lives os).
      { clear - H2. induction H2 as [|o os [Hu Ha] _ IH]; constructor; auto. now split. }
      pose proof (@history_books W alloc isize_max T sz tdrop tclone made gone La Ld Lc wt N cs all_empty w os R w' Hh Lo Mv Bl S ES Fl) as B.
      unfold books in B. rewrite M0, G0 in B. rewrite !weigh_app.
      assert (Z : weigh wt (live N all_empty) = 0).
      { unfold live, all_empty. generalize (seq 0 N). intros l. induction l; cbn; auto. }
      rewrite Z in B. rewrite !weigh_nil in B. lia.
    Qed.

    (** ... and when at the end every vector has been replaced by an empty one
        nothing is left over: each value was handed back or dropped, once. *)
    Theorem C46_exactly_once (dec : forall x y : T, {x = y} + {x <> y}) (N : nat) (cs : list (vop W T)) (w : W) :
      drop_returns tdrop -> clone_ok tclone -> Forall (@vop_ok W T) cs ->
      ledger_alloc made gone alloc -> ledger_drop made gone tdrop -> (forall x, ledger_make made gone (tclone x)) ->
      Forall (ledger_op made gone) cs -> Forall (@moves W T) cs -> Forall (below N) cs ->
      made w = [] -> gone w = [] ->
      exists os g' w', vrun (cs ++ map (@VNew W T) (seq 0 N)) (all_new, w) = (os, (g', w')) /\
        Permutation (flat_map (@taken W T) cs ++ made w') (flat_map (@handed T) os ++ gone w').
    Proof.
      intros Hd Hc Hok La Ld Lc Lo Mv Bl M0 G0.
      set (cs' := cs ++ map (@VNew W T) (seq 0 N)).
      assert (A1 : Forall (@vop_ok W T) cs'). { apply Forall_app. split; [exact Hok|]. apply Forall_map, Forall_forall. cbn. auto. }
      assert (A2 : Forall (ledger_op made gone) cs'). { apply Forall_app. split; [exact Lo|]. apply Forall_map, Forall_forall. cbn. auto. }
      assert (A3 : Forall (@moves W T) cs'). { apply Forall_app. split; [exact Mv|]. apply Forall_map, Forall_forall. cbn. auto. }
      assert (A4 : Forall (below N) cs'). { apply Forall_app. split; [exact Bl|]. apply Forall_map, Forall_forall. intros x Hx. apply in_seq in Hx. cbn. lia. }
      destruct (@C46_conservation N cs' w (quiet_drop Hd) Hc A1 La Ld Lc A2 A3 A4 M0 G0) as (os & g' & w' & R & Hr & Hh & HR).
      pose proof (quiet_history Hd Hc Hh A1) as Hn. destruct R as [S|]; [|congruence]. destruct (HR S eq_refl) as [_ HW].
      exists os, g', w'. split; [exact Hr|]. apply (weigh_permutation dec). intros wt. specialize (HW wt).
      assert (Ht : flat_map (@taken W T) cs' = flat_map (@taken W T) cs).
      { unfold cs'. rewrite flat_map_app. replace (flat_map (@taken W T) (map (@VNew W T) (seq 0 N))) with (@nil T); [apply app_nil_r|].
        generalize (seq 0 N). intros l. induction l; cbn; auto. }
      assert (Hl : live N S = []).
      { assert (HS : forall r, r < N -> S r = []).
        { clear - Hh Hd. subst cs'. revert Hh. generalize all_empty as S0. revert w os. induction cs as [|c cs0 IH]; intros w os S0 Hh.
          - cbn [app] in Hh. assert (G : forall k n S0 w os w', vhistory (map (@VNew W T) (seq k n)) S0 w os (Some S) w' ->
              (forall r, r < k -> S0 r = []) -> forall r, r < k + n -> S r = []).
            { clear. intros k n. revert k. induction n as [|n IHn]; intros k S0 w os w' Hh H0 r Hr; cbn [seq map] in Hh.
              - inversion Hh; subst. apply H0. lia.
              - inversion Hh as [|c cs S1 w1 o S2 w2 os2 R w3 Hv Ha Hh'| |]; subst.
                apply (IHn (Datatypes.S k) S2 w2 os2 w' Hh'); [|lia].
                intros j Hj. inversion Hv as [? ? a ? ? ? ? ? Hk|? r0 a ? ? l1 ? ? ? Hk Ha1|? ? a ? ? o1 l1 w4 ? ? Hk Ha1 Hne| | | | | | | | | | |]; subst; try discriminate.
                + cbn in Hk. inversion Hk; subst. destruct Ha1 as (_ & -> & _). unfold upd. destruct (Nat.eqb_spec j r0); [reflexivity|]. apply H0. lia.
                + cbn in Hk. inversion Hk; subst. destruct Ha1 as (-> & _). congruence. }
            intros r Hr. refine (G 0 N _ _ _ _ Hh _ r Hr). intros; lia.
          - cbn [app] in Hh. inversion Hh as [|c1 cs1 S1 w1 o S2 w2 os2 R w3 Hv Ha Hh'| |]; subst. exact (IH _ _ _ Hh'). }
        unfold live. clear - HS. assert (H : forall l, (forall r, In r l -> r < N) -> List.concat (map S l) = []).
        { intros l. induction l as [|r l IH]; cbn; intros Hl; [reflexivity|]. rewrite HS by auto. cbn. apply IH. auto. }
        apply H. intros r Hr. apply in_seq in Hr. lia. }
      rewrite Ht, Hl, app_nil_r in HW. exact HW.
    Qed.
  End Ledger.
End Props.

(** ** Examples: the hypotheses are met and the cases occur *)
Section Examples.
  (** The world: how many allocations are still granted, what was made, what
      is gone.  The elements are numbers; 13 has a destructor that panics when
      [loud], 7 cannot be cloned (an error), cloning 8 panics, the clone of
      [x] is [x + 100]. *)
  Definition W0 : Type := nat * list nat * list nat.
  Definition left (w : W0) := fst (fst w).
  Definition made0 (w : W0) := snd (fst w).
  Definition gone0 (w : W0) := snd w.
  Definition alloc0 (n : nat) (w : W0) : answer * W0 :=
    match left w with 0 => (Refuse AllocError, w) | S k => (Grant 0, (k, made0 w, gone0 w)) end.
  Definition drop0 (loud : bool) (x : nat) (w : W0) : outcome reserve_error unit * W0 :=
    (if loud && (x =? 13) then Panic else Ret tt, (left w, made0 w, x :: gone0 w)).
  Definition clone0 (x : nat) (w : W0) : outcome reserve_error nat * W0 :=
    if x =? 7 then (Err AllocError, w) else if x =? 8 then (Panic, w)
    else (Ret (x + 100), (left w, (x + 100) :: made0 w, gone0 w)).
  (** a closure that counts *)
  Definition next0 (w : W0) : outcome reserve_error nat * W0 :=
    let x := 1000 + length (made0 w) in (Ret x, (left w, x :: made0 w, gone0 w)).
  (** an iterator that counts, up to a limit *)
  Definition iter0 (w : W0) : outcome reserve_error (option nat) * W0 :=
    let x := 1000 + length (made0 w) in
    if x <? 1012 then (Ret (Some x), (left w, x :: made0 w, gone0 w)) else (Ret None, w).
  Definition prog0 : list (vop W0 nat) :=
    [ VWithCapacity 0 2; VPush 0 1; VPushGiveBack 0 7; VPushGiveBack 0 13; VInsert 0 5 3; VInsert 0 1 2;
      VTryClone 1 0; VResizeWith 1 3 next0; VAppend 0 1; VSlice 0; VPop 0; VFromElem 2 8 2;
      VCollect 2 3 iter0; VResizeNoCopy 0 2 4; VSlice 0; VSlice 1; VPush 1 5; VPush 1 6; VSlice 1 ].

  Example quiet0 : drop_returns (drop0 false).
  Proof. intros x w. reflexivity. Qed.
  Example loud0 : drop_returns_or_panics (drop0 true).
  Proof. intros x w. unfold drop0. destruct (x =? 13); cbn; auto. Qed.
  Example clone0_ok : clone_ok clone0.
  Proof. intros x w. unfold clone0. destruct (x =? 7); [cbn; split; discriminate|]. destruct (x =? 8); cbn; split; discriminate. Qed.
  Example prog0_ok : Forall (@vop_ok W0 nat) prog0 /\ Forall (ledger_op made0 gone0) prog0 /\ Forall (@moves W0 nat) prog0 /\ Forall (below 3) prog0.
  Proof.
    assert (C : closure_ok next0) by (intros w; left; cbn; eauto).
    assert (L : ledger_make made0 gone0 next0) by (intros w; cbn; auto).
    assert (C' : closure_ok iter0). { intros w. left. unfold iter0. destruct (_ <? _); cbn; eauto. }
    assert (L' : ledger_next made0 gone0 iter0). { intros w. unfold iter0. destruct (_ <? _); cbn; auto. }
    assert (F : forall P : vop W0 nat -> Prop, fold_right (fun c q => P c /\ q) True prog0 -> Forall P prog0).
    { intros P. generalize prog0. intros l. induction l as [|c l IH]; cbn; intros H; constructor; [apply H|apply IH, H]. }
    split; [|split; [|split]]; apply F; cbn; repeat (split; [first [exact C|exact L|exact C'|exact L'|lia|exact I]|]); exact I.
  Qed.
  Example ledger0 b : ledger_alloc made0 gone0 alloc0 /\ ledger_drop made0 gone0 (drop0 b) /\ (forall x, ledger_make made0 gone0 (clone0 x)).
  Proof.
    split; [|split].
    - intros n w. unfold alloc0. destruct (left w); auto.
    - intros x w. auto.
    - intros x w. unfold clone0. destruct (x =? 7); [auto|]. destruct (x =? 8); auto.
  Qed.
  (** Eight-byte elements, seven allocations granted. *)
  Example run0 : fst (vrun alloc0 1000 8 (drop0 false) clone0 prog0 (all_new nat, (7, [], []))) =
    [ Ret RUnit; Ret RUnit; Ret RUnit; Ret RUnit; Panic; Ret RUnit;
      Err (None, AllocError); Ret RUnit; Ret RUnit; Ret (RList [1; 2; 7; 13; 1002; 1003; 1004]);
      Ret (ROpt (Some 1004)); Panic; Err (None, AllocError); Ret RUnit; Ret (RList [1; 2]); Ret (RList []);
      Ret RUnit; Ret RUnit; Ret (RList [5; 6]) ].
  Proof. vm_compute. reflexivity. Qed.
  (** collecting until the iterator ends, and concatenating *)
  Example run2 : fst (vrun alloc0 1000 8 (drop0 false) clone0
       [VCollect 0 3 iter0; VSlice 0; VConcat 1 true [0; 0]; VSlice 1; VCollect 2 9 iter0; VSlice 2; VConcat 2 true [2; 0; 5]; VSlice 2; VPush 0 8; VConcat 2 false [0; 1]; VSlice 2]
       (all_new nat, (12, [], []))) =
    [ Ret RUnit; Ret (RList [1000; 1001; 1002]); Ret RUnit; Ret (RList [1100; 1101; 1102; 1100; 1101; 1102]);
      Ret RUnit; Ret (RList [1009; 1010; 1011]); Ret RUnit; Ret (RList [1109; 1110; 1111; 1100; 1101; 1102]); Ret RUnit; Panic; Ret (RList [1109; 1110; 1111; 1100; 1101; 1102]) ].
  Proof. vm_compute. reflexivity. Qed.
  (** A destructor that panics: the vector is empty afterwards; two of them in
      one vector abort the process. *)
  Example run1 : fst (vrun alloc0 1000 8 (drop0 true) clone0
       [VPush 0 1; VPush 0 13; VPush 0 2; VClear 0; VSlice 0; VPush 0 13; VPush 1 13; VAppend 0 1; VSlice 0; VSet 0 1 4; VPush 0 13; VNew 0; VSlice 0]
       (all_new nat, (9, [], []))) =
    [ Ret RUnit; Ret RUnit; Ret RUnit; Panic; Ret (RList []); Ret RUnit; Ret RUnit; Ret RUnit; Ret (RList [13; 13]); Panic; Ret RUnit; Abort ].
  Proof. vm_compute. reflexivity. Qed.
  (** ... and the case in which the claim of C45 ends is real. *)
  Example break1 : breaks (drop0 true) (VResizeNoCopy 0 1 5) (fun _ => [1; 13; 2]) (9, [], []).
  Proof. split; [cbn; lia|reflexivity]. Qed.
End Examples.

Print Assumptions C45_history.
Print Assumptions C45_quiet.
Print Assumptions C46_conservation.
Print Assumptions C46_exactly_once.
