(** * Properties_Misc: C11-C18 (src/boxed.rs, rc.rs, arc.rs, format.rs,
      hashmap.rs, std_io of vec.rs) *)
From Coq Require Import List Arith Lia Bool.
Import ListNotations.
From Verif Require Import Base VecModel VecSpec VecProofs VecProofs2 MiscModel MiscSpec MiscProofs
  VecHistoryModel VecHistorySpec VecHistoryProofs VecExact.
Set Implicit Arguments.

Section Pointers.
  Variables (W : Type) (alloc : nat -> W -> answer * W) (isize_max usize_bytes : nat) (T : Type) (sz : nat).

  (** ** C11: Box::try_new / TryBox::try_new *)
  Theorem C11_box_try_new : forall (t : T) w r w',
    exact_alloc alloc -> box_try_new alloc isize_max sz t w = (r, w') ->
    settled r /\ (forall b, r = Ret b -> b = t) /\ (sz = 0 -> r = Ret t /\ w' = w).
  Proof.
    intros t w r w' Hex H.
    destruct (box_try_new_cases alloc isize_max sz t w)
      as [(w2 & Hr & Hz)|[(Hz & e & w2 & Hr)|(_ & Hn & _)]]; [| |contradiction];
      rewrite Hr in H; injection H; intros; subst.
    - repeat split; auto. intros b E; now injection E.
    - repeat split; try discriminate; contradiction.
  Qed.

  (** it fails exactly when its single allocation request is refused (or the
      type is larger than the machine allows) *)
  Theorem C11_box_fails_only_on_refusal : forall (t : T) w e w',
    box_try_new alloc isize_max sz t w = (Err e, w') ->
    isize_max < sz \/ fst (alloc sz w) = Refuse e.
  Proof.
    intros t w e w' H. unfold box_try_new, try_reserve_exact in H. unfold bind at 1 in H.
    pose proof (holds_new isize_max T sz) as Hnew.
    destruct (@try_reserve_cases W alloc isize_max T sz (vec_new T) [] 1 w Hnew)
      as [(v1 & w1 & Hr & Hh' & Hcap & _ & Hno)|(e1 & w1 & Hr & Hroom)].
    - rewrite Hr in H. unfold bind in H. simpl in Hcap.
      destruct (@std_push_noalloc W alloc isize_max T sz reserve_error v1 [] t w1 Hh') as (v'' & Hp & Hh'' & Hc''); [simpl; lia|].
      rewrite Hp in H. unfold into_boxed_slice in H.
      destruct (negb (sz =? 0) && (vlen v'' <? vcap v'')).
      + destruct (alloc (vlen v'' * sz) w1) as [[x|[|]] w2]; try discriminate.
        destruct (vslots _ 0); discriminate.
      + destruct (vslots _ 0); discriminate.
    - rewrite Hr in H. injection H; intros; subst.
      unfold try_reserve, room, capacity in *. simpl in *.
      destruct (Nat.eqb_spec sz 0) as [->|Hz]; [unfold usize_max in Hroom; lia|]. simpl in *.
      destruct (Nat.ltb_spec (usize_max isize_max) 1) as [H1|H1]; [left; unfold usize_max in H1; lia|].
      rewrite Nat.add_0_r in Hr.
      destruct (Nat.ltb_spec isize_max sz) as [H2|H2]; [left; lia|].
      right. destruct (alloc sz w) as [[x|e2] w2]; [discriminate|]. injection Hr; intros; subst. reflexivity.
  Qed.

  (** ** C12, what holds: success keeps the value *)
  Theorem C12_rc_holds_value_partial : forall (t b : T) w w',
    rc_try_new alloc isize_max usize_bytes sz t w = (Ret b, w') -> b = t.
  Proof.
    intros t b w w' H. unfold rc_try_new in H.
    destruct (box_try_new_cases alloc isize_max sz t w)
      as [(w2 & Hr & Hz)|[(Hz & e & w2 & Hr)|(_ & Hn & w2 & [Hr|Hr])]]; rewrite Hr in H; try discriminate.
    unfold counted_from_box in H. destruct (alloc _ w2) as [[|] ?]; [|discriminate]. now injection H.
  Qed.

  (** the outcome exactly: an error iff the box is refused, an abort iff the box is granted and the counted block is
      refused, and otherwise the value *)
  Theorem C12_rc_exact_partial : forall (t : T) w r w', exact_alloc alloc ->
    rc_try_new alloc isize_max usize_bytes sz t w = (r, w') ->
    (exists e, r = Err e /\ box_try_new alloc isize_max sz t w = (Err e, w')) \/
    exists w1, box_try_new alloc isize_max sz t w = (Ret t, w1) /\
      ((r = Abort /\ exists e, alloc (sz + 2 * usize_bytes) w1 = (Refuse e, w')) \/
       (r = Ret t /\ exists x, alloc (sz + 2 * usize_bytes) w1 = (Grant x, w'))).
  Proof.
    intros t w r w' Hex H. unfold rc_try_new in H.
    destruct (box_try_new_cases alloc isize_max sz t w)
      as [(w2 & Hr & Hz)|[(Hz & e & w2 & Hr)|(_ & Hn & _)]]; [| |contradiction]; rewrite Hr in *.
    - right. exists w2. split; [reflexivity|]. unfold counted_from_box in H. destruct (alloc _ w2) as [[x|e] w3]; injection H as <- <-; eauto.
    - left. injection H as <- <-. eauto.
  Qed.

  (** with the feature "unstable" Arc::try_new is fully fallible *)
  Theorem C12_arc_unstable_fallible : forall (t : T) w r w',
    arc_try_new_unstable alloc usize_bytes sz t w = (r, w') ->
    (r = Ret t \/ r = Err AllocError) /\
    (is_err r <-> exists e, fst (alloc (sz + 2 * usize_bytes) w) = Refuse e).
  Proof.
    intros t w r w' H. unfold arc_try_new_unstable in H.
    destruct (alloc _ w) as [[x|e] w1]; injection H; intros; subst; simpl; split; auto; split; intros; try easy; eauto.
    destruct H0; discriminate.
  Qed.

  (** Arc::try_clone never fails short of isize::MAX references *)
  Theorem C12_arc_clone : forall count, count <= isize_max -> arc_try_clone isize_max count = Ret (S count).
  Proof. intros c H. unfold arc_try_clone. destruct (Nat.ltb_spec isize_max c); [lia|reflexivity]. Qed.
End Pointers.

(** ** C12: full statement for Rc (and Arc without "unstable"), refuted: the
    second allocation aborts the process *)
Definition C12_full : Prop :=
  forall (W T : Type) (alloc : nat -> W -> answer * W) isize_max usize_bytes sz (t : T) w,
    exact_alloc alloc -> settled (fst (rc_try_new alloc isize_max usize_bytes sz t w)).

Theorem C12_rc_aborts_refuted : ~ C12_full.
Proof.
  intros H.
  specialize (H nat unit (fun _ w => match w with 0 => (Refuse AllocError, 0) | S w' => (Grant 0, w') end) 100 8 4 tt 1).
  assert (Hex : exact_alloc (fun (_ : nat) (w : nat) => match w with 0 => (Refuse AllocError, 0) | S w' => (Grant 0, w') end)).
  { intros n w e w' E. destruct w; [discriminate|]. now injection E. }
  specialize (H Hex). vm_compute in H. exact H.
Qed.

(** ** C13: try_format.  [format_text fs = Some text]: no Display
    implementation fails and together they write [text]. *)
Section Format.
  Variables (W : Type) (alloc : nat -> W -> answer * W) (isize_max : nat) (B : Type).

  Theorem C13_within_capacity : forall cap (fs : list (fragment B)) text w r w',
    format_text fs = Some text -> length text <= cap ->
    try_format alloc isize_max cap fs w = (r, w') ->
    (exists v, r = Ret v /\ holds isize_max 1 v text) \/
    (exists e, r = Err e /\ try_with_capacity alloc isize_max B 1 cap w = (Err e, w')).
  Proof.
    intros cap fs text w r w' Ht Hlen H. unfold try_format in H.
    unfold try_with_capacity in *.
    destruct (@try_reserve_cases W alloc isize_max B 1 (vec_new B) [] cap w (holds_new isize_max B 1))
      as [(v1 & w1 & Hr & Hh & Hc & _)|(e & w1 & Hr & _)]; rewrite Hr in *.
    - left. destruct (@write_fmt_within W alloc isize_max B fs text v1 [] w1 Ht Hh) as (v2 & Hw & Hh2).
      { unfold room. destruct Hh as (-> & _). simpl in *. lia. }
      rewrite Hw in H. injection H; intros; subst. eauto.
    - right. injection H; intros; subst. eauto.
  Qed.

  (** when it returns, it returns exactly the text, whatever the capacity; it
      never runs into undefined behaviour *)
  Theorem C13_exact_text : forall cap (fs : list (fragment B)) w r w',
    try_format alloc isize_max cap fs w = (r, w') ->
    r <> UB /\
    (forall v, r = Ret v -> exists text, format_text fs = Some text /\ holds isize_max 1 v text).
  Proof.
    intros cap fs w r w' H. unfold try_format, try_with_capacity in H.
    destruct (@try_reserve_cases W alloc isize_max B 1 (vec_new B) [] cap w (holds_new isize_max B 1))
      as [(v1 & w1 & Hr & Hh & Hc & _)|(e & w1 & Hr & _)]; rewrite Hr in H.
    - pose proof (@write_fmt_general W alloc isize_max B fs v1 [] w1 Hh) as Hw.
      destruct (write_fmt alloc isize_max fs (v1, w1)) as [[u|e| | |] [v2 w2]]; try contradiction;
        injection H; intros; subst; split; try discriminate; intros v E; try discriminate.
      injection E as <-. exact Hw.
    - injection H; intros; subst. split; discriminate.
  Qed.
End Format.

(** the property's warning: beyond the stated capacity the process can abort *)
Theorem C13_beyond_capacity_can_abort :
  exists (alloc : nat -> nat -> answer * nat) cap (fs : list (fragment nat)) w,
    fst (try_format alloc 1000 cap fs w) = Abort.
Proof.
  exists (fun _ w => match w with 0 => (Refuse AllocError, 0) | S w' => (Grant 0, w') end), 2, [FStr [1; 2; 3]], 1.
  vm_compute. reflexivity.
Qed.

(** ** C17: bounded reads *)
Section IO.
  Variables (W : Type) (alloc : nat -> W -> answer * W) (isize_max : nat) (B R : Type).
  Variable read : R -> nat -> read_result B * R.
  Notation holds := (holds isize_max 1).

  (** For a positive limit (or a buffer with spare room): [Ok(n)] means the
      first [n] bytes the source delivers were appended, [n <= limit], and [n <
      limit] only because the source reported the end; a refused reservation
      or conversion changes neither the buffer nor the source; a read error
      leaves the bytes read so far appended; nothing else can happen (no
      abort, no panic). *)
  Theorem C17_read_up_to : forall fuel r limit (v v' : rvec B) l w w' o r',
    read_bounded read -> holds v l -> 0 < limit \/ length l < capacity isize_max 1 v ->
    try_read_up_to alloc isize_max read fuel r limit (v, w) = Some (o, (v', w'), r') ->
    (exists n bs r1, o = Ret n /\ n = length bs /\ n <= limit /\ holds v' (l ++ bs) /\ delivers read r bs r1 /\
        ((n = limit /\ r' = r1) \/ (n < limit /\ at_eof read r1 r'))) \/
    (exists bs r1, o = Err IoRead /\ length bs <= limit /\ holds v' (l ++ bs) /\ delivers read r bs r1 /\
        read_fails read r1 r') \/
    ((o = Err IoReserve /\ (exists e, denied alloc isize_max 1 (length l + limit) e w w') \/
      o = Err IoConversion /\ usize_max isize_max < limit /\ w' = w) /\ v' = v /\ r' = r).
  Proof.
    intros fuel r limit v v' l w w' o r' Hb Hv Hl H.
    pose proof (@try_read_up_to_ok W alloc isize_max B R read Hb fuel r limit v l w Hv) as Hc.
    rewrite H in Hc. pose proof Hv as (Hvl & _). rewrite Hvl in Hc. specialize (Hc Hl).
    destruct o as [n|[| | |]| | |]; try contradiction.
    - left. destruct Hc as (bs & r1 & Hh & Hd & Hn & Hx). exists n, bs, r1. subst n. repeat split; auto; try apply Hh.
      destruct Hx as [[-> _]|[Hx _]]; lia.
    - right; right. destruct Hc as [Hc1 Hc2]. split; [|auto]. right. unfold try_read_up_to in H.
      destruct (Nat.ltb_spec (usize_max isize_max) limit) as [Hlt|Hge]; [now injection H|]. exfalso.
      destruct (@try_reserve_cases W alloc isize_max B 1 v l limit w Hv) as [(v1 & w1 & Hr & Hh1 & Hcap & Hc0 & _)|(e & w1 & Hr & _)]; rewrite Hr in H; [|discriminate].
      cbn [fst] in H. pose proof Hh1 as (Hl1 & _). rewrite Hl1 in H.
      pose proof (@read_to_end_ok W alloc isize_max B R read Hb fuel r l [] (capacity isize_max 1 v1) r limit limit v1 w1 false) as Hx.
      rewrite app_nil_r in Hx. specialize (Hx Hh1 (del_nil _ r) eq_refl Hcap eq_refl ltac:(discriminate) ltac:(tauto)).
      rewrite H in Hx. destruct Hx as (_ & ? & ? & _ & _ & _ & _ & Hx & _); [|discriminate].
      intros ->. lia.
    - right; right. destruct Hc as [Hc1 Hc2]. split; [|auto]. left. split; [reflexivity|]. unfold try_read_up_to in H.
      destruct (Nat.ltb_spec (usize_max isize_max) limit) as [Hlt|Hge]; [discriminate|].
      destruct (@reserve_spec W alloc isize_max B 1 v l limit w Hv) as [(v1 & w1 & Hr & Hh1 & Hcap & _)|(e & w1 & Hr & D)].
      1: destruct (@try_reserve_cases W alloc isize_max B 1 v l limit w Hv) as [(v2 & w2 & Hr2 & _ & _ & Hc0 & _)|(e & w2 & Hr2 & _)];
         rewrite Hr in Hr2; [injection Hr2 as <- <-|discriminate].
      all: rewrite Hr in H.
      2:{ injection H as <- <- <-. eauto. }
      exfalso. cbn [fst] in H. pose proof Hh1 as (Hl1 & _). rewrite Hl1 in H.
      pose proof (@read_to_end_ok W alloc isize_max B R read Hb fuel r l [] (capacity isize_max 1 v1) r limit limit v1 w1 false) as Hx.
      rewrite app_nil_r in Hx. specialize (Hx Hh1 (del_nil _ r) eq_refl Hcap eq_refl ltac:(discriminate) ltac:(tauto)).
      rewrite H in Hx. destruct Hx as (_ & ? & ? & _ & _ & _ & _ & Hx & _); [|discriminate].
      intros ->. lia.
    - right; left. destruct Hc as (bs & r1 & Hh & Hd & Hn & Hx). exists bs, r1. auto.
    - right; right. exfalso. revert H. unfold try_read_up_to. 
      destruct (usize_max isize_max <? limit); [discriminate|].
      destruct (@try_reserve_cases W alloc isize_max B 1 v l limit w Hv) as [(v1 & w1 & Hr & Hh1 & Hc1 & Hc0 & _)|(e & w1 & Hr & _)];
        rewrite Hr; [|discriminate].
      cbn [fst]. pose proof Hh1 as (Hl1 & _). rewrite Hl1.
      pose proof (@read_to_end_ok W alloc isize_max B R read Hb fuel r l [] (capacity isize_max 1 v1) r limit limit v1 w1 false) as Hx.
      rewrite app_nil_r in Hx. specialize (Hx Hh1 (del_nil _ r) eq_refl Hc1 eq_refl ltac:(discriminate) ltac:(tauto)).
      intros H. rewrite H in Hx. destruct Hx as (_ & ? & ? & _ & _ & _ & _ & Hx & _); [|discriminate].
      intros ->. lia.
  Qed.
End IO.

(** ** C18: io::Write for TryVec<u8> *)
Theorem C18_write_all_or_nothing : forall (W : Type) (alloc : nat -> W -> answer * W) isize_max (B : Type)
    (v v' : rvec B) l bs w w' r,
  holds isize_max 1 v l -> io_write alloc isize_max bs (v, w) = (r, (v', w')) ->
  (r = Ret (length bs) /\ holds isize_max 1 v' (l ++ bs) /\ granted alloc isize_max 1 (length l + length bs) w w') \/
  (is_err r /\ v' = v /\ exists e, denied alloc isize_max 1 (length l + length bs) e w w').
Proof.
  intros W alloc isize_max B v v' l bs w w' r Hv H. unfold io_write, bind, map_err in H.
  destruct (@extend_exact W alloc isize_max B 1 (@clone_prim W B) bs v l w Hv) as [(e & w1 & Hr & D)|(w1 & v1 & Hr & H1 & G)];
    rewrite Hr in H.
  - right. injection H; intros; subst. split; [exact I|eauto].
  - left.
    assert (Hc : forall xs w0, clones (@clone_prim W B) xs w0 = (xs, Ret tt, w0)).
    { induction xs; intros w0; simpl; [reflexivity|]. unfold clone_prim in *. now rewrite IHxs. }
    rewrite Hc in *. simpl in *. injection H; intros; subst. auto.
Qed.

(** successive writes concatenate: a history of writes, of which some fail *)
Fixpoint run_writes {W B} (alloc : nat -> W -> answer * W) isize_max (ws : list (list B)) (s : rvec B * W)
  : list bool * (rvec B * W) :=
  match ws with
  | [] => ([], s)
  | b :: ws' => let '(o, s') := io_write alloc isize_max b s in
                let ok := match o with Ret n => n =? length b | _ => false end in
                let '(oks, s'') := run_writes alloc isize_max ws' s' in (ok :: oks, s'')
  end.
Theorem C18_writes_concatenate : forall (W : Type) (alloc : nat -> W -> answer * W) isize_max (B : Type)
    ws (v v' : rvec B) l w w' oks,
  holds isize_max 1 v l -> run_writes alloc isize_max ws (v, w) = (oks, (v', w')) ->
  length oks = length ws /\
  holds isize_max 1 v' (l ++ List.concat (map fst (filter snd (combine ws oks)))).
Proof.
  intros W alloc isize_max B ws. induction ws as [|b ws IH]; intros v v' l w w' oks Hv H; simpl in H.
  - injection H; intros; subst. simpl. rewrite app_nil_r. auto.
  - destruct (io_write alloc isize_max b (v, w)) as [o [v1 w1]] eqn:Ew.
    destruct (run_writes alloc isize_max ws (v1, w1)) as [oks1 [v2 w2]] eqn:Er.
    injection H; intros; subst.
    destruct (C18_write_all_or_nothing _ _ _ Hv Ew) as [(-> & Hh & _)|(He & -> & _)].
    + rewrite Nat.eqb_refl. destruct (IH v1 v' (l ++ b) w1 w' oks1 Hh Er) as [Hl Hh'].
      simpl. split; [now rewrite Hl|]. now rewrite <- app_assoc in Hh'.
    + destruct o; try contradiction. destruct (IH v v' l w1 w' oks1 Hv Er) as [Hl Hh'].
      simpl. split; [now rewrite Hl|exact Hh'].
Qed.

(** ** C14-C16: TryHashMap *)
Section HashMap.
  Variables (W : Type) (alloc : nat -> W -> answer * W) (isize_max : nat).
  Variables (K V : Type) (keq : K -> K -> bool) (policy : nat -> bool) (esz : nat).

  (** C14: for every history from the empty map, the trace of answers is one a
      finite map gives ([hspec_trace], MiscSpec), where an [Err] answer leaves
      the map as it was *)
  Theorem C14_history : forall ops w, key_eq_laws keq ->
    hspec_trace keq (fempty K V) (run_hops alloc isize_max keq policy esz ops (hmap_new K V, w)).
  Proof. intros ops w Hk. apply run_hops_ok; auto. apply denotes_new. Qed.

  (** ... entries, length and capacity are literally unchanged *)
  Theorem C14_refused_insert_changes_nothing : forall (k : K) (v : V) (m : hmap K V) f (w : W) e (m' : hmap K V) (w' : W),
    key_eq_laws keq -> denotes keq m f ->
    thm_insert alloc isize_max keq policy esz k v (m, w) = (Err e, (m', w')) -> m' = m.
  Proof.
    intros k v m f w e m' w' Hk Hm H.
    destruct (thm_insert_cases alloc isize_max Hk policy esz k v w Hm) as [(? & ? & Hr & _)|(? & ? & Hr & _)]; congruence.
  Qed.

  (** C15: insert ends in a value or an error in every state reachable by a
      history: no infallible growth, no panic *)
  Theorem C15_insert_never_aborts : forall ops w op r, key_eq_laws keq ->
    In (op, r) (run_hops alloc isize_max keq policy esz ops (hmap_new K V, w)) -> settled r.
  Proof.
    intros ops w op r Hk Hin. pose proof (@run_hops_ok W alloc isize_max K V keq Hk policy esz ops (hmap_new K V) (fempty K V) w (@denotes_new K V keq)) as H.
    revert H Hin. generalize (fempty K V) as f. generalize (run_hops alloc isize_max keq policy esz ops (hmap_new K V, w)) as tr.
    induction tr as [|[op0 r0] tr IH]; intros f H Hin; [contradiction|].
    destruct H as (f' & Hs & H). destruct Hin as [E|Hin]; [|eauto].
    injection E; intros; subst. destruct Hs; exact I.
  Qed.

  (** C15: with_capacity(n) covers n insertions, whatever the keys, without
      asking the allocator (the world does not change) *)
  Theorem C15_with_capacity_covers_inserts : forall n w m w1 l, key_eq_laws keq ->
    thm_with_capacity alloc isize_max K V esz n w = (Ret m, w1) -> length l <= n ->
    exists m', run_inserts alloc isize_max keq policy esz l (m, w1) = (Ret tt, (m', w1)) /\
      denotes keq m' (fold_left (fun g '(k, v) => fset keq g k v) l (fempty K V)).
  Proof.
    intros n w m w1 l Hk H Hl. unfold thm_with_capacity in H.
    destruct (@thm_reserve_cases W alloc isize_max K V esz n (hmap_new K V) w) as [(m1 & w2 & Hr & Hi & Hg & Hno)|(w2 & Hr & Hlt)];
      rewrite Hr in H; [|discriminate].
    injection H; intros; subst. apply run_inserts_room; auto; [|lia].
    unfold denotes. rewrite Hi. apply denotes_new.
  Qed.

  (** C16: try_clone.  [g'] is the finite map the copy denotes. *)
  Theorem C16_try_clone : forall (kclone : K -> W -> outcome reserve_error K * W) (vclone : V -> W -> outcome reserve_error V * W) (m : hmap K V) f w r w', key_eq_laws keq -> denotes keq m f ->
    (forall k w1 k' w2, kclone k w1 = (Ret k', w2) -> keq k' k = true) ->
    thm_try_clone alloc isize_max keq policy esz kclone vclone m w = (r, w') ->
    match r with
    | Ret c => exists g, denotes keq c g /\ snd g = snd f /\
                 forall k, match fst f k with
                           | Some v => exists v', fst g k = Some v' /\ is_clone vclone v v'
                           | None => fst g k = None
                           end
    | Err e =>
        (* the table for all the entries was refused before anything was cloned *)
        (e = CapacityOverflow /\ exists e0, alloc (snd f * esz) w = (Refuse e0, w')) \/
        (* or the clone of an entry's key or value failed, and so *)
        (exists k v w1 w2, In (k, v) (items m) /\ (kclone k w1 = (Err e, w2) \/ vclone v w1 = (Err e, w2)))
    | _ => exists k v w1, In (k, v) (items m) /\
             (match r, fst (kclone k w1) with Panic, Panic | Abort, Abort | UB, UB => True | _, _ => False end
              \/ match r, fst (vclone v w1) with Panic, Panic | Abort, Abort | UB, UB => True | _, _ => False end)
    end.
  Proof.
    intros kclone vclone m f w r w' Hk Hm Hkc H. unfold thm_try_clone, thm_with_capacity in H.
    pose proof Hm as (Hd & Ha & Hn).
    destruct (@thm_reserve_cases W alloc isize_max K V esz (length (items m)) (hmap_new K V) w) as [(m1 & w2 & Hr & Hi & Hg & Hno)|(w2 & Hr & Hlt)];
      rewrite Hr in H.
    2:{ injection H as <- <-. left. split; [reflexivity|]. unfold thm_reserve, hmap_try_reserve in Hr.
        destruct (Nat.leb_spec (length (items m)) (growth_left (hmap_new K V))) as [|_]; [lia|]. cbn [items hmap_new length plus] in Hr.
        rewrite <- Hn. destruct (alloc (length (items m) * esz) w) as [[x|e0] w3]; [discriminate|].
        exists e0. f_equal. destruct (make_try_reserve_error alloc isize_max _); inversion Hr; reflexivity. }
    assert (Hm1 : denotes keq m1 (fempty K V)).
    { unfold denotes. rewrite Hi. apply denotes_new. }
    pose proof (@thm_clone_loop_ok W alloc isize_max K V keq Hk policy esz kclone vclone Hkc (items m) m1 (fempty K V) w2 Hm1 Hg) as Hc.
    specialize (Hc Hd ltac:(reflexivity)).
    destruct (thm_clone_loop alloc isize_max keq policy esz kclone vclone (thm_iter m) (m1, w2)) as [o [c w3]] eqn:El.
    unfold thm_iter in El. rewrite El in Hc.
    destruct o; injection H; intros; subst; auto.
    - destruct Hc as (g & Hg' & Hgn & Hl). exists g. split; [exact Hg'|]. split; [simpl in Hgn; lia|].
      intros k. specialize (Hl k). rewrite Ha in Hl. exact Hl.
    - right. destruct Hc as [(k & v & w4 & Hin & Hx)|(k & v & w4 & Hin & Hx)].
      + destruct (kclone k w4) as [[] w5] eqn:Ek; cbn in Hx; try contradiction. subst. exists k, v, w4, w5. auto.
      + destruct (vclone v w4) as [[] w5] eqn:Ek; cbn in Hx; try contradiction. subst. exists k, v, w4, w5. auto.
    - destruct Hc as [(k & v & w4 & Hin & Hx)|(k & v & w4 & Hin & Hx)]; exists k, v, w4; auto.
    - destruct Hc as [(k & v & w4 & Hin & Hx)|(k & v & w4 & Hin & Hx)]; exists k, v, w4; auto.
    - destruct Hc as [(k & v & w4 & Hin & Hx)|(k & v & w4 & Hin & Hx)]; exists k, v, w4; auto.
  Qed.
End HashMap.

(** *** Non-vacuity *)
Example ex_exact : exact_alloc (fun (n : nat) (w : nat) => match w with 0 => (Refuse AllocError, 0) | S w' => (Grant 0, w') end).
Proof. intros n w e w' E. destruct w; [discriminate|]. now injection E. Qed.

Example ex_format : exists v, try_format (fun _ (w : nat) => (Grant 0, w)) 1000 5 [FStr [1; 2]; FStr [3]] 0 = (Ret v, 0) /\
  as_slice v = Some [1; 2; 3].
Proof. eexists. split; [reflexivity|]. vm_compute. reflexivity. Qed.

(** a reader over a byte list that delivers at most 2 bytes per read *)
Definition list_reader (r : list nat) (n : nat) : read_result nat * list nat :=
  (RData (firstn (min n 2) r), skipn (min n 2) r).
Example ex_reader_bounded : read_bounded list_reader.
Proof.
  intros r n bs r' E. injection E; intros; subst. rewrite firstn_length. lia.
Qed.
Example ex_read : exists v,
  try_read_up_to (fun _ (w : nat) => (Grant 3, w)) 1000 list_reader 20 [1; 2; 3; 4; 5; 6; 7] 5 (vec_new nat, 0)
    = Some (Ret 5, (v, 0), [6; 7]) /\ as_slice v = Some [1; 2; 3; 4; 5].
Proof. eexists. split; [vm_compute; reflexivity|]. vm_compute. reflexivity. Qed.

Example ex_keq : key_eq_laws Nat.eqb.
Proof.
  split; [apply Nat.eqb_refl|apply Nat.eqb_sym|]. intros a b c H1 H2.
  apply Nat.eqb_eq in H1. apply Nat.eqb_eq in H2. subst. apply Nat.eqb_refl.
Qed.
Example ex_history :
  run_hops (fun _ w => match w with [] => (Grant 0, []) | a :: w' => (a, w') end) 1000 Nat.eqb (fun _ => false) 16
    [HInsert 1 10; HInsert 2 20; HInsert 1 11; HRemove _ 2; HGet _ 1; HLen _ _]
    (hmap_new nat nat, [Refuse AllocError])
  = [(HInsert 1 10, Err CapacityOverflow); (HInsert 2 20, Ret (HVal _ None)); (HInsert 1 11, Ret (HVal _ None));
     (HRemove _ 2, Ret (HVal _ (Some 20))); (HGet _ 1, Ret (HVal _ (Some 11))); (HLen _ _, Ret (HNum _ _ 1))].
Proof. vm_compute. reflexivity. Qed.

Print Assumptions C11_box_try_new.
Print Assumptions C11_box_fails_only_on_refusal.
Print Assumptions C12_rc_holds_value_partial.
Print Assumptions C12_rc_exact_partial.
Print Assumptions C12_arc_unstable_fallible.
Print Assumptions C12_arc_clone.
Print Assumptions C12_rc_aborts_refuted.
Print Assumptions C13_within_capacity.
Print Assumptions C13_exact_text.
Print Assumptions C13_beyond_capacity_can_abort.
Print Assumptions C14_history.
Print Assumptions C14_refused_insert_changes_nothing.
Print Assumptions C15_insert_never_aborts.
Print Assumptions C15_with_capacity_covers_inserts.
Print Assumptions C16_try_clone.
Print Assumptions C17_read_up_to.
Print Assumptions C18_write_all_or_nothing.
Print Assumptions C18_writes_concatenate.
