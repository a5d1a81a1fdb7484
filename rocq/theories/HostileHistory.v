(** * HostileHistory: every step of a program with comparisons that answer anything. *)
From Coq Require Import List Arith Lia Bool Permutation.
From Verif Require Import Base MapSpec MergeSpec IterSpec BTreeModel BTreeInv BTreeLemmas BTreeSearch BTreeInsert BTreeIterModel BTreeIter BTreeStep BTreeIterProofs.
From Verif Require Import BTreeRange BTreeOps BTreeEntry BTreeWrites BTreeBulkModel BTreeBorder BTreeSplit BTreeAppend BTreeClone BTreeCollect HistoryModel HistoryProofs.
From Verif Require Import HeapModel HeapMapModel HeapArr HeapRep HeapWp HeapNode HeapInsert HeapRemove HeapRes HeapPart HeapMap HeapEntry HeapIter HeapInto HeapSplit HeapAppend HeapClone HeapHistory HeapTorn.
From Verif Require Import HostileModel HostileSpec HostileOps HostileRange HostileSplit HostileAppend.
Import ListNotations.
Set Implicit Arguments.
Unset Strict Implicit.

Section History.
  Variables (K V Q W : Type) (nalloc : bool -> W -> option reserve_error * W) (place : HeapModel.heap K V -> W -> loc).
  Hypothesis place_fresh : forall hp w, hget hp (place hp w) = None.
  Variables (kclone : K -> W -> outcome reserve_error K * W) (vclone : V -> W -> outcome reserve_error V * W).
  Notation kv := (K * V)%type.
  Variables (kcmp : K -> K -> asks W comparison) (qcmp : Q -> K -> asks W comparison) (qeq qgt : Q -> Q -> asks W bool) (view : bound_ Q -> asks W (bound_ Q)).
  Variables (eqb : kv -> kv -> asks W bool) (pcmp : kv -> kv -> asks W (option comparison)).
  Variable sc : Prop.
  Hypotheses (Ck : forall a b, calm sc (kcmp a b)) (Cq : forall a b, calm sc (qcmp a b)) (Ce : forall a b, calm sc (eqb a b)) (Cp : forall a b, calm sc (pcmp a b)).
  Notation heap := (heap K V).
  Notation HM := (HM K V).
  Notation ltree := (ltree K V).
  Notation bmap := (bmap K V).
  Notation src := (src K V).
  Notation res := (res K V).
  Notation op := (op K V Q).
  Notation obs := (obs K V).
  Notation hxstep := (hxstep nalloc place kcmp qcmp qeq qgt view kclone vclone eqb pcmp).
  (** the order that explains every list *)
  Notation lt := (fun _ _ : K => Lt).
  Notation rep := (rep lt).
  Notation no_memory := (no_memory nalloc).
  Notation copy := (cloned kclone vclone).
  Notation clone_fails := (clone_fails nalloc kclone vclone).
  Notation loose := (loose no_memory copy clone_fails sc).
  Notation gave_up := (gave_up (K := K) (V := V) (Q := Q) no_memory sc).
  Implicit Types (hp : heap).

  Lemma lt_sorted (l : list kv) : sorted lt l.
  Proof using.
    clear. unfold sorted. induction l as [|x l IH]; constructor; auto. apply Forall_forall. intros y _. reflexivity.
  Qed.
  Lemma lt_valid (m : bmap) : sound m -> valid lt m.
  Proof using. clear. intros Hm. split; [exact Hm|apply lt_sorted]. Qed.

  (** a single insertion, into [r] *)
  Definition adds (c : op) (r : nat) : Prop :=
    match c with Insert r0 _ _ | Replace r0 _ _ | EntryOr r0 _ _ _ => r0 = r | _ => False end.

  (** what a step may do; a refused insertion leaves a map whose length exceeds its entries *)
  Definition okay (c : op) (S : nat -> list kv) hp (rs : list res) (x : outcome reserve_error obs * hregs * heap * W) : Prop :=
    let '(o, s2', hp', _) := x in
    (exists S', loose c S o S' /\
       (o = Abort \/ o = UB \/ exists s1' ss' rs', reps s2' s1' ss' /\ held ss' rs' /\ goes hp rs hp' rs' /\ rep s1' S')) \/
    (gave_up c S o /\ exists s1' ss' rs' lost, reps (K := K) (V := V) s2' s1' ss' /\ held ss' rs' /\ goes hp rs hp' (rs' ++ lost) /\
       forall r, adds c r -> damaged (s1' r) (ss' r)).

  Section Step.
    Variables (s1 : regs K V) (s2 : hregs) (ss : nat -> src) (rs : list res) (hp : heap) (S : nat -> list kv).
    Hypothesis (R : reps s2 s1 ss) (H : held ss rs) (O : own hp rs) (RS : rep s1 S).

    Lemma snd_reg r : sound (s1 r).
    Proof using RS. clear R H O. destruct (RS r) as [[Hm _] _]. exact Hm. Qed.
    Lemma ent_reg r : entries (s1 r) = S r.
    Proof using RS. clear R H O. apply (RS r). Qed.
    Lemma is_refl (T : nat -> list kv) : is T T.
    Proof using. clear. intros i. reflexivity. Qed.

    Lemma ok_same c o (w : W) : loose c S o S -> okay c S hp rs (o, s2, hp, w).
    Proof using R H O RS.
      intros L. left. exists S. split; [exact L|]. right. right. exists s1, ss, rs. split; [exact R|]. split; [exact H|]. split; [now apply goes_refl|exact RS].
    Qed.
    Lemma ok_reg c r o m2' m1' s' hp' (w : W) s2' : (forall i, s2' i = hup_ s2 r m2' i) -> mrep m2' m1' s' -> goes hp (sres (ss r)) hp' (sres s') -> sound m1' ->
      loose c S o (put S r (entries m1')) -> okay c S hp rs (o, s2', hp', w).
    Proof using R H O RS.
      intros E R' G Hm L. left. exists (put S r (entries m1')). split; [exact L|]. right. right.
      destruct (held_focus r H) as (rest & P & F). exists (upd s1 r m1'), (upd ss r s'), (sres s' ++ rest). split; [|split; [apply F|split]].
      - intros i. rewrite E. unfold hup_, upd. destruct (i =? r); [exact R'|apply R].
      - pose proof (goes_fst (b := rest) G (own_perm P O)) as G2. eapply goes_perm; [symmetry; exact P|reflexivity|exact G2].
      - intros i. unfold upd, put. destruct (i =? r); [split; [now apply lt_valid|reflexivity]|apply RS].
    Qed.
    (** the variable keeps its list *)
    Lemma ok_keep c r o m2' m1' s' hp' (w : W) s2' : (forall i, s2' i = hup_ s2 r m2' i) -> mrep m2' m1' s' -> goes hp (sres (ss r)) hp' (sres s') -> sound m1' ->
      entries m1' = entries (s1 r) -> (forall S', is S S' -> loose c S o S') -> okay c S hp rs (o, s2', hp', w).
    Proof using R H O RS.
      intros E R' G Hm Ee L. eapply ok_reg; [exact E|exact R'|exact G|exact Hm|]. apply L. intros i. unfold put. destruct (Nat.eqb_spec i r) as [->|]; [|reflexivity].
      rewrite Ee. apply ent_reg.
    Qed.
    Lemma ok_regs c r t o m2r m1r sr m2t m1t st hp' (w : W) s2' : r <> t -> (forall i, s2' i = hup_ (hup_ s2 r m2r) t m2t i) -> mrep m2r m1r sr -> mrep m2t m1t st ->
      goes hp (sres (ss r) ++ sres (ss t)) hp' (sres sr ++ sres st) -> sound m1r -> sound m1t ->
      loose c S o (put (put S r (entries m1r)) t (entries m1t)) -> okay c S hp rs (o, s2', hp', w).
    Proof using R H O RS.
      intros Ne E R1 R2 G Hr Ht L. left. eexists. split; [exact L|]. right. right.
      destruct (held_focus2 Ne H) as (rest & P & F). exists (upd (upd s1 r m1r) t m1t), (upd (upd ss r sr) t st), (sres sr ++ sres st ++ rest). split; [|split; [apply F|split]].
      - intros i. rewrite E. unfold hup_, upd. destruct (i =? t); [exact R2|]. destruct (i =? r); [exact R1|apply R].
      - rewrite app_assoc in P. pose proof (goes_fst (b := rest) G (own_perm P O)) as G2. eapply goes_perm; [symmetry; exact P| |exact G2].
        rewrite <- !app_assoc. reflexivity.
      - intros i. unfold upd, put. destruct (i =? t); [split; [now apply lt_valid|reflexivity]|]. destruct (i =? r); [split; [now apply lt_valid|reflexivity]|apply RS].
    Qed.
    Lemma up_reg c r o m2' m1' s' lost hp' (w : W) s2' : (forall i, s2' i = hup_ s2 r m2' i) -> mrep m2' m1' s' -> goes hp (sres (ss r)) hp' (sres s' ++ lost) ->
      gave_up c S o -> (forall t, adds c t -> t = r /\ damaged m1' s') -> okay c S hp rs (o, s2', hp', w).
    Proof using R H O.
      clear RS. intros E R' G L Hd. right. split; [exact L|].
      destruct (held_focus r H) as (rest & P & F). exists (upd s1 r m1'), (upd ss r s'), (sres s' ++ rest), lost. split; [|split; [apply F|split]].
      - intros i. rewrite E. unfold hup_, upd. destruct (i =? r); [exact R'|apply R].
      - pose proof (goes_fst (b := rest) G (own_perm P O)) as G2. eapply goes_perm; [symmetry; exact P| |exact G2].
        rewrite <- !app_assoc. apply Permutation_app_head, Permutation_app_comm.
      - intros t Ht. apply Hd in Ht as [-> Ht]. unfold upd. now rewrite Nat.eqb_refl.
    Qed.
    Lemma up_regs c r t o m2r m1r sr m2t m1t st lost hp' (w : W) s2' : r <> t -> (forall i, s2' i = hup_ (hup_ s2 r m2r) t m2t i) -> mrep m2r m1r sr -> mrep m2t m1t st ->
      goes hp (sres (ss r) ++ sres (ss t)) hp' (sres sr ++ sres st ++ lost) -> gave_up c S o -> (forall r, ~ adds c r) -> okay c S hp rs (o, s2', hp', w).
    Proof using R H O.
      clear RS. intros Ne E R1 R2 G L Na. right. split; [exact L|].
      destruct (held_focus2 Ne H) as (rest & P & F). exists (upd (upd s1 r m1r) t m1t), (upd (upd ss r sr) t st), (sres sr ++ sres st ++ rest), lost. split; [|split; [apply F|split]].
      - intros i. rewrite E. unfold hup_, upd. destruct (i =? t); [exact R2|]. destruct (i =? r); [exact R1|apply R].
      - rewrite app_assoc in P. pose proof (goes_fst (b := rest) G (own_perm P O)) as G2. eapply goes_perm; [symmetry; exact P| |exact G2].
        rewrite <- !app_assoc. do 2 apply Permutation_app_head. apply Permutation_app_comm.
      - intros i Hi. destruct (Na i Hi).
    Qed.

    (** ** The operations that compare nothing: as in HeapHistory *)
    Lemma of_fine (c : op) (c0 : HistoryModel.op K V K) x1 x2 : fine c0 S hp rs x1 x2 ->
      good lt (fun _ _ : K => Lt) (fun k => k) nalloc kclone vclone (fun _ _ : kv => true) (fun _ _ : kv => None) c0 S x1 ->
      (forall o, ~ quits c0 S o) -> (forall o, ~ HistorySpec.gave_up lt no_memory c0 S o) ->
      (forall o S', HistorySpec.spec lt (fun _ _ : K => Lt) (fun k => k) (fun _ _ : kv => true) (fun _ _ : kv => None) no_memory copy clone_fails c0 S o S' -> loose c S o S') ->
      okay c S hp rs x2.
    Proof using.
      clear. intros F G Nq Ng HL. destruct x1 as [[o s1'] w1], x2 as [[[o2 s2'] hp'] w2]. destruct F as (-> & -> & F).
      destruct G as [(S' & HS & RS')|G]; [|destruct (Ng _ G)]. left. exists S'. split; [now apply HL|].
      destruct o as [a|e| | |]; auto; right; right; destruct F as (ss' & rs' & lost & F1 & F2 & F3 & [-> |F4]); try (destruct (Nq _ F4)); rewrite app_nil_r in F3; eauto 8.
    Qed.
    Notation ku := (fun _ _ : K => Lt) (only parsing).
    Lemma new_o r (w : W) : okay (New r) S hp rs (hxstep (New r) s2 hp w).
    Proof using R H O RS.
      refine (of_fine (c0 := New r) (proj1 (@clear_sim K V K _ ku (fun k => k) W nalloc place kclone vclone (fun _ _ => true) (fun _ _ => None) _ _ _ _ _ _ R H O RS r w))
        (proj1 (@clear_step K V K _ ku (fun k => k) W nalloc kclone vclone (fun _ _ => true) (fun _ _ => None) r _ _ w RS)) _ _ _); cbn; auto.
    Qed.
    Lemma clear_o r (w : W) : okay (Clear r) S hp rs (hxstep (Clear r) s2 hp w).
    Proof using R H O RS.
      refine (of_fine (c0 := Clear r) (proj2 (@clear_sim K V K _ ku (fun k => k) W nalloc place kclone vclone (fun _ _ => true) (fun _ _ => None) _ _ _ _ _ _ R H O RS r w))
        (proj2 (@clear_step K V K _ ku (fun k => k) W nalloc kclone vclone (fun _ _ => true) (fun _ _ => None) r _ _ w RS)) _ _ _); cbn; auto.
    Qed.
    Lemma len_o r (w : W) : okay (Len r) S hp rs (hxstep (Len r) s2 hp w).
    Proof using R H O RS.
      refine (of_fine (c0 := Len r) (proj1 (@len_sim K V K lt ku (fun k => k) W nalloc place kclone vclone (fun _ _ => true) (fun _ _ => None) _ _ _ _ _ _ R H O r w))
        (proj1 (@len_step K V K _ ku (fun k => k) W nalloc kclone vclone (fun _ _ => true) (fun _ _ => None) r _ _ w RS)) _ _ _); cbn; auto.
    Qed.
    Lemma empty_o r (w : W) : okay (IsEmpty r) S hp rs (hxstep (IsEmpty r) s2 hp w).
    Proof using R H O RS.
      refine (of_fine (c0 := IsEmpty r) (proj2 (@len_sim K V K lt ku (fun k => k) W nalloc place kclone vclone (fun _ _ => true) (fun _ _ => None) _ _ _ _ _ _ R H O r w))
        (proj2 (@len_step K V K _ ku (fun k => k) W nalloc kclone vclone (fun _ _ => true) (fun _ _ => None) r _ _ w RS)) _ _ _); cbn; auto.
    Qed.
    Lemma iterate_o r cs (w : W) : okay (Iterate r cs) S hp rs (hxstep (Iterate r cs) s2 hp w).
    Proof using R H O RS.
      refine (of_fine (c0 := Iterate r cs) (@iterate_sim K V K _ ku (fun k => k) W nalloc place kclone vclone (fun _ _ => true) (fun _ _ => None) _ _ _ _ _ _ R H O RS r cs w)
        (@iterate_step K V K _ ku (fun k => k) W nalloc kclone vclone (fun _ _ => true) (fun _ _ => None) r cs _ _ w RS) _ _ _); cbn; auto.
    Qed.
    Lemma into_o r cs (w : W) : okay (IntoIter_ r cs) S hp rs (hxstep (IntoIter_ r cs) s2 hp w).
    Proof using R H O RS.
      refine (of_fine (c0 := IntoIter_ r cs) (@into_sim K V K _ ku (fun k => k) W nalloc place kclone vclone (fun _ _ => true) (fun _ _ => None) _ _ _ _ _ _ R H O RS r cs w)
        (@into_step K V K _ ku (fun k => k) W nalloc kclone vclone (fun _ _ => true) (fun _ _ => None) r cs _ _ w RS) _ _ _); cbn; auto.
    Qed.

    (** ** Insertions *)
    Lemma insert_o r k v (w : W) : okay (Insert r k v) S hp rs (hxstep (Insert r k v) s2 hp w).
    Proof using R H O RS Ck place_fresh.
      cbn [HostileModel.hxstep].
      destruct (@try_insert_h K V W nalloc place place_fresh sc kcmp Ck k v _ _ _ hp w (R r) (own_reg H O r) (snd_reg r)) as (o & m2' & m1' & s' & lost & hp' & w' & -> & R' & G & M).
      rewrite ent_reg in M. destruct o as [a|e| | |]; try contradiction; cbn [fmap omap].
      - destruct M as (-> & Hm & I). rewrite app_nil_r in G. eapply ok_reg; [intros i; reflexivity|exact R'|exact G|exact Hm|]. left. exists a, (entries m1'). split; [exact I|]. split; [reflexivity|apply is_refl].
      - destruct M as (Hr & [(-> & Hm & Ee & E0)|[L Hd]]).
        + rewrite app_nil_r in G. eapply ok_keep; [intros i; reflexivity|exact R'|exact G|exact Hm|now rewrite ent_reg|]. intros S' HS. right. left. exists e. auto.
        + eapply up_reg; [intros i; reflexivity|exact R'|exact G| |]; [exists e; auto|intros t <-; auto].
      - destruct M as (Hs & -> & Hm & Ee). rewrite app_nil_r in G. eapply ok_keep; [intros i; reflexivity|exact R'|exact G|exact Hm|now rewrite ent_reg|]. intros S' HS. right. right. auto.
    Qed.
    Lemma replace_o r k v (w : W) : okay (Replace r k v) S hp rs (hxstep (Replace r k v) s2 hp w).
    Proof using R H O RS Ck place_fresh.
      cbn [HostileModel.hxstep].
      destruct (@replace_key_h K V W nalloc place place_fresh sc kcmp Ck k v _ _ _ hp w (R r) (own_reg H O r) (snd_reg r)) as (o & m2' & m1' & s' & lost & hp' & w' & -> & R' & G & M).
      rewrite ent_reg in M. destruct o as [a|e| | |]; try contradiction; cbn [fmap omap].
      - destruct M as (-> & Hm & I). rewrite app_nil_r in G. eapply ok_reg; [intros i; reflexivity|exact R'|exact G|exact Hm|]. left. exists a, (entries m1'). split; [exact I|]. split; [reflexivity|apply is_refl].
      - destruct M as (Hr & [(-> & Hm & Ee & E0)|[L Hd]]).
        + rewrite app_nil_r in G. eapply ok_keep; [intros i; reflexivity|exact R'|exact G|exact Hm|now rewrite ent_reg|]. intros S' HS. right. left. exists e. auto.
        + eapply up_reg; [intros i; reflexivity|exact R'|exact G| |]; [exists e; auto|intros t <-; auto].
      - destruct M as (Hs & -> & Hm & Ee). rewrite app_nil_r in G. eapply ok_keep; [intros i; reflexivity|exact R'|exact G|exact Hm|now rewrite ent_reg|]. intros S' HS. right. right. auto.
    Qed.
    Lemma extend_o r l (w : W) : okay (Extend r l) S hp rs (hxstep (Extend r l) s2 hp w).
    Proof using R H O RS Ck place_fresh.
      cbn [HostileModel.hxstep].
      destruct (@extend_h K V W nalloc place place_fresh sc kcmp Ck l _ _ _ hp w (R r) (own_reg H O r) (snd_reg r)) as (o & m2' & m1' & s' & lost & hp' & w' & -> & R' & G & M).
      rewrite ent_reg in M. destruct o as [a|e| | |]; try contradiction; cbn [fmap omap].
      - destruct M as (-> & Hm & I). rewrite app_nil_r in G. eapply ok_reg; [intros i; reflexivity|exact R'|exact G|exact Hm|]. left. exists (entries m1'). split; [exact I|]. split; [reflexivity|apply is_refl].
      - destruct M as [[L _]|(Hs & -> & Hm & xs1 & xs2 & E & Ne & I)].
        + eapply up_reg; [intros i; reflexivity|exact R'|exact G| |intros t []]. split; [reflexivity|exact L].
        + rewrite app_nil_r in G. eapply ok_reg; [intros i; reflexivity|exact R'|exact G|exact Hm|]. right. exists xs1, xs2, (entries m1').
          split; [exact E|]. split; [exact Ne|]. split; [exact I|]. split; [exact Hs|]. split; [reflexivity|apply is_refl].
    Qed.

    (** ** Removals *)
    Lemma take_o r x (w : W) : okay (Take r x) S hp rs (hxstep (Take r x) s2 hp w) /\ okay (Remove r x) S hp rs (hxstep (Remove r x) s2 hp w).
    Proof using R H O RS Cq.
      cbn [HostileModel.hxstep]. unfold done, abind.
      destruct (@remove_h K V W sc (qcmp x) _ _ _ hp w (fun k => @Cq x k) (R r) (own_reg H O r) (snd_reg r)) as [(y & m2' & m1' & s' & hp' & w' & -> & R' & G & Hm & I)|(Hs & w' & ->)].
      - rewrite ent_reg in I. split; (eapply ok_reg; [intros i; reflexivity|exact R'|exact G|exact Hm|]); left; exists y, (entries m1'); (split; [exact I|]); (split; [reflexivity|apply is_refl]).
      - split; apply ok_same; right; (split; [exact Hs|]); (split; [reflexivity|apply is_refl]).
    Qed.

    (** ** Lookups *)
    Lemma ok_reads c (p : Prop) (m : heap -> W -> outcome reserve_error (obs * hregs) * heap * W) (w : W) : reads p m hp (fun x => snd x = s2 /\ loose c S (Ret (fst x)) S) -> (p -> loose c S Panic S) ->
      okay c S hp rs (done m s2 hp w).
    Proof using R H O RS.
      intros M P. unfold done. destruct (M w) as (o & w' & -> & Mo). destruct o as [[a s']|e| | |]; try contradiction.
      - cbn [fst snd] in Mo. destruct Mo as (-> & L). now apply ok_same.
      - apply ok_same. now apply P.
    Qed.
    Lemma get_o r x (w : W) : okay (Get r x) S hp rs (hxstep (Get r x) s2 hp w) /\ okay (GetKeyValue r x) S hp rs (hxstep (GetKeyValue r x) s2 hp w) /\
      okay (Contains r x) S hp rs (hxstep (Contains r x) s2 hp w) /\ okay (Index r x) S hp rs (hxstep (Index r x) s2 hp w).
    Proof using R H O RS Cq.
      cbn [HostileModel.hxstep]. pose proof (@get_h K V W sc (qcmp x) (fun k => @Cq x k) _ _ _ hp (R r) (own_reg H O r) (snd_reg r)) as M. rewrite ent_reg in M.
      split; [|split; [|split]].
      - eapply ok_reads; [|intros Hs; right; split; [exact Hs|]; split; [reflexivity|apply is_refl]].
        apply reads_bind. eapply reads_mono; [exact M|]. intros y Hy. apply reads_ret. split; [reflexivity|]. left. exists y. split; [exact Hy|]. split; [reflexivity|apply is_refl].
      - eapply ok_reads; [|intros Hs; right; split; [exact Hs|]; split; [reflexivity|apply is_refl]].
        apply reads_bind. eapply reads_mono; [exact M|]. intros y Hy. apply reads_ret. split; [reflexivity|]. left. exists y. split; [exact Hy|]. split; [reflexivity|apply is_refl].
      - eapply ok_reads; [|intros Hs; right; split; [exact Hs|]; split; [reflexivity|apply is_refl]].
        apply reads_bind. eapply reads_mono; [exact M|]. intros y Hy. apply reads_ret. split; [reflexivity|]. left. eexists. split; [|split; [reflexivity|apply is_refl]].
        destruct y as [y|]; [|discriminate]. intros _ E. cbn [one_of] in Hy. rewrite E in Hy. destruct Hy.
      - eapply ok_reads with (p := True); [|intros _; right; split; [reflexivity|apply is_refl]].
        apply reads_bind. eapply reads_mono; [eapply reads_sc; [exact M|auto]|]. intros y Hy. destruct y as [y|]; [|apply reads_panic; exact I].
        apply reads_ret. split; [reflexivity|]. left. exists y. split; [exact Hy|]. split; [reflexivity|apply is_refl].
    Qed.
    Lemma compare_o r t (w : W) : okay (Equal r t) S hp rs (hxstep (Equal r t) s2 hp w) /\ okay (Compare r t) S hp rs (hxstep (Compare r t) s2 hp w).
    Proof using R H O RS Ce Cp.
      cbn [HostileModel.hxstep].
      pose proof (@eq_h K V W sc eqb Ce _ _ _ _ _ _ hp (R r) (R t) (own_reg H O r) (own_reg H O t) (snd_reg r) (snd_reg t)) as M1.
      pose proof (@cmp_h K V W sc pcmp Cp _ _ _ _ _ _ hp (R r) (R t) (own_reg H O r) (own_reg H O t) (snd_reg r) (snd_reg t)) as M2.
      rewrite !ent_reg in M1. split.
      - eapply ok_reads; [|intros Hs; right; split; [exact Hs|]; split; [reflexivity|apply is_refl]].
        apply reads_bind. eapply reads_mono; [exact M1|]. intros b Hb. apply reads_ret. split; [reflexivity|]. left. exists b. split; [reflexivity|]. split; [exact Hb|apply is_refl].
      - eapply ok_reads; [|intros Hs; right; split; [exact Hs|]; split; [reflexivity|apply is_refl]].
        apply reads_bind. eapply reads_mono; [exact M2|]. intros b _. apply reads_ret. split; [reflexivity|]. left. exists b. split; [reflexivity|apply is_refl].
    Qed.
    Lemma hup_id r i : s2 i = hup_ s2 r (s2 r) i.
    Proof using. clear. unfold hup_. destruct (Nat.eqb_spec i r) as [->|]; reflexivity. Qed.
    Lemma get_mut_o r x f (w : W) : okay (GetMut r x f) S hp rs (hxstep (GetMut r x f) s2 hp w).
    Proof using R H O RS Cq.
      cbn [HostileModel.hxstep]. pose proof (@get_mut_h K V W sc (qcmp x) (fun k => @Cq x k) _ _ _ hp (R r) (own_reg H O r) (snd_reg r)) as M.
      unfold done, abind at 1. destruct (M w) as (o & w' & -> & Mo). destruct o as [[p|]|e| | |]; try contradiction.
      - destruct Mo as (a & y & At & Pl). destruct (update_at_ok (write_val f) (snd_reg r) Pl) as (m' & l & l' & Eu & _).
        pose proof (write_m (writes_val f) (R r) (own_reg H O r) At Eu) as Wp. destruct (lift_ok w' Wp) as (v & hp' & E & s' & x' & R' & G & _).
        unfold abind. rewrite E. cbv beta iota delta [aret]. destruct (update_sound (snd_reg r) Pl Eu) as (Hm & l0 & r0 & E1 & E2).
        eapply ok_reg; [intros i; apply hup_id|exact R'|exact G|exact Hm|]. left. exists true, (entries m'). split; [|split; [reflexivity|apply is_refl]].
        rewrite <- ent_reg, E1, E2. constructor.
      - cbv beta iota delta [aret pass omap]. apply ok_same. left. exists false, (S r). split; [constructor|]. split; [reflexivity|]. intros i. unfold put. destruct (Nat.eqb_spec i r) as [->|]; reflexivity.
      - cbv beta iota delta [aret pass omap]. apply ok_same. right. split; [exact Mo|]. split; [reflexivity|apply is_refl].
    Qed.

    (** ** Two maps *)
    Lemma append_o r t (w : W) : r <> t -> okay (Append r t) S hp rs (hxstep (Append r t) s2 hp w).
    Proof using R H O RS Ck place_fresh.
      intros Ne. cbn [HostileModel.hxstep].
      destruct (@append_h K V W sc kcmp Ck nalloc place place_fresh _ _ _ _ _ _ hp w (R r) (R t) (own_regs H O Ne) (snd_reg r) (snd_reg t))
        as (o & m2' & o2' & m1' & o1' & sm' & so' & hp' & w' & lost & -> & R1 & R2 & G & M).
      rewrite !ent_reg in M. destruct o as [a|e| | |]; try contradiction; cbn [fmap omap].
      - destruct M as (-> & Hm & Ho & Wv & E0). rewrite app_nil_r in G. eapply ok_regs; [exact Ne|intros i; reflexivity|exact R1|exact R2|exact G|exact Hm|exact Ho|].
        exists (entries m1'). split; [exact Wv|]. split; [reflexivity|]. rewrite E0. apply is_refl.
      - eapply up_regs; [exact Ne|intros i; reflexivity|exact R1|exact R2|exact G| |intros i []]. split; [reflexivity|exact (proj1 M)].
    Qed.
    Lemma split_o r x t (w : W) : r <> t -> okay (SplitOff r x t) S hp rs (hxstep (SplitOff r x t) s2 hp w).
    Proof using R H O RS Cq place_fresh.
      intros Ne. cbn [HostileModel.hxstep].
      destruct (@split_off_h K V W nalloc place place_fresh sc (qcmp x) (fun k => @Cq x k) _ _ _ hp w (R r) (own_reg H O r) (snd_reg r)) as (o & m2' & m1' & s' & lost & hp' & w' & -> & R' & G & M).
      rewrite ent_reg in M. cbv zeta. destruct o as [r2|e| | |]; try contradiction.
      - destruct M as (r1 & sr & -> & Rr & Hm & Hr & Ee). pose proof (goes_fst G (own_regs H O Ne)) as G1.
        assert (own hp' (sres (ss t))) as Ot by (pose proof (go_own G1) as Q0; apply own_app in Q0; apply Q0).
        destruct (drop_m (R t) Ot (any_reg RS t) (len_reg RS t)) as (l & fr & _ & Wp).
        match goal with |- okay _ _ _ _ (pure ?mm ?s0 _ _) =>
          destruct (@pure_ok K V W mm s0 hp' w' (fun o s' hp'' => o = Ret OUnit /\ s' = hup_ (hup_ s2 r m2') t r2 /\ goes hp' (sres (ss t)) hp'' [])) as (o & s'' & hp'' & E2 & -> & -> & G2) end.
        { apply wp_bind. eapply wp_mono; [exact Wp|]. intros y hp'' (_ & G2). apply wp_ret. auto. }
        rewrite E2. eapply ok_regs; [exact Ne|intros i; reflexivity|exact R'|exact Rr| |exact Hm|exact Hr|].
        + pose proof (goes_trans G1 (goes_snd G2 (go_own G1))) as G3. rewrite !app_nil_r in *. exact G3.
        + left. exists (entries m1'), (entries r1). split; [exact Ee|]. split; [reflexivity|apply is_refl].
      - destruct M as (Hr & -> & -> & ->). cbn [pass omap]. rewrite app_nil_r in G. eapply ok_keep; [intros i; reflexivity|exact R'|exact G|apply snd_reg|reflexivity|].
        intros S' HS. right. exists e. auto.
      - cbn [pass omap]. eapply up_reg; [intros i; reflexivity|exact R'|exact G| |intros i []]. split; [reflexivity|exact (proj1 M)].
    Qed.
    Lemma clone_o r t (w : W) : r <> t -> okay (TryClone r t) S hp rs (hxstep (TryClone r t) s2 hp w) /\ okay (Clone r t) S hp rs (hxstep (Clone r t) s2 hp w).
    Proof using R H O RS place_fresh.
      intros Ne. cbn [HostileModel.hxstep]. unfold h_clone. pose proof (snd_reg r) as Hm.
      pose proof (@try_clone_m K V W nalloc place place_fresh kclone vclone _ _ _ hp w (R r) (own_reg H O r) Hm) as M.
      pose proof (@try_clone_ok K V W nalloc kclone vclone (s1 r) w Hm) as HC.
      destruct (try_clone nalloc kclone vclone (s1 r) w) as [[o d] w']. destruct M as (hp' & o2 & E & M). rewrite E. clear E. destruct HC as [Hd HC].
      assert (forall c o', goes hp [] hp' [] -> loose c S o' S -> okay c S hp rs (o', s2, hp', w')) as Same.
      { intros c o' G L. left. exists S. split; [exact L|]. right. right. exists s1, ss, rs. split; [exact R|]. split; [exact H|]. split; [exact (goes_add G O)|exact RS]. }
      assert (forall c o', loose c S o' S -> o' = Abort \/ o' = UB -> okay c S hp rs (o', s2, hp', w')) as Dead.
      { intros c o' L D. left. exists S. split; [exact L|]. tauto. }
      destruct o as [m'|e| | |].
      - destruct M as (r2 & sr & -> & Rr & G). cbn [expect]. pose proof (goes_add G (own_reg H O t)) as G1.
        assert (own hp' (sres (ss t))) as Ot by (pose proof (go_own G1) as Q0; apply own_app in Q0; apply Q0).
        destruct (drop_m (R t) Ot (any_reg RS t) (len_reg RS t)) as (l & fr & _ & Wp).
        match goal with |- okay _ _ _ _ (pure ?mm ?s0 _ _) /\ _ =>
          destruct (@pure_ok K V W mm s0 hp' w' (fun o s' hp'' => o = Ret OUnit /\ s' = hup_ s2 t r2 /\ goes hp' (sres (ss t)) hp'' [])) as (o & s'' & hp'' & E2 & -> & -> & G2) end.
        { apply wp_bind. eapply wp_mono; [exact Wp|]. intros y hp'' (_ & G2). apply wp_ret. auto. }
        rewrite E2. pose proof (goes_trans G1 (goes_snd G2 (go_own G1))) as G3. rewrite !app_nil_r in G3. destruct HC as (_ & Hm' & HC). rewrite ent_reg in HC.
        split; (eapply ok_reg; [intros i; reflexivity|exact Rr|exact G3|exact Hm'|]); left; (split; [reflexivity|]); exists (entries m'); (split; [exact HC|apply is_refl]).
      - destruct M as (-> & G). destruct (fault_fails _ _ _ _ _ HC) as (Hf & _). cbn [pass omap expect].
        split; apply Same; auto; right; (exists (Err e)); (split; [exact Hf|]); (split; [reflexivity|]); (split; [discriminate|apply is_refl]).
      - destruct M as (-> & G). destruct (fault_fails _ _ _ _ _ HC) as (Hf & _). cbn [pass omap expect].
        split; apply Same; auto; right; exists Panic; (split; [exact Hf|]); (split; [reflexivity|]); (split; [discriminate|apply is_refl]).
      - rewrite M. destruct (fault_fails _ _ _ _ _ HC) as (Hf & _). cbn [pass omap expect].
        split; apply Dead; auto; right; exists Abort; (split; [exact Hf|]); (split; [reflexivity|]); (split; [discriminate|apply is_refl]).
      - rewrite M. destruct (fault_fails _ _ _ _ _ HC) as (Hf & _). cbn [pass omap expect].
        split; apply Dead; auto; right; exists UB; (split; [exact Hf|]); (split; [reflexivity|]); (split; [discriminate|apply is_refl]).
    Qed.

    (** ** Iterators *)
    Lemma writes_o c r outs houts ws (w : W) m1' : Forall2 (orel (irel (ss r))) outs houts -> write_all (chosen outs ws) (s1 r) = Some m1' -> sound m1' ->
      loose c S (Ret (OItems (map (option_map fst) outs))) (put S r (entries m1')) ->
      exists hp', wp (ref_write_all (hchosen houts ws)) hp (fun _ hp'' => hp'' = hp') /\ okay c S hp rs (Ret (OItems (map (option_map fst) houts)), s2, hp', w).
    Proof using R H O RS.
      intros F E Hm L. pose proof (write_all_m (R r) (own_reg H O r) (chosen_m ws F) E) as Wp. unfold wp in *. destruct (ref_write_all (hchosen houts ws) hp) as [[u hp']|]; [|contradiction].
      exists hp'. split; [reflexivity|]. destruct Wp as (s' & R' & G). rewrite (items_eq F). eapply ok_reg; [intros i; apply hup_id|exact R'|exact G|exact Hm|exact L].
    Qed.
    Lemma iter_mut_o r cs ws (w : W) : okay (IterMut r cs ws) S hp rs (hxstep (IterMut r cs ws) s2 hp w).
    Proof using R H O RS.
      cbn [HostileModel.hxstep]. destruct (iter_wp R H O RS r cs) as (it & outs & it' & Ei & Ec & Pt & Wp).
      destruct (map_iter_ok (s1 r) (any_reg RS r) (len_reg RS r)) as (it0 & E0 & Ok). rewrite Ei in E0. injection E0 as <-.
      pose proof (iter_where Ok Ec) as Ps. destruct (iter_calls cs Ok) as (outs0 & it0' & a' & b' & Ec0 & _ & Out & _). rewrite Ec in Ec0. injection Ec0 as <- <-.
      destruct (writes_calls ws (snd_reg r) Pt) as (m' & Ew & Hm & Ee).
      unfold pure, hbind in Wp |- *. unfold wp in Wp. destruct (h_iter (s2 r) hp) as [[r2 hp1]|]; [|contradiction].
      destruct (hcalls _ _ cs r2 hp1) as [[a hp2]|]; [|contradiction]. destruct Wp as (-> & F & _).
      destruct (@writes_o (IterMut r cs ws) r outs (fst a) ws w m' F Ew Hm) as (hp' & Wp & Fi).
      { rewrite seg_all in Out. unfold entries in Ps, Out. cbn [HostileSpec.loose]. rewrite <- ent_reg. unfold entries at 1 2. rewrite Out. cbn [fst].
        split; [reflexivity|]. unfold positions. rewrite Nat.sub_0_r in Ps. rewrite Ps. rewrite Ee. apply is_refl. }
      unfold wp in Wp. destruct (ref_write_all (hchosen (fst a) ws) hp) as [[u hp2]|]; [|contradiction]. subst hp2. exact Fi.
    Qed.
    Lemma range_o r lo hi cs (w : W) : okay (RangeOver r lo hi cs) S hp rs (hxstep (RangeOver r lo hi cs) s2 hp w).
    Proof using R H O RS.
      cbn [HostileModel.hxstep]. pose proof (@range_calls_h K V W Q qcmp qeq qgt view _ _ _ hp lo hi cs (R r) (own_reg H O r) (snd_reg r)) as M.
      eapply ok_reads with (p := True); [|intros _; right; split; [reflexivity|apply is_refl]].
      intros w0. destruct (M w0) as (o & w' & E & Mo). unfold abind in E |- *.
      destruct (hx_range qcmp qeq qgt view lo hi (s2 r) hp w0) as [[[it|e| | |] hp1] w1]; try (injection E as <- <- <-; first [now destruct Mo | eexists; eexists; split; [reflexivity|exact I]]).
      rewrite E. destruct o as [a|e| | |]; try contradiction; [|eexists; eexists; split; [reflexivity|exact I]].
      eexists. eexists. split; [reflexivity|]. cbn [aret]. cbn [fst snd]. split; [reflexivity|]. left.
      destruct Mo as (outs & x & y & z & F & Ee & Eo & _). exists x, y, z. rewrite <- ent_reg. split; [exact Ee|]. rewrite (items_eq F), Eo. split; [reflexivity|apply is_refl].
    Qed.
    Lemma range_mut_o r lo hi cs ws (w : W) : okay (RangeMut r lo hi cs ws) S hp rs (hxstep (RangeMut r lo hi cs ws) s2 hp w).
    Proof using R H O RS.
      cbn [HostileModel.hxstep]. pose proof (@range_calls_h K V W Q qcmp qeq qgt view _ _ _ hp lo hi cs (R r) (own_reg H O r) (snd_reg r) w) as M.
      assert (forall w', okay (RangeMut r lo hi cs ws) S hp rs (Panic, s2, hp, w')) as Pan.
      { intros w'. apply ok_same. right. split; [reflexivity|apply is_refl]. }
      destruct M as (o & w' & E & Mo). unfold done, abind in E |- *.
      destruct (hx_range qcmp qeq qgt view lo hi (s2 r) hp w) as [[[it|e| | |] hp1] w1]; try (injection E as <- <- <-; first [now destruct Mo | apply Pan]).
      rewrite E. destruct o as [a|e| | |]; try contradiction; [|apply Pan].
      destruct Mo as (outs & x & y & z & F & Ee & Eo & Ps & Pt). destruct (writes_calls ws (snd_reg r) Pt) as (m' & Ew & Hm & Em).
      destruct (@writes_o (RangeMut r lo hi cs ws) r outs (fst a) ws w' m' F Ew Hm) as (hp' & Wp & Fi).
      { left. exists x, y, z. rewrite <- ent_reg. split; [exact Ee|]. rewrite Eo. split; [reflexivity|]. rewrite Ps, Em. apply is_refl. }
      unfold wp in Wp. unfold lift. destruct (ref_write_all (hchosen (fst a) ws) hp) as [[u hp2]|]; [|contradiction]. subst hp2. exact Fi.
    Qed.

    (** ** Entries *)
    Lemma entry_remove_o r k (w : W) : okay (EntryRemove r k) S hp rs (hxstep (EntryRemove r k) s2 hp w).
    Proof using R H O RS Ck place_fresh.
      cbn [HostileModel.hxstep].
      destruct (@try_entry_h K V W nalloc place place_fresh sc kcmp Ck k _ _ _ hp w (R r) (own_reg H O r) (snd_reg r)) as (o & m2 & m1 & s' & hp1 & w1 & -> & R1 & G1 & Hm & Ee & M).
      rewrite ent_reg in Ee, M. cbv zeta. destruct o as [en|e| | |]; try contradiction.
      - destruct M as (T & -> & En). destruct en as [x|k' x].
        + destruct En as (hd & A & Hi & Hk). pose proof (remove_at_m R1 (go_own G1) Hk (A : at_edge (Some T) hd x) Hi) as Wp.
          match goal with |- okay _ _ _ _ (pure ?mm ?s0 _ _) =>
            destruct (@pure_ok K V W mm s0 hp1 w1 (fun o s' hp' => exists a m1' sr m2', remove_entry_at m1 hd = (Ret a, m1') /\ o = Ret (OEntry (Some a)) /\ s' = hup_ s2 r m2' /\
              mrep m2' m1' sr /\ goes hp1 (sres (Some T)) hp' (sres sr))) as (o & s' & hp' & E2 & a & m1' & sr & m2' & E & -> & -> & R' & G) end.
          { apply wp_bind. eapply wp_mono; [exact Wp|]. intros y hp' (m1' & sr & E & R' & G). apply wp_ret. exists (fst y), m1', sr, (snd y). auto. }
          rewrite E2. assert (bshared m1 = false) as Sh by (destruct R1 as (_ & _ & Sh & _); exact Sh).
          destruct (remove_at_sound Hm Sh Hk Hi E) as (Hm' & Rm). rewrite Ee in Rm.
          eapply ok_reg; [intros i; reflexivity|exact R'|exact (goes_trans G1 G)|exact Hm'|]. left. exists (Some a), (entries m1'). split; [exact Rm|]. split; [reflexivity|apply is_refl].
        + eapply ok_keep; [intros i; reflexivity|exact R1|exact G1|exact Hm|now rewrite ent_reg|]. intros S' HS. left. exists None, (S r). split; [constructor|]. split; [reflexivity|].
          intros i. rewrite HS. unfold put. destruct (Nat.eqb_spec i r) as [->|]; reflexivity.
      - destruct M as (Hr & E0). cbn [pass omap]. eapply ok_keep; [intros i; reflexivity|exact R1|exact G1|exact Hm|now rewrite ent_reg|]. intros S' HS. right. left. exists e. auto.
      - cbn [pass omap]. eapply ok_keep; [intros i; reflexivity|exact R1|exact G1|exact Hm|now rewrite ent_reg|]. intros S' HS. right. right. auto.
    Qed.
    Lemma entry_or_o r k f v (w : W) : okay (EntryOr r k f v) S hp rs (hxstep (EntryOr r k f v) s2 hp w).
    Proof using R H O RS Ck place_fresh.
      cbn [HostileModel.hxstep].
      destruct (@try_entry_h K V W nalloc place place_fresh sc kcmp Ck k _ _ _ hp w (R r) (own_reg H O r) (snd_reg r)) as (o & m2 & m1 & s' & hp1 & w1 & -> & R1 & G1 & Hm & Ee & M).
      rewrite ent_reg in Ee, M. cbv zeta. destruct o as [en|e| | |]; try contradiction.
      - destruct M as (T & -> & En). destruct en as [x|k' x].
        + destruct En as (hd & A & Hi & Hk).
          destruct (occ_h (writes_val f) R1 (go_own G1) Hm A Hi Hk) as (m1' & T' & y & l & l' & hd' & R2 & Hm' & E1 & E2 & A' & Hi' & Hk' & Kv & Wp).
          cbn [h_and_modify h_or_try_insert_with]. destruct (lift_ok w1 Wp) as (u & hp2 & E & _ & G2).
          match goal with |- context [lift ?mm hp1 w1] => assert (lift mm hp1 w1 = (Ret tt, hp2, w1)) as E' end.
          { unfold lift, hbind in E |- *. destruct (h_kv_mut x hp1) as [[p hp']|]; [|discriminate E]. destruct (ref_write p f hp') as [[u' hp'']|]; [|discriminate E].
            injection E as <- <-. reflexivity. }
          rewrite E'. clear E E'. destruct (lift_ok w1 (kv_mut_t (go_own G2) A' Hi')) as (p & hp3 & E & -> & At). rewrite E. clear E. cbv beta iota zeta.
          pose proof (@hok_placed _ _ _ _ _ Hk' Kv) as (Pl & _). assert (bnode m1' = HeapRep.erase T') as Nd by (destruct R2 as (_ & _ & _ & Nd); exact Nd). rewrite Nd in Pl.
          pose proof (read_place (go_own G2) At Pl) as Wr.
          match goal with |- okay _ _ _ _ (pure ?mm ?s0 _ _) =>
            destruct (@pure_ok K V W mm s0 hp2 w1 (fun o s' hp' => o = Ret (OVal K (Some (snd (write_val f y)))) /\ s' = s0 /\ hp' = hp2)) as (o & s'' & hp' & E4 & -> & -> & ->) end.
          { apply wp_bind. eapply wp_mono; [exact Wr|]. intros z hp' (-> & ->). apply wp_ret. auto. }
          rewrite E4. eapply ok_reg with (s' := Some T'); [intros i; reflexivity|exact R2|exact (goes_trans G1 G2)|exact Hm'|]. left. exists l, y, l'.
          rewrite <- Ee. split; [exact E1|]. split; [reflexivity|]. rewrite E2. apply is_refl.
        + destruct En as (-> & hd & A & H0 & Hi & Hk). cbn [h_and_modify h_or_try_insert_with lift hret]. cbv beta iota zeta.
          change (lift (hret tt) hp1 w1) with (Ret (E := reserve_error) tt, hp1, w1). cbv beta iota zeta.
          destruct (@vacant_h K V W nalloc place place_fresh k v m2 m1 T hd x hp1 w1 R1 (go_own G1) Hm A H0 Hi Hk) as (o & m2' & m1' & T' & lost & hp' & w' & -> & R' & G & M).
          rewrite Ee in M. destruct o as [p|e| | |]; try contradiction.
          * destruct M as (-> & Hm' & (a & b & E1 & E2) & ad & At & Pl & _).
            assert (bnode m1' = HeapRep.erase T') as Nd by (destruct R' as (_ & _ & _ & Nd); exact Nd). rewrite Nd in Pl.
            pose proof (read_place (go_own G) At Pl) as Wr.
            match goal with |- okay _ _ _ _ (pure ?mm ?s0 _ _) =>
              destruct (@pure_ok K V W mm s0 hp' w' (fun o s' hp'' => o = Ret (OVal K (Some v)) /\ s' = s0 /\ hp'' = hp')) as (o & s'' & hp'' & E4 & -> & -> & ->) end.
            { apply wp_bind. eapply wp_mono; [exact Wr|]. intros z hp'' (-> & ->). apply wp_ret. auto. }
            rewrite E4. eapply ok_reg with (s' := Some T'); [intros i; reflexivity|exact R'|exact (goes_trans G1 G)|exact Hm'|]. right. left. exists a, b.
            split; [exact E1|]. split; [reflexivity|]. rewrite E2. apply is_refl.
          * destruct M as (Hr & L & Hd). cbn [pass omap]. eapply up_reg with (s' := Some T'); [intros i; reflexivity|exact R'|exact (goes_trans G1 G)| |]; [exists e; auto|intros t <-; auto].
      - destruct M as (Hr & E0). cbn [pass omap]. eapply ok_keep; [intros i; reflexivity|exact R1|exact G1|exact Hm|now rewrite ent_reg|]. intros S' HS. right. right. left. exists e. auto.
      - cbn [pass omap]. eapply ok_keep; [intros i; reflexivity|exact R1|exact G1|exact Hm|now rewrite ent_reg|]. intros S' HS. right. right. right. auto.
    Qed.

    (** ** Every operation *)
    Lemma step_o c (w : W) : legal c -> okay c S hp rs (hxstep c s2 hp w).
    Proof using R H O RS Ck Cq Ce Cp place_fresh.
      intros L. destruct c; cbn [legal] in L.
      - apply new_o.
      - apply insert_o.
      - apply replace_o.
      - apply (take_o r x w).
      - apply (take_o r x w).
      - apply (get_o r x w).
      - apply (get_o r x w).
      - apply (get_o r x w).
      - apply (get_o r x w).
      - apply get_mut_o.
      - apply len_o.
      - apply empty_o.
      - apply clear_o.
      - now apply append_o.
      - now apply split_o.
      - now apply (clone_o w L).
      - now apply (clone_o w L).
      - apply extend_o.
      - apply iterate_o.
      - apply range_o.
      - apply iter_mut_o.
      - apply range_mut_o.
      - apply into_o.
      - apply entry_or_o.
      - apply entry_remove_o.
      - apply (compare_o r s w).
      - apply (compare_o r s w).
    Qed.
  End Step.
End History.
