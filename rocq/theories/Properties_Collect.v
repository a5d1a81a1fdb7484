(** * Properties_Collect: collect() that is refused memory (C24)

    C24_collect_refuted runs one collect() to undefined behaviour.  Here: which
    ones are.  A collect() that is refused its first node panics and has done
    nothing; one that is refused any later node is undefined behaviour, always;
    and a collect() of twelve or more different keys needs a second node. *)
From Coq Require Import List Arith Lia Bool Permutation.
From Verif Require Import Base MapSpec IterSpec BTreeModel BTreeInv BTreeLemmas BTreeSearch BTreeInsert BTreeIterModel BTreeBulkModel BTreeClone BTreeCollect SpaceSpec BTreeSpace BTreeOps Properties_BTree HistoryModel HistorySpec HistoryProofs Properties_History Examples.
From Verif Require Import HeapModel HeapMapModel HeapArr HeapRep HeapWp HeapRes HeapMap HeapEntry HeapTorn HeapIter HeapInto HeapSplit HeapHistory HeapSpec HeapMemory Properties_Heap.
From Verif Require Import TouchModel TouchSpec TouchBlind TouchProofs TouchWalk Properties_Touch.
Import ListNotations.
Set Implicit Arguments.

(** an iterator over a list: into_iter() of a Vec *)
Definition give K V W (x : K * V) : next_call K V W := fun w => (Ret (Some x), w).

Section Stuck.
  Variables (K V : Type) (cmp : K -> K -> comparison) (W : Type) (nalloc : bool -> W -> option reserve_error * W).
  Notation kv := (K * V)%type.
  Notation bmap := (bmap K V).
  (** [P]: from here on every request is refused *)
  Variable P : W -> Prop.
  Hypothesis stuck : forall internal w, P w -> fst (nalloc internal w) <> None /\ P (snd (nalloc internal w)).

  Lemma stuck_insert k v (m : bmap) w old m' w' : try_insert nalloc cmp k v m w = (Ret old, m', w') -> P w -> blocks m' = blocks m /\ P w'.
  Proof using stuck.
    intros E Pw. unfold try_insert, try_entry, ensure_root_is_owned, new_leaf in E.
    destruct (bshared m) eqn:Es.
    { destruct (stuck false Pw) as [H _]. destruct (nalloc false w) as [[e|] w1]; [discriminate E|]. now destruct H. }
    unfold search in E. pose proof (@search_ctx K V (cmp k) (bheight m) (bnode m) []) as HS.
    destruct (search_tree (cmp k) (bheight m) (bnode m) []) as [[hd|hd]|]; [| |discriminate E].
    - unfold occupied_insert in E. destruct (into_kv hd) as [x|]; [|discriminate E].
      destruct (update_at _ _ m) as [m2|] eqn:Eu; [|discriminate E]. cbn [omap] in E. injection E as _ <- <-. split; [now apply update_at_blocks in Eu|exact Pw].
    - destruct HS as [E1 _]. cbn [plug] in E1. unfold vacant_insert, leaf_insert in E. destruct (nlen (hn hd) <? CAPACITY).
      + cbn [omap] in E. injection E as _ <- <-. split; [|exact Pw]. unfold blocks. cbn [bshared bnode]. rewrite Es, size_plug, leaf_fit_size, <- size_plug. now rewrite E1.
      + destruct (stuck false Pw) as [H _]. destruct (nalloc false w) as [[e|] w1]; [discriminate E|]. now destruct H.
  Qed.
  Lemma stuck_extend (l : list kv) : forall (m : bmap) w m' w', extend nalloc cmp l m w = (Ret tt, m', w') -> P w -> blocks m' = blocks m /\ P w'.
  Proof using stuck.
    induction l as [|x l IH]; intros m w m' w'; cbn [extend]; [intros E; injection E as <- <-; auto|].
    destruct (try_insert nalloc cmp (fst x) (snd x) m w) as [[o m1] w1] eqn:E1. destruct o as [old| | | |]; try discriminate. intros E Pw.
    destruct (@stuck_insert _ _ _ _ _ _ _ E1 Pw) as [B1 P1]. destruct (IH _ _ _ _ E P1) as [B2 P2]. split; [congruence|exact P2].
  Qed.
End Stuck.

Section Small.
  Variables (K V : Type).
  (** a map in one node has at most eleven entries *)
  Lemma one_node (m : bmap K V) : sound m -> blocks m <= 1 -> length (entries m) <= CAPACITY.
  Proof.
    intros ((F & Hk) & Hs & _) Hb. unfold entries. unfold blocks in Hb. destruct (bshared m) eqn:Es.
    - destruct (Hs eq_refl) as [-> _]. cbn. unfold CAPACITY. lia.
    - rewrite size_eq in Hb. assert (edges (bnode m) = []) as E0.
      { destruct (edges (bnode m)) as [|e es] eqn:Ee; [reflexivity|]. cbn [tot map] in Hb. rewrite tot_cons, (@size_eq K V e) in Hb. exfalso. lia. }
      destruct F as [F _]. destruct (bnode m) as [k es]. cbn [edges] in E0. subst es. rewrite inorder_leaf. exact F.
  Qed.
End Small.

Section Collect.
  Variables (K V Q : Type) (cmp : K -> K -> comparison) (qcmp : Q -> Q -> comparison) (borrow : K -> Q).
  Notation kv := (K * V)%type.
  Notation heap := (heap K V).
  Variables (W : Type) (nalloc : bool -> W -> option reserve_error * W) (place : heap -> W -> loc).
  Variables (kclone : K -> W -> outcome reserve_error K * W) (vclone : V -> W -> outcome reserve_error V * W).
  Variables (eqb : kv -> kv -> bool) (pcmp : kv -> kv -> option comparison).
  Notation tstep := (tstep nalloc place cmp qcmp borrow kclone vclone eqb pcmp).
  Notation give := (@give K V W).
  Hypothesis (L1 : ord_laws cmp).
  Hypothesis place_fresh : forall hp w, hget hp (place hp w) = None.

  Lemma feed_extend (l : list kv) : forall (m : hmap) hp (w : W), h_feed nalloc place cmp (map give l) m hp w = h_extend nalloc place cmp l m hp w.
  Proof using.
    induction l as [|x l IH]; intros m hp w; cbn [map h_feed h_extend]; [reflexivity|]. unfold Properties_Collect.give at 1.
    destruct (h_try_insert nalloc place cmp (fst x) (snd x) m hp w) as [[[o m1] hp1] w1]. destruct o; [apply IH|reflexivity..].
  Qed.
  Lemma s_insert_grown k v (l : list kv) : s_insert cmp k v l <> [].
  Proof using. destruct l as [|[a b] l]; cbn [s_insert]; [discriminate|]. destruct (cmp k a); discriminate. Qed.
  (** an iterator over a list does not end early, and a map with entries is not refused its first node *)
  Lemma s_feed_give (l : list kv) : forall es w o l' w', s_feed cmp (no_memory nalloc) (map give l) es w o l' w' -> es <> [] -> o = Ret tt.
  Proof using.
    induction l as [|x l IH]; intros es w o l' w' H Ne; cbn [map] in H; inversion H; subst; try reflexivity.
    - eapply IH; [eassumption|]. match goal with X : Properties_Collect.give _ _ = _ |- _ => injection X as <- <- end. apply s_insert_grown.
    - match goal with X : Properties_Collect.give _ _ = _ |- _ => injection X as <- <- end. match goal with X : ~ is_ret _ |- _ => destruct (X I) end.
    - congruence.
  Qed.
  Lemma own_nil (hp : heap) : own hp [].
  Proof using. split; [constructor|constructor]. Qed.

  (** what collecting a list does to memory, from the run of layer 1 *)
  Lemma collect_cases x (items : list kv) hp w : 
    match fst (nalloc false w) with
    | Some _ => h_feed nalloc place cmp (map give (x :: items)) h_new hp w = (Panic, h_new, hp, snd (nalloc false w))
    | None => exists o m1 w', extend nalloc cmp (x :: items) (@new K V) w = (o, m1, w') /\
        exists m2 s hp' lost, h_feed nalloc place cmp (map give (x :: items)) h_new hp w = (HistoryModel.cast o, m2, hp', w') /\ 
          ((o = Ret tt /\ mrep m2 m1 s /\ goes hp [] hp' (sres s) /\ valid cmp m1 /\ entries m1 = s_insert_all cmp (x :: items) []) \/
           (o = Panic /\ (exists e, no_memory nalloc e) /\ exists m1', mrep m2 m1' s /\ goes hp [] hp' (sres s ++ lost) /\ damaged m1' s))
    end.
  Proof using L1 place_fresh.
    destruct (nalloc false w) as [[e|] w0] eqn:En; cbn [fst snd].
    - cbn [map h_feed]. unfold Properties_Collect.give at 1. unfold h_try_insert, h_try_entry, h_ensure_root_is_owned, h_new_leaf, abind, new_box. cbn [h_new mroot rl]. rewrite Nat.eqb_refl, En. reflexivity.
    - assert (exists m1 w1, try_insert nalloc cmp (fst x) (snd x) (@new K V) w = (Ret None, m1, w1)) as (m1 & w1 & E1).
      { unfold try_insert, try_entry, ensure_root_is_owned, new_leaf. cbn [new bshared]. rewrite En. cbn. eauto. }
      pose proof (@try_insert_m K V W nalloc place place_fresh cmp (fst x) (snd x) h_new (@new K V) None hp w L1 (mrep_new K V) (own_nil hp) (new_valid V cmp)) as TI.
      pose proof (@try_insert_ok K V W nalloc cmp L1 (fst x) (snd x) (@new K V) w (proj1 (new_valid V cmp)) (proj2 (new_valid V cmp))) as OK.
      rewrite E1 in TI, OK. destruct TI as (s1 & hp1 & m21 & lost & EI & R1 & G1 & ->). rewrite app_nil_r in G1. destruct OK as (_ & Sm & Ee & _).
      assert (valid cmp m1) as Va. { split; [exact Sm|]. rewrite Ee. apply SpecFacts.s_insert_sorted; [exact L1|]. apply new_valid. }
      assert (entries m1 <> []) as Ne by (rewrite Ee; apply s_insert_grown).
      pose proof (@extend_m K V W nalloc place place_fresh cmp items m21 m1 s1 hp1 w1 L1 R1 (go_own G1) Va) as EM.
      destruct (@feed_ok K V cmp W nalloc place L1 place_fresh (map give items) m21 m1 s1 hp1 w1 R1 (go_own G1) Va) as (o & m1' & s' & hp' & m2' & lost & w' & EF & R' & G' & X).
      destruct (extend nalloc cmp items m1 w1) as [[o1 m3] w3] eqn:E3. destruct EM as (s3 & hp3 & m23 & lost3 & E4 & R3 & G3 & Ho1).
      rewrite feed_extend, E4 in EF. injection EF as Eo <- <- <-. assert (o1 = o) as -> by (destruct o1 as [[]|[]| | |], o as [[]|[]| | |]; discriminate Eo || reflexivity). clear Eo.
      exists o, m3, w3. split. { cbn [extend]. rewrite E1. exact E3. }
      assert (h_feed nalloc place cmp (map give (x :: items)) h_new hp w = (HistoryModel.cast o, m23, hp3, w3)) as EF.
      { rewrite feed_extend. cbn [h_extend]. rewrite EI. exact E4. }
      destruct X as [(-> & Va' & X)|(-> & Hm & _ & Hd)].
      + apply s_feed_give in X; [|exact Ne]. subst o. subst lost3. rewrite app_nil_r in G3. exists m23, s3, hp3, []. split; [exact EF|].
        left. split; [reflexivity|]. split; [exact R3|]. split; [exact (goes_trans G1 G3)|].
        pose proof (@extend_ok K V W nalloc cmp L1 items m1 w1 Va) as HX. rewrite E3 in HX. destruct HX as [HX1 HX2]. split; [exact HX1|]. rewrite HX2, Ee. reflexivity.
      + exists m23, s', hp3, lost. split; [exact EF|]. right. split; [reflexivity|]. split; [exact Hm|]. exists m1'. split; [exact R'|]. split; [exact (goes_trans G1 G')|exact Hd].
  Qed.

  (** [let r = items.collect()]: if the first node is refused it panics and nothing has happened; otherwise it succeeds or it is undefined
      behaviour, and it is undefined exactly if a request is refused *)
  Theorem C24_collect_exact : forall r x items s hp w xs o s' hp' w', s r = h_new ->
    tstep (TCollect Q r (map give (x :: items))) s hp w = (xs, o, s', hp', w') ->
    match fst (nalloc false w) with
    | Some _ => o = Panic /\ s' = s /\ hp' = hp /\ w' = snd (nalloc false w)
    | None => (o = Ret (@ToDone K V) <-> fst (fst (from_iter nalloc cmp (x :: items) w)) = Ret tt) /\
              (o = UB <-> fst (fst (from_iter nalloc cmp (x :: items) w)) <> Ret tt) /\
              (o = UB -> exists e, no_memory nalloc e)
    end.
  Proof using L1 place_fresh.
    intros r x items s hp w xs o s' hp' w' Er E. pose proof (collect_cases x items hp w) as C. cbn [TouchModel.tstep] in E.
    destruct (fst (nalloc false w)) as [e|].
    - rewrite C in E. cbn in E. now injection E as <- <- <- <- <-.
    - destruct C as (o1 & m1 & w1 & Ex & m2 & sr & hp1 & lost & Ef & C). unfold from_iter. rewrite Ex. cbn [fst]. rewrite Ef in E.
      destruct C as [(-> & R & G & Va & _)|(-> & Hm & m1' & R & G & Hd)]; cbn [HistoryModel.cast] in E.
      + rewrite Er in E. cbn in E. injection E as <- <- <- <- <-. split; [tauto|]. split; [split; [discriminate|congruence]|discriminate].
      + pose proof (go_own G) as Ol. apply own_app in Ol as (Ol & _ & _). rewrite (h_drop_damaged R Ol Hd) in E. injection E as <- <- <- <- <-.
        split; [split; discriminate|]. split; [split; [discriminate|reflexivity]|auto].
  Qed.

  Lemma insert_all_length (l : list kv) : forall es, sorted cmp es -> ForallOrdPairs (fun a b => cmp (fst a) (fst b) <> Eq) l -> (forall x, In x l -> s_get (cmp (fst x)) es = None) ->
    length (s_insert_all cmp l es) = length es + length l.
  Proof using L1.
    induction l as [|x l IH]; intros es So Hd Hf; [cbn; lia|]. inversion Hd as [|? ? H1 H2]; subst. 
    change (s_insert_all cmp (x :: l) es) with (s_insert_all cmp l (s_insert cmp (fst x) (snd x) es)). rewrite IH; [|now apply SpecFacts.s_insert_sorted|exact H2|].
    - rewrite (SpecFacts.s_insert_length L1) by exact So. rewrite Hf by now left. cbn [length]. lia.
    - intros y Hy. rewrite (SpecFacts.s_get_insert_other L1); [apply Hf; now right|].
      rewrite Forall_forall in H1. specialize (H1 y Hy). intros E. apply H1. now rewrite (cmp_antisym L1), E.
  Qed.
  (** every collect() of at least twelve different keys is undefined behaviour when it is refused everything after its first node: at any
      moment, whatever the program has done before *)
  Theorem C24_collect_all_refuted : forall (P : W -> Prop) r items s hp w,
    ForallOrdPairs (fun a b => cmp (fst a) (fst b) <> Eq) items -> 12 <= length items ->
    fst (nalloc false w) = None -> P (snd (nalloc false w)) -> (forall internal w, P w -> fst (nalloc internal w) <> None /\ P (snd (nalloc internal w))) ->
    exists hp' w', tstep (TCollect Q r (map give items)) s hp w = ([], UB, s, hp', w').
  Proof using L1 place_fresh.
    intros P r [|x items] s hp w Hd Hl En Pn Hs; [cbn in Hl; lia|]. pose proof (collect_cases x items hp w) as C. rewrite En in C.
    destruct C as (o1 & m1 & w1 & Ex & m2 & sr & hp1 & lost & Ef & C). cbn [TouchModel.tstep]. rewrite Ef.
    destruct C as [(-> & R & G & Va & Ee)|(-> & Hm & m1' & R & G & Hx)]; cbn [HistoryModel.cast].
    - exfalso. cbn [extend] in Ex. destruct (try_insert nalloc cmp (fst x) (snd x) (@new K V) w) as [[o m3] w3] eqn:E1.
      unfold try_insert, try_entry, ensure_root_is_owned, new_leaf in E1. cbn [new bshared] in E1. destruct (nalloc false w) as [[?|] w2]; [discriminate En|]. cbn [snd] in Pn.
      cbn in E1. injection E1 as <- <- <-. destruct (@stuck_extend K V cmp W nalloc P Hs items _ _ _ _ Ex Pn) as [B _]. 
      pose proof (@one_node K V m1 (proj1 Va)) as H1. rewrite B in H1. cbn in H1. specialize (H1 ltac:(lia)). rewrite Ee in H1.
      rewrite insert_all_length in H1; [cbn [length] in *; unfold CAPACITY in H1; lia|constructor|exact Hd|reflexivity].
    - pose proof (go_own G) as Ol. apply own_app in Ol as (Ol & _ & _). rewrite (h_drop_damaged R Ol Hx). eauto.
  Qed.
End Collect.

(** ** Examples: what is promised is met, with a budget of nodes *)
Notation ecollect n w := (tstep budget (@place_reuse nat nat nat) Nat.compare Nat.compare (fun k => k) copy_ copy_
  (fun x y : nat * nat => (fst x =? fst y) && (snd x =? snd y)) (fun x y => Some (Nat.compare (fst x) (fst y)))
  (TCollect nat 0 (map (@give nat nat nat) (map (fun k => (k, k)) (seq 0 n)))) hstart [] w).
Example collect_outcomes : map (fun x => snd (fst (fst (fst x)))) [ecollect 12 0; ecollect 11 1; ecollect 12 1; ecollect 12 2; ecollect 12 3; ecollect 200 5] =
  [Panic; Ret (@ToDone nat nat); UB; UB; Ret (@ToDone nat nat); UB].
Proof. vm_compute. reflexivity. Qed.
Example collect_hundred : exists hp' w', ecollect 100 1 = ([], UB, hstart, hp', w').
Proof.
  apply C24_collect_all_refuted with (P := fun w => w = 0); auto using nat_laws, place_reuse_fresh.
  - assert (forall n m, ForallOrdPairs (fun a b : nat * nat => Nat.compare (fst a) (fst b) <> Eq) (map (fun k => (k, k)) (seq m n))) as H; [|apply H].
    induction n as [|n IH]; intros m; [constructor|]. cbn [seq map]. constructor; [|apply IH]. rewrite Forall_map, Forall_forall. intros x Hx. apply in_seq in Hx. cbn.
    intros E. apply Nat.compare_eq in E. lia.
  - rewrite !map_length, seq_length. lia.
  - intros i w ->. split; [discriminate|reflexivity].
Qed.

Print Assumptions C24_collect_exact.
Print Assumptions C24_collect_all_refuted.
