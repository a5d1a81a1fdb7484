(** * HostileOps: searching with comparisons that answer anything; lookups, insertion, removal. *)
From Coq Require Import List Arith Lia Bool Permutation.
From Verif Require Import Base MapSpec IterSpec BTreeModel BTreeInv BTreeLemmas BTreeSearch BTreeInsert BTreeIterModel BTreeIter BTreeStep BTreeIterProofs.
From Verif Require Import BTreeRemove BTreeOps BTreeEntry BTreeWrites BTreeBulkModel BTreeCollect HistoryModel.
From Verif Require Import HeapModel HeapMapModel HeapArr HeapRep HeapWp HeapNode HeapOps HeapOps2 HeapOps3 HeapOps4 HeapZip HeapRemove HeapSearch HeapInsert HeapRes HeapPart HeapMap HeapEntry HeapTorn.
From Verif Require Import HostileModel HostileSpec.
Import ListNotations.
Set Implicit Arguments.
Unset Strict Implicit.

Section Ops.
  Variables (K V W : Type).
  Notation kv := (K * V)%type.
  Notation heap := (heap K V).
  Notation HM := (HM K V).
  Notation AM := (AM K V W).
  Notation ltree := (ltree K V).
  Notation lroot := (@lroot K V).
  Notation erase := (@erase K V).
  Notation bmap := (bmap K V).
  Notation res := (res K V).
  Implicit Types (hp : heap).

  (** a computation that changes no memory; [sc]: it may panic *)
  Definition reads (A : Type) (sc : Prop) (m : AM A) hp (P : A -> Prop) : Prop :=
    forall w : W, exists o w', m hp w = (o, hp, w') /\ match o with Ret a => P a | Panic => sc | _ => False end.
  Lemma reads_ret A sc (a : A) hp (P : A -> Prop) : P a -> reads sc (@aret K V W _ a) hp P.
  Proof. intros H w. exists (Ret a), w. auto. Qed.
  Lemma reads_bind A B sc (m : AM A) (f : A -> AM B) hp P : reads sc m hp (fun a => reads sc (f a) hp P) -> reads sc (abind m f) hp P.
  Proof.
    intros H w. destruct (H w) as (o & w' & E & Ho). unfold abind. rewrite E. destruct o as [a|e| | |]; try contradiction.
    - apply Ho.
    - exists Panic, w'. auto.
  Qed.
  Lemma reads_mono A sc (m : AM A) hp (P P' : A -> Prop) : reads sc m hp P -> (forall a, P a -> P' a) -> reads sc m hp P'.
  Proof. intros H I w. destruct (H w) as (o & w' & E & Ho). exists o, w'. split; [exact E|]. destruct o; auto. Qed.
  Lemma reads_sc A (sc sc' : Prop) (m : AM A) hp P : reads sc m hp P -> (sc -> sc') -> reads sc' m hp P.
  Proof. intros H I w. destruct (H w) as (o & w' & E & Ho). exists o, w'. split; [exact E|]. destruct o; auto. Qed.
  Lemma reads_lift A sc (m : HM A) hp (P : A -> Prop) : wp m hp (fun a hp' => hp' = hp /\ P a) -> reads sc (lift m) hp P.
  Proof. intros H w. destruct (lift_ok w H) as (a & hp' & E & -> & Ha). exists (Ret a), w. auto. Qed.
  Lemma reads_panic A (sc : Prop) hp (P : A -> Prop) : sc -> reads sc (fun hp w => (Panic, hp, w)) hp P.
  Proof. intros H w. exists Panic, w. auto. Qed.
  (** a comparison whose panics are allowed *)
  Definition calm (sc : Prop) (A : Type) (q : asks W A) : Prop := forall w w', q w = (None, w') -> sc.
  Lemma reads_ask A (sc : Prop) (q : asks W A) hp (P : A -> Prop) : calm sc q -> (forall a, P a) -> reads sc (ask (K := K) (V := V) q) hp P.
  Proof.
    intros C H w. unfold ask. destruct (q w) as [[a|] w'] eqn:E.
    - exists (Ret a), w'. auto.
    - exists Panic, w'. split; [reflexivity|]. eapply C. exact E.
  Qed.

  Section Search.
    Variables (sc : Prop) (q : K -> asks W comparison).
    Hypothesis C : forall k, calm sc (q k).

    Lemma linear_h (l : list K) hp : reads sc (hx_linear (V := V) q l) hp (fun r => fst r <= length l /\ (snd r = true -> fst r < length l)).
    Proof using C.
      induction l as [|k l IH]; cbn [hx_linear].
      - apply reads_ret. cbn. split; [lia|discriminate].
      - apply reads_bind. apply reads_ask; [apply C|]. intros [| |].
        + apply reads_ret. cbn. split; lia.
        + apply reads_ret. cbn. split; [lia|discriminate].
        + apply reads_bind. eapply reads_mono; [exact IH|]. intros [i b] [H1 H2]. apply reads_ret. cbn in *. split; [lia|]. intros Hb. specialize (H2 Hb). lia.
    Qed.
    Lemma node_h h (t : ltree) hp us : owned hp (t :: us) ->
      reads sc (hx_search_linear q (NR h (lroot t))) hp (fun r => fst r <= length (lks t) /\ (snd r = true -> fst r < length (lks t))).
    Proof using C.
      intros O. unfold hx_search_linear. apply reads_bind. apply reads_lift. eapply wp_keys_t; [exact O|]. split; [reflexivity|].
      rewrite <- (map_length fst (lks t)). apply linear_h.
    Qed.
    Lemma search_h h : forall (t : ltree) hp us fuel, h < fuel -> owned hp (t :: us) -> kids any h (erase t) ->
      reads sc (hx_search_tree fuel q (NR h (lroot t))) hp (fun r =>
        exists t' c' h' i, t = lplug t' c' /\ h' + length c' = h /\
          ((r = HFound (NR h' (lroot t'), i) /\ i < length (lks t')) \/ (r = HGoDown (NR h' (lroot t'), i) /\ h' = 0 /\ i <= length (lks t')))).
    Proof using C.
      induction h as [|h IH]; intros t hp us fuel Fu O Hk; (destruct fuel as [|fuel]; [lia|]); cbn [hx_search_tree rh].
      - apply reads_bind. eapply reads_mono; [exact (node_h 0 O)|]. intros [i b] [L1 L2]. cbn [fst snd] in *. destruct b.
        + apply reads_lift. st wp_kv_t; [exact O|auto|]. apply wp_ret. split; [reflexivity|]. exists t, [], 0, i. auto 6.
        + apply reads_bind. apply reads_lift. eapply wp_edge_t; [exact O|auto|]. split; [reflexivity|]. apply reads_ret. exists t, [], 0, i. auto 6.
      - apply reads_bind. eapply reads_mono; [exact (node_h (S h) O)|]. intros [i b] [L1 L2]. cbn [fst snd] in *. destruct b.
        + apply reads_lift. st wp_kv_t; [exact O|auto|]. apply wp_ret. split; [reflexivity|]. exists t, [], (S h), i. split; [reflexivity|]. split; [cbn; lia|]. auto.
        + apply reads_bind. apply reads_lift. eapply wp_edge_t; [exact O|auto|]. split; [reflexivity|]. apply reads_bind. apply reads_lift.
          destruct (@down_t _ _ any h t i Hk L1) as (t' & lf & E & La & Ef & _ & _ & _ & Hk' & _).
          rewrite <- Ef. rewrite E in O. eapply wp_down_t; [exact O|exact La|]. split; [reflexivity|].
          unfold lfill in O. destruct (owned_child O) as (O' & _).
          eapply reads_mono; [apply (IH t' hp us fuel); [lia|exact O'|exact Hk']|].
          intros r (t2 & c2 & h2 & j & E2 & L & D). exists t2, (c2 ++ [lf]), h2, j.
          split; [rewrite lplug_app, <- E2; cbn; exact E|]. split; [rewrite app_length; cbn; lia|]. exact D.
    Qed.

    (** at some entry, or at some edge of a leaf *)
    Definition lands (s : src K V) (m1 : bmap) (r : hsearch) : Prop :=
      (exists hd x, r = HFound x /\ at_edge s hd x /\ hi hd < nlen (hn hd) /\ hok fair root_fair (bheight m1) (bnode m1) hd) \/
      (exists hd x, r = HGoDown x /\ at_edge s hd x /\ hh hd = 0 /\ hi hd <= nlen (hn hd) /\ hok fair root_fair (bheight m1) (bnode m1) hd).
    Lemma hok_of (m1 : bmap) (T t : ltree) c h i : sound m1 -> bnode m1 = erase T -> T = lplug t c -> h + length c = bheight m1 ->
      hok fair root_fair (bheight m1) (bnode m1) (Handle (erase t) h (ectx c) i).
    Proof using.
      intros ((B1 & B2) & _) E ET Eh. pose proof (@plug_ok K V fair root_fair (ectx c) h (erase t)) as [_ P].
      rewrite E, ET, erase_plug in B1, B2. rewrite ectx_length, Eh in P. unfold hok. cbn [hn hh hc hi].
      rewrite ectx_length, E, ET, erase_plug. destruct (P (conj B1 B2)) as (P1 & P2 & P3). auto.
    Qed.
    Lemma search_hm m2 (m1 : bmap) s hp : mrep m2 m1 s -> own hp (sres s) -> sound m1 -> reads sc (hx_search q m2) hp (lands s m1).
    Proof using C.
      intros (EL & R) O Hs. unfold hx_search. destruct s as [T|].
      - destruct R as (R1 & R2 & R3). rewrite R1. cbn [rh]. cbn [sres] in O. destruct (own_root_owned O) as (Ow & Hu).
        pose proof (sound_any Hs) as Hk. rewrite R3 in Hk. eapply reads_mono; [apply (@search_h (bheight m1) T hp []); [lia|exact Ow|exact Hk]|].
        intros r (t & c & h & i & ET & EH & [(-> & Hi) | (-> & H0 & Hi)]).
        + left. exists (Handle (erase t) h (ectx c) i), (NR h (lroot t), i). split; [reflexivity|]. split; [exists t, c, h, i; auto|].
          split; [cbn; now rewrite nlen_erase|]. eapply hok_of; eauto.
        + right. exists (Handle (erase t) h (ectx c) i), (NR h (lroot t), i). split; [reflexivity|]. split; [exists t, c, h, i; auto|].
          split; [exact H0|]. split; [cbn; now rewrite nlen_erase|]. eapply hok_of; eauto.
      - destruct R as (R1 & R2 & R3 & R4). rewrite R1. cbn [rh hx_search_tree]. apply reads_bind. unfold hx_search_linear. apply reads_bind.
        apply reads_lift. cbn. split; [reflexivity|]. apply reads_ret. cbn [fst snd]. apply reads_bind. apply reads_lift. cbn. split; [reflexivity|].
        apply reads_ret. right. exists (Handle (@empty_leaf K V) 0 [] 0), (NR 0 sroot, 0). split; [reflexivity|]. split; [split; reflexivity|].
        split; [reflexivity|]. split; [cbn; lia|]. destruct Hs as ((B1 & B2) & _). unfold hok. cbn [hn hh hc hi plug length bound cok]. rewrite R3, R4 in *. auto 8.
    Qed.

    (** ** Lookups *)
    Lemma hok_split (m1 : bmap) (hd : handle K V) : hok fair root_fair (bheight m1) (bnode m1) hd -> hi hd < nlen (hn hd) ->
      exists x l r, into_kv hd = Some x /\ entries m1 = l ++ x :: r /\ l = cbefore (hc hd) ++ nleft (hn hd) (hi hd) /\ r = nright (hn hd) (hi hd) ++ cafter (hc hd).
    Proof using.
      intros (P & _ & _ & Hk & Hc) Hi. unfold nlen in Hi. destruct (@pick_lt _ _ _ Hi) as (a & x & z & Ep).
      pose proof (pick_some _ _ Ep) as [Ek Ha]. assert (into_kv hd = Some x) as En by (unfold into_kv; rewrite Ek; apply nth_error_mid; exact Ha). exists x, (cbefore (hc hd) ++ nleft (hn hd) (hi hd)), (nright (hn hd) (hi hd) ++ cafter (hc hd)).
      split; [exact En|]. split; [|auto]. unfold entries. rewrite <- P, inorder_plug by (eapply cok_frames; exact Hc).
      rewrite (@kv_split _ _ _ _ _ _ _ _ _ Hk Ep). now rewrite <- !app_assoc.
    Qed.
    Lemma hok_cut (m1 : bmap) (hd : handle K V) : hok fair root_fair (bheight m1) (bnode m1) hd -> hh hd = 0 ->
      entries m1 = (cbefore (hc hd) ++ firstn (hi hd) (kvs (hn hd))) ++ (skipn (hi hd) (kvs (hn hd)) ++ cafter (hc hd)).
    Proof using.
      intros (P & _ & _ & Hk & Hc) H0. unfold entries. rewrite <- P, inorder_plug by (eapply cok_frames; exact Hc).
      rewrite H0 in Hk. rewrite leaf_inorder by (eapply kids_weaken; [|exact Hk]; unfold any; auto).
      rewrite <- (firstn_skipn (hi hd) (kvs (hn hd))) at 1. now rewrite <- !app_assoc.
    Qed.
    Lemma get_h m2 (m1 : bmap) s hp : mrep m2 m1 s -> own hp (sres s) -> sound m1 ->
      reads sc (hx_get_key_value q m2) hp (one_of (entries m1)).
    Proof using C.
      intros R O Hs. unfold hx_get_key_value. apply reads_bind. eapply reads_mono; [exact (search_hm R O Hs)|].
      intros r [(hd & x & -> & A & Hi & Hok) | (hd & x & -> & A & _)].
      - destruct (hok_split Hok Hi) as (y & l & rr & Ei & Ee & _). apply reads_lift. destruct s as [T|].
        + destruct A as (t & c & h & i & ET & -> & ->). unfold into_kv in Ei. cbn [hn hi] in Ei. rewrite kvs_erase in Ei.
          cbn [sres] in O. apply own_part1 in O. st part_read_kv; [exact O|exact ET|intro X; exact X|exact Ei|]. apply wp_ret.
          split; [reflexivity|]. cbn [one_of]. rewrite Ee. apply in_elt.
        + destruct A as (-> & _). cbn in Hi. lia.
      - apply reads_ret. exact I.
    Qed.
    Lemma get_mut_h m2 (m1 : bmap) s hp : mrep m2 m1 s -> own hp (sres s) -> sound m1 ->
      reads sc (hx_get_mut q m2) hp (fun r => match r with Some p => exists a x, at_place s a p /\ placed m1 a x | None => True end).
    Proof using C.
      intros R O Hs. unfold hx_get_mut. apply reads_bind. eapply reads_mono; [exact (search_hm R O Hs)|].
      intros r [(hd & x & -> & A & Hi & Hok) | (hd & x & -> & A & _)].
      - destruct s as [T|]; [|destruct A as (-> & _); cbn in Hi; lia]. apply reads_lift. st wp_mono; [exact (kv_mut_t O A Hi)|].
        intros p hp' (-> & P). apply wp_ret. split; [reflexivity|]. destruct (hok_split Hok Hi) as (y & l & rr & Ei & _).
        exists (haddr hd), y. split; [exact P|]. now apply hok_placed.
      - apply reads_ret. exact I.
    Qed.
  End Search.

  Lemma remove_at_sound (m1 m1' : bmap) hd x : sound m1 -> bshared m1 = false -> hok fair root_fair (bheight m1) (bnode m1) hd -> hi hd < nlen (hn hd) ->
    remove_entry_at m1 hd = (Ret x, m1') -> sound m1' /\ removed (entries m1) (Some x) (entries m1').
  Proof.
    intros Hs Hsh Hok Hi E. destruct (hok_split Hok Hi) as (y & l & r & Ei & Ee & El & Er).
    destruct (remove_kv_ok Hok Ei) as (n' & H' & E1 & B & _ & In). unfold remove_entry_at in E. rewrite E1 in E. injection E as <- <-.
    rewrite <- El, <- Er in In. assert (entries (BMap (bshared m1) n' H' (blen m1 - 1)) = l ++ r) as E2 by exact In. split.
    - split; [exact B|]. split; [cbn [bshared]; congruence|]. rewrite E2. cbn [blen]. destruct Hs as (_ & _ & Hl). rewrite Hl, Ee, !app_length. cbn [length]. lia.
    - rewrite Ee, E2. constructor.
  Qed.

  (** map.rs 783-799 *)
  Lemma remove_h sc q m2 (m1 : bmap) s hp (w : W) : (forall k, calm sc (q k)) -> mrep m2 m1 s -> own hp (sres s) -> sound m1 ->
    (exists y m2' m1' s' hp' w', hx_remove_entry q m2 hp w = (Ret (y, m2'), hp', w') /\ mrep m2' m1' s' /\ goes hp (sres s) hp' (sres s') /\
      sound m1' /\ removed (entries m1) y (entries m1')) \/
    (sc /\ exists w', hx_remove_entry q m2 hp w = (Panic, hp, w')).
  Proof.
    intros C R O Hs. unfold hx_remove_entry, abind. destruct (search_hm C R O Hs w) as (o & w1 & E & Ho). rewrite E.
    destruct o as [r|e| | |]; try contradiction; [|right; eauto]. left.
    destruct Ho as [(hd & x & -> & A & Hi & Hok) | (hd & x & -> & A & _)].
    - pose proof (remove_at_m R O Hok A Hi) as Wp. destruct s as [T|]; [|destruct A as (-> & _); cbn in Hi; lia].
      assert (wp (hbind (h_remove_entry_at m2 x) (fun r => hret (Some (fst r), snd r))) hp (fun r hp' => exists y m1' s', fst r = Some y /\
        remove_entry_at m1 hd = (Ret y, m1') /\ mrep (snd r) m1' s' /\ goes hp (sres (Some T)) hp' (sres s'))) as Wp'.
      { st wp_mono; [exact Wp|]. intros r hp' (m1' & s' & E1 & R1 & G1). apply wp_ret. exists (fst r), m1', s'. auto. }
      destruct (lift_ok w1 Wp') as ([y' m2'] & hp' & E2 & y & m1' & s' & Ey & E1 & R1 & G1). cbn [fst snd] in *. subst y'. rewrite E2.
      exists (Some y), m2', m1', s', hp', w1. split; [reflexivity|]. split; [exact R1|]. split; [exact G1|].
      apply (remove_at_sound Hs) in E1; auto. apply R.
    - exists None, m2, m1, s, hp, w1. split; [reflexivity|]. split; [exact R|]. split; [now apply goes_refl|]. split; [exact Hs|constructor].
  Qed.

  Lemma update_sound (m1 m1' : bmap) a x g : sound m1 -> placed m1 a x -> update_at a g m1 = Some m1' ->
    sound m1' /\ exists l r, entries m1 = l ++ x :: r /\ entries m1' = l ++ g x :: r.
  Proof.
    intros Hs Hp E. destruct (update_at_ok g Hs Hp) as (m' & l & r & E1 & Hs' & E2 & E3 & _). rewrite E in E1. injection E1 as <-. split; [exact Hs'|]. eauto.
  Qed.

  (** ** Insertion *)
  Section Alloc.
    Variable nalloc : bool -> W -> option reserve_error * W.
    Variable place : heap -> W -> loc.
    Hypothesis place_fresh : forall hp w, hget hp (place hp w) = None.
    Variables (sc : Prop) (kcmp : K -> K -> asks W comparison).
    Hypothesis C : forall a b, calm sc (kcmp a b).
    Notation refused := (refused nalloc).

    (** what an entry of a map is for *)
    Definition enters (T : ltree) (m1 : bmap) (k : K) (en2 : hentry K) : Prop :=
      match en2 with
      | HOccupied _ x => exists hd, edge_rep T hd x /\ hi hd < nlen (hn hd) /\ hok fair root_fair (bheight m1) (bnode m1) hd
      | HVacant k' x => k' = k /\ exists hd, edge_rep T hd x /\ hh hd = 0 /\ hi hd <= nlen (hn hd) /\ hok fair root_fair (bheight m1) (bnode m1) hd
      end.
    Lemma try_entry_h k m2 (m1 : bmap) s hp (w : W) : mrep m2 m1 s -> own hp (sres s) -> sound m1 ->
      exists o m2' m1' s' hp' w', hx_try_entry nalloc place kcmp k m2 hp w = (o, m2', hp', w') /\ mrep m2' m1' s' /\ goes hp (sres s) hp' (sres s') /\
        sound m1' /\ entries m1' = entries m1 /\
        match o with
        | Ret en => exists T, s' = Some T /\ enters T m1' k en
        | Err e => refused e /\ entries m1 = []
        | Panic => sc
        | _ => False
        end.
    Proof using C place_fresh.
      intros R O Hs. unfold hx_try_entry. pose proof (@ensure_m K V W nalloc place place_fresh m2 m1 s hp w R O) as E1.
      pose proof (ensure_root_ok nalloc w Hs) as E2.
      destruct (ensure_root_is_owned nalloc m1 w) as [[o m1'] w1]. destruct E1 as (s' & hp1 & m2' & E1 & R' & G & Hs'). rewrite E1.
      destruct o as [u|e| | |]; try contradiction.
      - destruct Hs' as (T & ->). destruct E2 as (Hs1 & Ee & _).
        destruct (search_hm (@C k) R' (go_own G) Hs1 w1) as (o & w2 & E & Ho). rewrite E. destruct o as [r|e| | |]; try contradiction.
        + destruct Ho as [(hd & x & -> & A & Hi & Hok) | (hd & x & -> & A & H0 & Hi & Hok)].
          * exists (Ret (HOccupied _ x)), m2', m1', (Some T), hp1, w2. repeat (split; [auto|]). exists T. split; [reflexivity|]. exists hd. auto.
          * exists (Ret (HVacant k x)), m2', m1', (Some T), hp1, w2. repeat (split; [auto|]). exists T. split; [reflexivity|]. split; [reflexivity|]. exists hd. auto.
        + exists Panic, m2', m1', (Some T), hp1, w2. repeat (split; [auto|]). exact Ho.
      - destruct E2 as (Re & -> & Sh). exists (Err e), m2', m1, s', hp1, w1. repeat (split; [auto|]). now apply shared_empty.
    Qed.

    (** writing to the entry at an occupied place *)
    Lemma occ_h (A : Type) (m : place_ -> HM A) (g : kv -> kv) (old : kv -> A) : writes m g old ->
      forall m2 (m1 : bmap) T hd x hp, mrep m2 m1 (Some T) -> own hp [Root T] -> sound m1 -> edge_rep T hd x -> hi hd < nlen (hn hd) ->
      hok fair root_fair (bheight m1) (bnode m1) hd ->
      exists m1' T' e l r hd', mrep m2 m1' (Some T') /\ sound m1' /\ entries m1 = l ++ e :: r /\ entries m1' = l ++ g e :: r /\
        edge_rep T' hd' x /\ hi hd' < nlen (hn hd') /\ hok fair root_fair (bheight m1') (bnode m1') hd' /\ into_kv hd' = Some (g e) /\
        wp (hbind (h_kv_mut x) m) hp (fun r hp' => r = old e /\ goes hp [Root T] hp' [Root T']).
    Proof using.
      intros Hm m2 m1 T hd x hp R O Hs Ae Hi Hok.
      destruct (occ_write Hm R O Ae Hi) as (m1' & T' & e & hd' & Eu & Ei & R' & Ep & Eh & A' & Hi' & Wp).
      destruct (update_sound Hs (@hok_placed _ _ _ _ _ Hok Ei) Eu) as (Hs' & l & r & E1 & E2).
      exists m1', T', e, l, r, hd'. repeat (split; [assumption|]). split; [|split; [|exact Wp]].
      - destruct A' as (t & c & h & i & ET & Ehd & _). rewrite Ehd. destruct R' as (_ & _ & _ & R3). eapply hok_of; [exact Hs'|exact R3|exact ET|].
        destruct Hok as (_ & Eh' & _). rewrite Ehd in Eh. injection Eh as _ E5 E6 _. rewrite <- E5, <- E6, ectx_length in Eh'. rewrite Eh'.
        unfold update_at in Eu. destruct (update_node _ _ _ _); [|discriminate]. injection Eu as <-. reflexivity.
      - rewrite Eh. unfold into_kv. cbn [hn hi kvs]. apply nth_error_mid. apply firstn_length_le. unfold nlen in Hi. lia.
    Qed.
    Lemma vacant_room_h (m1 : bmap) k hd v (w : W) e m' w' : hok fair root_fair (bheight m1) (bnode m1) hd -> hh hd = 0 -> hi hd <= nlen (hn hd) ->
      vacant_insert nalloc m1 k hd v w = (Err e, m', w') -> 11 <= length (entries m1).
    Proof using.
      intros Hok H0 Hi H. apply vacant_insert_room in H. rewrite (hok_cut Hok H0), !app_length.
      pose proof (firstn_skipn (hi hd) (kvs (hn hd))) as Q. apply (f_equal (@length _)) in Q. rewrite app_length in Q. unfold nlen in H. unfold CAPACITY, B_ in H. lia.
    Qed.
    (** adding an entry at a vacant place *)
    Lemma vacant_h k v m2 (m1 : bmap) T hd x hp (w : W) : mrep m2 m1 (Some T) -> own hp [Root T] -> sound m1 -> edge_rep T hd x -> hh hd = 0 -> hi hd <= nlen (hn hd) ->
      hok fair root_fair (bheight m1) (bnode m1) hd ->
      exists o m2' m1' T' lost hp' w', h_vacant_insert nalloc place m2 x (k, v) hp w = (o, m2', hp', w') /\ mrep m2' m1' (Some T') /\
        goes hp [Root T] hp' (Root T' :: lost) /\
        match o with
        | Ret p => lost = [] /\ sound m1' /\ (exists a b, entries m1 = a ++ b /\ entries m1' = a ++ (k, v) :: b) /\
                   exists ad, at_place (Some T') ad p /\ placed m1' ad (k, v)
        | Err e => refused e /\ 11 <= length (entries m1) /\ damaged m1' (Some T')
        | _ => False
        end.
    Proof using place_fresh.
      intros R O Hs A H0 Hi Hok. pose proof (@vacant_m K V W nalloc place place_fresh m2 m1 T hd x k v hp w R O Hok A H0 Hi) as VM.
      pose proof (@vacant_insert_ok K V W nalloc m1 k hd v w (proj1 Hs) Hok H0 Hi) as VI.
      pose proof (fun e m' w' => @vacant_room_h m1 k hd v w e m' w' Hok H0 Hi) as Rm. cbv zeta in VI.
      destruct (vacant_insert nalloc m1 k hd v w) as [[o m1'] w']. destruct VM as (T' & hp' & m2' & o2 & lost & E & R' & G & Q).
      destruct VI as (Sh & Ln & B & VI). exists o2, m2', m1', T', lost, hp', w'. split; [exact E|]. split; [exact R'|]. split; [exact G|].
      destruct o as [ad|e| | |]; try contradiction.
      - destruct Q as (-> & p & -> & P). destruct VI as (V1 & V2 & V3). split; [reflexivity|]. split; [|split].
        + split; [exact B|]. split; [rewrite Sh; destruct R as (_ & _ & R2 & _); congruence|]. rewrite Ln, V1. destruct Hs as (_ & _ & ->).
          rewrite (hok_cut Hok H0), !app_length. cbn [length]. rewrite !app_length. lia.
        + exists (cbefore (hc hd) ++ firstn (hi hd) (kvs (hn hd))), (skipn (hi hd) (kvs (hn hd)) ++ cafter (hc hd)). split; [exact (hok_cut Hok H0)|exact V1].
        + exists ad. split; [exact P|]. split; assumption.
      - subst o2. split; [apply VI|]. split; [eapply Rm; reflexivity|]. destruct VI as (_ & L1 & ls & R1 & E1 & E2 & Ne).
        split; [discriminate|]. split; [eapply kids_weaken; [|exact (proj2 B)]; now unfold any|].
        rewrite E2, Ln, (proj2 (proj2 Hs)), (hok_cut Hok H0). apply (f_equal (@length _)) in E1. rewrite !app_length in *. cbn [length] in E1. destruct ls; [congruence|]. cbn [length] in E1. rewrite app_length in E1. lia.
    Qed.

    (** the end of a call that adds entries: [lost] nodes only when it failed *)
    Definition ends (A : Type) (X : A -> list kv -> Prop) (m1 : bmap) (s : src K V) hp (x : outcome reserve_error A * hmap * heap * W) : Prop :=
      exists o m2' m1' s' lost hp' w', x = (o, m2', hp', w') /\ mrep m2' m1' s' /\ goes hp (sres s) hp' (sres s' ++ lost) /\
        match o with
        | Ret a => lost = [] /\ sound m1' /\ X a (entries m1')
        | Err e => refused e /\ ((lost = [] /\ sound m1' /\ entries m1' = entries m1 /\ entries m1 = []) \/ (11 <= length (entries m1) /\ damaged m1' s'))
        | Panic => sc /\ lost = [] /\ sound m1' /\ entries m1' = entries m1
        | _ => False
        end.

    (** map.rs 754-762 *)
    Lemma try_insert_h k v m2 (m1 : bmap) s hp (w : W) : mrep m2 m1 s -> own hp (sres s) -> sound m1 ->
      ends (fun old l => inserted k v (entries m1) old l) m1 s hp (hx_try_insert nalloc place kcmp k v m2 hp w).
    Proof using C place_fresh.
      intros R O Hs. unfold hx_try_insert.
      destruct (try_entry_h k w R O Hs) as (o & m2' & m1' & s' & hp1 & w1 & E & R1 & G1 & Hs1 & Ee & Ho). rewrite E.
      destruct o as [en|e| | |]; try contradiction.
      - destruct Ho as (T & -> & En). destruct en as [x|k' x].
        + destruct En as (hd & A & Hi & Hok).
          destruct (occ_h (writes_val (fun _ => v)) R1 (go_own G1) Hs1 A Hi Hok) as (m1a & T' & e & l & r & hd' & R2 & Hs2 & E1 & E2 & _ & _ & _ & _ & Wp).
          unfold h_occupied_insert. destruct (lift_ok w1 Wp) as (y & hp2 & E3 & -> & G2). rewrite E3.
          exists (Ret (Some (snd e))), m2', m1a, (Some T'), [], hp2, w1. split; [reflexivity|]. split; [exact R2|]. rewrite app_nil_r.
          split; [exact (goes_trans G1 G2)|]. split; [reflexivity|]. split; [exact Hs2|]. rewrite <- Ee, E1, E2. constructor.
        + destruct En as (-> & hd & A & H0 & Hi & Hok).
          destruct (vacant_h k v w1 R1 (go_own G1) Hs1 A H0 Hi Hok) as (o2 & m22 & m12 & T' & lost & hp2 & w2 & E2 & R2 & G2 & Ho). rewrite E2.
          exists (omap (fun _ => None) o2), m22, m12, (Some T'), lost, hp2, w2. split; [reflexivity|]. split; [exact R2|]. split; [exact (goes_trans G1 G2)|].
          destruct o2 as [p|e| | |]; try contradiction; cbn [omap].
          * destruct Ho as (-> & Hs2 & (a & b & E3 & E4) & _). split; [reflexivity|]. split; [exact Hs2|]. rewrite <- Ee, E3, E4. constructor.
          * rewrite <- Ee. destruct Ho. split; [assumption|]. right. assumption.
      - exists (Err e), m2', m1', s', [], hp1, w1. rewrite app_nil_r. split; [reflexivity|]. split; [exact R1|]. split; [exact G1|]. destruct Ho as (Ho & E0). split; [exact Ho|]. auto.
      - exists Panic, m2', m1', s', [], hp1, w1. rewrite app_nil_r. auto 8.
    Qed.
    (** map.rs 328-343 *)
    Lemma replace_key_h k v m2 (m1 : bmap) s hp (w : W) : mrep m2 m1 s -> own hp (sres s) -> sound m1 ->
      ends (fun old l => replaced k v (entries m1) old l) m1 s hp (hx_replace_key nalloc place kcmp k v m2 hp w).
    Proof using C place_fresh.
      intros R O Hs. unfold hx_replace_key.
      destruct (try_entry_h k w R O Hs) as (o & m2' & m1' & s' & hp1 & w1 & E & R1 & G1 & Hs1 & Ee & Ho). rewrite E.
      destruct o as [en|e| | |]; try contradiction.
      - destruct Ho as (T & -> & En). destruct en as [x|k' x].
        + destruct En as (hd & A & Hi & Hok).
          destruct (occ_h (writes_key k) R1 (go_own G1) Hs1 A Hi Hok) as (m1a & T' & e & l & r & hd' & R2 & Hs2 & E1 & E2 & _ & _ & _ & _ & Wp).
          destruct (lift_ok w1 Wp) as (y & hp2 & E3 & -> & G2). rewrite E3.
          exists (Ret (Some (fst e))), m2', m1a, (Some T'), [], hp2, w1. split; [reflexivity|]. split; [exact R2|]. rewrite app_nil_r.
          split; [exact (goes_trans G1 G2)|]. split; [reflexivity|]. split; [exact Hs2|]. rewrite <- Ee, E1, E2. constructor.
        + destruct En as (-> & hd & A & H0 & Hi & Hok).
          destruct (vacant_h k v w1 R1 (go_own G1) Hs1 A H0 Hi Hok) as (o2 & m22 & m12 & T' & lost & hp2 & w2 & E2 & R2 & G2 & Ho). rewrite E2.
          exists (omap (fun _ => None) o2), m22, m12, (Some T'), lost, hp2, w2. split; [reflexivity|]. split; [exact R2|]. split; [exact (goes_trans G1 G2)|].
          destruct o2 as [p|e| | |]; try contradiction; cbn [omap].
          * destruct Ho as (-> & Hs2 & (a & b & E3 & E4) & _). split; [reflexivity|]. split; [exact Hs2|]. rewrite <- Ee, E3, E4. constructor.
          * rewrite <- Ee. destruct Ho. split; [assumption|]. right. assumption.
      - exists (Err e), m2', m1', s', [], hp1, w1. rewrite app_nil_r. split; [reflexivity|]. split; [exact R1|]. split; [exact G1|]. destruct Ho as (Ho & E0). split; [exact Ho|]. auto.
      - exists Panic, m2', m1', s', [], hp1, w1. rewrite app_nil_r. auto 8.
    Qed.
    (** map.rs 1793-1799 *)
    Lemma extend_h xs : forall m2 (m1 : bmap) s hp (w : W), mrep m2 m1 s -> own hp (sres s) -> sound m1 ->
      exists o m2' m1' s' lost hp' w', hx_extend nalloc place kcmp xs m2 hp w = (o, m2', hp', w') /\ mrep m2' m1' s' /\
        goes hp (sres s) hp' (sres s' ++ lost) /\
        match o with
        | Ret _ => lost = [] /\ sound m1' /\ inserted_all xs (entries m1) (entries m1')
        | Panic => ((exists e, refused e) /\ ((lost = [] /\ sound m1') \/ damaged m1' s')) \/
                   (sc /\ lost = [] /\ sound m1' /\ exists xs1 xs2, xs = xs1 ++ xs2 /\ xs2 <> [] /\ inserted_all xs1 (entries m1) (entries m1'))
        | _ => False
        end.
    Proof using C place_fresh.
      induction xs as [|[k v] xs IH]; intros m2 m1 s hp w R O Hs; cbn [hx_extend].
      - exists (Ret tt), m2, m1, s, [], hp, w. rewrite app_nil_r. split; [reflexivity|]. split; [exact R|]. split; [now apply goes_refl|]. split; [reflexivity|]. split; [exact Hs|constructor].
      - cbn [fst snd]. destruct (try_insert_h k v w R O Hs) as (o & m2' & m1' & s' & lost & hp1 & w1 & E & R1 & G1 & Ho). rewrite E.
        destruct o as [old|e| | |]; try contradiction.
        + destruct Ho as (-> & Hs1 & Hi). rewrite app_nil_r in G1.
          destruct (IH m2' m1' s' hp1 w1 R1 (go_own G1) Hs1) as (o2 & m22 & m12 & s2 & lost & hp2 & w2 & E2 & R2 & G2 & Ho2). rewrite E2.
          exists o2, m22, m12, s2, lost, hp2, w2. split; [reflexivity|]. split; [exact R2|]. split; [exact (goes_trans G1 G2)|].
          destruct o2 as [u|e| | |]; try contradiction.
          * destruct Ho2 as (-> & Hs2 & Ha). split; [reflexivity|]. split; [exact Hs2|]. econstructor; eauto.
          * destruct Ho2 as [Ho2 | (Hsc & -> & Hs2 & xs1 & xs2 & -> & Ne & Ha)]; [now left|right]. split; [exact Hsc|]. split; [reflexivity|]. split; [exact Hs2|].
            exists ((k, v) :: xs1), xs2. split; [reflexivity|]. split; [exact Ne|]. econstructor; eauto.
        + exists Panic, m2', m1', s', lost, hp1, w1. split; [reflexivity|]. split; [exact R1|]. split; [exact G1|]. left. split; [exists e; apply Ho|]. destruct Ho as [_ [(Hl & Hs1 & _)|[_ Hd]]]; [left|right]; auto.
        + destruct Ho as (Hsc & -> & Hs1 & Ee). exists Panic, m2', m1', s', [], hp1, w1. split; [reflexivity|]. split; [exact R1|]. split; [exact G1|]. right.
          split; [exact Hsc|]. split; [reflexivity|]. split; [exact Hs1|]. exists [], ((k, v) :: xs). split; [reflexivity|]. split; [discriminate|]. rewrite Ee. constructor.
    Qed.
  End Alloc.
End Ops.
