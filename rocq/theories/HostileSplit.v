(** * HostileSplit: split_off with comparisons that answer anything. *)
From Coq Require Import List Arith Lia Bool Permutation.
From Verif Require Import Base MapSpec IterSpec BTreeModel BTreeInv BTreeLemmas BTreeSearch BTreeInsert BTreeIterModel BTreeIter BTreeStep BTreeIterProofs.
From Verif Require Import BTreeRange BTreeRemove BTreeOps BTreeEntry BTreeWrites BTreeBulkModel BTreeBorder BTreeSplit HistoryModel.
From Verif Require Import HeapModel HeapMapModel HeapArr HeapRep HeapWp HeapNode HeapOps HeapOps2 HeapOps3 HeapOps4 HeapOps5 HeapOps6 HeapOps7 HeapZip HeapRemove HeapSearch HeapInsert HeapRes HeapPart HeapMap HeapEntry HeapIter HeapInto HeapBorder HeapSplit HeapTorn.
From Verif Require Import HostileModel HostileSpec HostileOps.
Import ListNotations.
Set Implicit Arguments.
Unset Strict Implicit.

Section Split.
  Variables (K V W : Type).
  Notation kv := (K * V)%type.
  Notation heap := (heap K V).
  Notation HM := (HM K V).
  Notation AM := (AM K V W).
  Notation ltree := (ltree K V).
  Notation lroot := (@lroot K V).
  Notation erase := (@erase K V).
  Notation bmap := (bmap K V).
  Notation src := (src K V).
  Notation res := (res K V).
  Implicit Types (hp : heap).

  Lemma dealloc_spine (c : ctx K V) : forall F, dead_none F c -> exists fr, dealloc_all false (spine c) F = Some fr.
  Proof.
    induction c as [|f c IH]; intros F D.
    - cbn [spine dealloc_all]. destruct (freed_mem (cpath (@nil (frame K V))) F) eqn:E; [|cbn [orb]; eauto].
      exfalso. apply freed_mem_In in E. exact (dead_none_self D E).
    - cbn [spine dealloc_all]. destruct (freed_mem (cpath (f :: c)) F) eqn:E.
      + exfalso. apply freed_mem_In in E. exact (dead_none_self D E).
      + cbn [orb]. apply IH. apply dead_none_cons; [exact (dead_none_tl D)|apply spine_fresh].
  Qed.
  (** dropping a map whose length says 0 frees the nodes on the way down to the first leaf only *)
  Lemma drop_short_m (T : ltree) h hp : own hp [Root T] -> kids any h (erase T) ->
    wp (h_drop (HMap (NR h (lroot T)) 0)) hp (fun _ hp' => exists lost, goes hp [Root T] hp' lost).
  Proof.
    intros O Hk. assert (mrep (HMap (NR h (lroot T)) 0) (BMap false (erase T) h 0) (Some T)) as R by (split; [reflexivity|auto]).
    destruct (edges_m R O Hk) as (f & b & Ef & Eb & Wf & Wb). unfold h_drop, h_into_iter.
    apply wp_bind. st wp_mono; [exact Wf|]. intros r hp' (-> & Af). st wp_mono; [exact Wb|]. intros r2 hp' (-> & Ab). apply wp_ret.
    unfold h_drop_into_iter. cbn [hleft mlen rh mroot]. apply wp_bind. cbn [h_drain]. unfold h_into_next at 1. cbn [hleft Nat.eqb]. apply wp_bind. apply wp_ret. cbn [fst snd].
    apply wp_ret. cbn [fst snd hfront].
    destruct Af as (t & c & h' & i & ET & Ehd & Er). subst r. cbn [fst rl].
    pose proof (goes_part O) as G.
    destruct (@first_last_edges K V _ _ Hk) as (f' & b' & Ef' & _ & Bt & _). cbn [bheight bnode] in Ef. rewrite Ef in Ef'. apply some_inj in Ef'. subst f'.
    destruct Bt as (Lf & _). destruct Lf as (Hok & H0 & _). cbn [rfront] in Hok, H0. apply hok_any in Hok as (_ & EH & Kk & _).
    rewrite Ehd in *. cbn [hh hi hn hc] in *. subst h'. rewrite ectx_length in EH.
    destruct (lroot t =? sroot) eqn:Es.
    { apply wp_ret. exists [Part T []]. exact G. }
    destruct (@dealloc_spine (ectx c) []) as (fr & Ed); [apply dead_none_nil|].
    rewrite <- (leaf_is_leaf Kk). st wp_mono; [eapply (@free_spine_t K V T c 0 t (Datatypes.S h)); [exact (go_own G)|exact ET|lia|exact Ed]|].
    intros u hp2 G2. apply wp_ret. exists [Part T fr]. exact (goes_trans G G2).
  Qed.

  Section Loop.
    Variables (sc : Prop) (q : K -> asks W comparison).
    Hypothesis C : forall k, calm sc (q k).

    Lemma cut_edge (b : bool) h (t : ltree) us i hp : owned hp (t :: us) -> i <= length (lks t) -> (b = true -> i < length (lks t)) ->
      wp (if b then hbind (new_kv (NR h (lroot t)) i) (fun k => left_edge k) else new_edge (NR h (lroot t)) i) hp (fun e hp' => e = (NR h (lroot t), i) /\ hp' = hp).
    Proof.
      intros O L1 L2. destruct t as [l ks es]. cbn [HeapRep.lroot lks] in *. destruct b.
      - st wp_kv_of; [exact O|auto|]. unfold left_edge. cbn [fst snd]. eapply wp_edge_of; [exact O|exact L1|]. auto.
      - eapply wp_edge_of; [exact O|exact L1|]. auto.
    Qed.

    (** nothing has been moved out of the tree, or some entries *)
    Definition less (n n' : node K V) : Prop := n' = n \/ length (inorder n') < length (inorder n).
    Lemma less_at (k1 k2 : list kv) (A B : list (node K V)) (n n' : node K V) : length A = length k1 -> length B = length k2 -> less n n' ->
      less (Node (k1 ++ k2) (A ++ n :: B)) (Node k1 (A ++ [n'])).
    Proof using.
      clear. intros LA LB L. destruct k2 as [|x k2].
      - destruct B; [|discriminate LB]. rewrite app_nil_r. destruct L as [-> |L]; [now left|right]. rewrite !inorder_eq. cbn [kvs edges]. rewrite !map_app. cbn [map].
        rewrite <- (app_nil_r k1). rewrite !weave_split by (rewrite ?map_length; auto). rewrite !app_length. lia.
      - right. assert (length (inorder n') <= length (inorder n)) as Le by (destruct L as [-> |L]; lia). rewrite !inorder_eq. cbn [kvs edges]. rewrite !map_app. cbn [map].
        rewrite weave_split by (rewrite ?map_length; auto).
        pose proof (@weave_split kv (map (@inorder K V) A) (inorder n') [] k1 []) as X. rewrite app_nil_r in X. rewrite X by (rewrite ?map_length; auto). cbn [wr].
        destruct B as [|b B]; [discriminate LB|]. cbn [map wr]. rewrite !app_length. cbn [length]. rewrite !app_length. lia.
    Qed.

    (** map.rs 1100-1126 *)
    Lemma split_loop_h h : forall (tl tr : ltree) hp fuel (w : W), h < fuel -> owned hp [tl; tr] ->
      kids fair h (erase tl) -> nlen (erase tl) <= CAPACITY -> chain h (erase tr) ->
      exists o hp' w' tl' tr', hx_split_loop fuel q (NR h (lroot tl)) (NR h (lroot tr)) hp w = (o, hp', w') /\
        lroot tl' = lroot tl /\ lroot tr' = lroot tr /\ evolves hp [tl; tr] hp' [tl'; tr'] /\ keeps hp hp' (lroot tl) /\ keeps hp hp' (lroot tr) /\
        match o with
        | Ret _ => rb fair h (erase tl') /\ nlen (erase tl') <= CAPACITY /\ lb fair h (erase tr') /\ nlen (erase tr') <= CAPACITY /\
                   inorder (erase tl) = inorder (erase tl') ++ inorder (erase tr')
        | Panic => sc /\ kids any h (erase tl') /\ kids any h (erase tr') /\ less (erase tl) (erase tl')
        | _ => False
        end.
    Proof.
      induction h as [|h IH]; intros tl tr hp [|fuel] w Hf O Hkl Hcap Hch; try lia.
      - destruct (@node_h K V W sc q C 0 tl hp [tr] O w) as (o & w1 & E1 & Ho). cbn [hx_split_loop]. unfold abind at 1. rewrite E1. clear E1.
        destruct o as [[i b]| | | |]; try contradiction; cbn [fst snd] in *.
        2:{ eexists _, _, _, tl, tr. split; [reflexivity|]. split; [reflexivity|]. split; [reflexivity|]. split; [now apply evolves_refl|].
            split; [intro; auto|]. split; [intro; auto|]. split; [exact Ho|]. split; [eapply kids_weaken; [|exact Hkl]; intros; exact I|].
            split; [exact (proj1 (chain_kids _ _ Hch))|now left]. }
        destruct Ho as (Ls1 & Ls2).
        destruct (lift_ok w1 (cut_edge 0 O Ls1 Ls2)) as (e & hp0 & E & -> & ->). rewrite (abind_ret _ E). clear E. cbn [fst snd].
        destruct tl as [ll ks es], tr as [lr kr er]. cbn [kids chain] in Hkl, Hch. rewrite edges_erase in Hkl. cbn [les] in Hkl.
        destruct es; [|discriminate Hkl]. rewrite erase_eq in Hch. injection Hch as -> Her. destruct er; [|discriminate Her]. cbn [HeapRep.lroot lks rh] in *.
        destruct (@split_firstn _ ks i Ls1) as (k1 & k2 & Ek & Lk). subst ks i.
        destruct (lift_ok w1 (@move_suffix_ok K V 0 ll k1 k2 [] [] lr [] hp O (or_introl (conj eq_refl (conj eq_refl (conj eq_refl eq_refl)))))) as (u & hp1 & E & V1 & KA & KB).
        rewrite (abind_ret _ E). clear E. cbn [aret].
        eexists _, hp1, _, (LN ll k1 []), (LN lr k2 []). split; [reflexivity|]. split; [reflexivity|]. split; [reflexivity|]. split; [exact V1|].
        split; [exact KA|]. split; [exact KB|]. rewrite !erase_eq in *. unfold nlen in *. cbn [rb lb edges kvs map] in *. rewrite app_length in Hcap.
        split; [auto|]. split; [lia|]. split; [auto|]. split; [lia|]. now rewrite !inorder_leaf.
      - destruct (@node_h K V W sc q C (S h) tl hp [tr] O w) as (o & w1 & E1 & Ho). cbn [hx_split_loop]. unfold abind at 1. rewrite E1. clear E1.
        assert (kids any (S h) (erase tl)) as Hka by (eapply kids_weaken; [|exact Hkl]; intros; exact I).
        destruct o as [[i b]| | | |]; try contradiction; cbn [fst snd] in *.
        2:{ eexists _, _, _, tl, tr. split; [reflexivity|]. split; [reflexivity|]. split; [reflexivity|]. split; [now apply evolves_refl|].
            split; [intro; auto|]. split; [intro; auto|]. split; [exact Ho|]. split; [exact Hka|].
            split; [exact (proj1 (chain_kids _ _ Hch))|now left]. }
        destruct Ho as (Ls1 & Ls2).
        destruct (lift_ok w1 (cut_edge (S h) O Ls1 Ls2)) as (e & hp0 & E & -> & ->). rewrite (abind_ret _ E). clear E. cbn [fst snd].
        destruct tl as [ll ks es], tr as [lr kr er]. pose proof (kids_les Hka) as Sl. cbn [les lks] in Sl. destruct Sl as [[? _]|[_ Sl]]; [lia|].
        cbn [chain] in Hch. destruct Hch as (e0 & Hch1 & Hch). rewrite erase_eq in Hch1. injection Hch1 as -> Her.
        destruct er as [|er [|]]; try discriminate Her. cbn [map] in Her. injection Her as <-. cbn [HeapRep.lroot lks rh] in *.
        destruct (@split_firstn _ ks i Ls1) as (k1 & k2 & Ek & Lk).
        destruct (@split_firstn _ es i) as (ea & e' & Ee & Le); [lia|]. destruct e' as [|el e2]; [exfalso; subst es; rewrite app_nil_r in Sl; lia|].
        assert (es = (ea ++ [el]) ++ e2) as Ee2 by (rewrite <- app_assoc; exact Ee). clear Ee. subst ks es i.
        rewrite !app_length in Sl. cbn [length] in Sl.
        assert (wp (h_move_suffix (NR (S h) ll) (length k1) (NR (S h) lr)) hp (fun _ hp' => 
          evolves hp [LN ll (k1 ++ k2) ((ea ++ [el]) ++ e2); LN lr [] [er]] hp' [LN ll k1 (ea ++ [el]); LN lr k2 ([er] ++ e2)] /\ keeps hp hp' ll /\ keeps hp hp' lr)) as Wp.
        { eapply wp_mono; [apply (@move_suffix_ok K V (S h) ll k1 k2 (ea ++ [el]) e2 lr [er] hp); [exact O|right; rewrite app_length; cbn [length]; lia]|].
          intros _ hp1 (V1 & KA & KB). auto. }
        destruct (lift_ok w1 Wp) as (u & hp1 & E & V1 & KA & KB). rewrite (abind_ret _ E). clear E Wp. cbn [app] in V1.
        pose (fl := LF ll k1 ea []). pose (fr := LF lr k2 [] e2). change (LN ll k1 (ea ++ [el])) with (lfill fl el) in V1. change (LN lr k2 (er :: e2)) with (lfill fr er) in V1.
        pose proof (ev_own V1) as O1.
        assert (owned hp1 [lfill fl el; er]) as O2 by (apply owned_swap; exact (owned_focus (c := [fr]) (owned_swap O1))).
        assert (owned hp1 [el; er]) as O3 by exact (owned_focus (c := [fl]) O2).
        assert (wp (h_descend (NR (S h) ll, length k1)) hp1 (fun r hp' => r = NR h (lroot el) /\ hp' = hp1)) as Wd by (eapply (wp_down_t (lf := fl)); [exact O1|exact Le|auto]).
        destruct (lift_ok w1 Wd) as (x & hp' & E & -> & ->). rewrite (abind_ret _ E). clear E Wd.
        assert (wp (first_edge (NR (S h) lr)) hp1 (fun r hp' => r = (NR (S h) lr, 0) /\ hp' = hp1)) as Wd.
        { unfold first_edge. eapply wp_edge_of; [exact (owned_swap O1)|lia|auto]. }
        destruct (lift_ok w1 Wd) as (x & hp' & E & -> & ->). rewrite (abind_ret _ E). clear E Wd.
        assert (wp (h_descend (NR (S h) lr, 0)) hp1 (fun r hp' => r = NR h (lroot er) /\ hp' = hp1)) as Wd by (eapply (wp_down_t (lf := fr)); [exact (owned_swap O1)|reflexivity|auto]).
        destruct (lift_ok w1 Wd) as (x & hp' & E & -> & ->). rewrite (abind_ret _ E). clear E Wd.
        assert (Forall (sub fair h) (map erase ea) /\ fair (nlen (erase el)) /\ kids fair h (erase el) /\
                Forall (sub fair h) (map erase e2)) as (Fa & Fe1 & Fe2 & F2).
        { clear - Hkl. rewrite erase_eq, kids_S in Hkl. cbn [edges kvs] in Hkl. destruct Hkl as [_ Fl].
          rewrite !map_app in Fl. apply Forall_app in Fl as [Fl F2]. apply Forall_app in Fl as [Fa Fl]. cbn [map] in Fl. inversion Fl as [|? ? [X Y] _]; subst. auto. }
        destruct (IH el er hp1 fuel w1) as (o & hp2 & w2 & tl2 & tr2 & E & R1 & R2 & V2 & K1 & K2 & Ho); [lia|exact O3|exact Fe2|exact (fair_cap Fe1)|exact Hch|].
        rewrite E. clear E. cbn [lfl fl fr] in *.
        destruct (@evolves_plug K V hp1 hp2 [fl] el [er] tl2 [tr2] O2 V2 R1 K1) as [V3 K3]. cbn [lplug] in V3, K3.
        assert (evolves hp1 [er; lfill fl el] hp2 [tr2; lfill fl tl2]) as V4 by (eapply evolves_perm; [apply perm_swap|apply perm_swap|exact V3]).
        destruct (@evolves_plug K V hp1 hp2 [fr] er [lfill fl el] tr2 [lfill fl tl2] (owned_swap O1) V4 R2 K2) as [V5 K5]. cbn [lplug] in V5, K5.
        eexists _, hp2, w2, (lfill fl tl2), (lfill fr tr2). split; [reflexivity|]. split; [reflexivity|]. split; [reflexivity|].
        split; [eapply evolves_trans; [exact V1|]; eapply evolves_perm; [apply perm_swap|apply perm_swap|exact V5]|].
        split; [eapply keeps_trans; eauto|]. split; [eapply keeps_trans; eauto|].
        change (lfill fl tl2) with (LN ll k1 (ea ++ [tl2])). change (lfill fr tr2) with (LN lr k2 (tr2 :: e2)). rewrite !erase_eq, !map_app. cbn [map app].
        unfold nlen in *. rewrite kvs_erase in Hcap. cbn [lks] in Hcap. rewrite app_length in Hcap.
        destruct o as [u'|e'| | |]; try contradiction.
        + destruct Ho as (B1 & C1 & B2 & C2 & I1). cbn [kvs edges].
          split; [cbn [rb edges]; exists (map erase ea), (erase tl2); unfold nlen; cbn [kvs]; rewrite map_length; repeat (split; auto; try lia)|].
          split; [lia|].
          split; [cbn [lb edges]; exists (erase tr2), (map erase e2); unfold nlen; cbn [kvs]; rewrite map_length; repeat (split; auto; try lia)|].
          split; [lia|]. rewrite !inorder_eq. cbn [edges kvs map]. rewrite !map_app. cbn [map].
          rewrite <- !app_assoc. cbn [app].
          rewrite weave_split by (rewrite !map_length; lia).
          rewrite I1. change (inorder (erase tr2) :: map (@inorder K V) (map erase e2)) with ([] ++ inorder (erase tr2) :: map (@inorder K V) (map erase e2)).
          pose proof (@weave_split (K * V) (map (@inorder K V) (map erase ea)) (inorder (erase tl2)) [] k1 []) as X1. rewrite app_nil_r in X1. rewrite X1 by (rewrite ?map_length; cbn; lia).
          pose proof (@weave_split (K * V) [] (inorder (erase tr2)) (map (@inorder K V) (map erase e2)) [] k2) as X2. cbn [app] in X2. cbn [app]. rewrite X2 by (rewrite ?map_length; cbn; lia).
          cbn [wl wr app]. rewrite app_nil_r, <- !app_assoc. reflexivity.
        + destruct Ho as (Hsc & B1 & B2 & B3). split; [exact Hsc|].
          assert (Fany : forall l : list (node K V), Forall (sub fair h) l -> Forall (sub any h) l).
          { intros l Fl. eapply Forall_impl; [|exact Fl]. intros a (_ & Ka). split; [exact I|]. eapply kids_weaken; [|exact Ka]. intros; exact I. }
          split; [|split]; [rewrite kids_S; unfold nlen; cbn [edges kvs]..|].
          * split; [rewrite app_length, map_length; cbn [length]; lia|]. apply Forall_app. split; [now apply Fany|]. constructor; [|constructor]. split; [exact I|exact B1].
          * split; [cbn [length]; rewrite map_length; lia|]. constructor; [split; [exact I|exact B2]|now apply Fany].
          * rewrite <- app_assoc. cbn [app]. apply less_at; [rewrite map_length; lia|rewrite map_length; lia|exact B3].
    Qed.
  End Loop.

  Section Alloc.
    Variable nalloc : bool -> W -> option reserve_error * W.
    Variable place : heap -> W -> loc.
    Hypothesis place_fresh : forall hp w, hget hp (place hp w) = None.
    Variables (sc : Prop) (q : K -> asks W comparison).
    Hypothesis C : forall k, calm sc (q k).
    Notation refused := (refused nalloc).

    (** map.rs 1084-1140 *)
    Lemma split_off_h m2 (m1 : bmap) s hp (w : W) : mrep m2 m1 s -> own hp (sres s) -> sound m1 ->
      exists o m2' m1' s' lost hp' w', hx_split_off nalloc place q m2 hp w = (o, m2', hp', w') /\ mrep m2' m1' s' /\
        goes hp (sres s) hp' (sres s' ++ lost) /\
        match o with
        | Ret r2 => exists r1 sr, lost = sres sr /\ mrep r2 r1 sr /\ sound m1' /\ sound r1 /\ entries m1 = entries m1' ++ entries r1
        | Err e => refused e /\ lost = [] /\ m1' = m1 /\ s' = s
        | Panic => sc /\ ((sound m1' /\ entries m1' = entries m1) \/ damaged m1' s')
        | _ => False
        end.
    Proof.
      intros R O Hs. pose proof (sound_any Hs) as Ha. destruct Hs as (Hbal & Hsh & Hlen). pose proof R as (EL & R').
      unfold hx_split_off. rewrite EL. destruct (Nat.eqb_spec (blen m1) 0) as [H0|H0].
      { exists (Ret h_new), m2, m1, s, [], hp, w. split; [reflexivity|]. split; [exact R|]. split; [rewrite app_nil_r; now apply goes_refl|].
        exists (@new K V), None. split; [reflexivity|]. split; [apply mrep_new|]. split; [exact (conj Hbal (conj Hsh Hlen))|]. split; [apply new_sound|].
        cbn. now rewrite app_nil_r. }
      destruct s as [T|].
      2:{ exfalso. destruct R' as (_ & R2 & _). destruct (Hsh R2) as (E & _). apply H0. rewrite Hlen. unfold entries. now rewrite E. }
      destruct R' as (R1 & R2 & R3). cbn [sres] in O. rewrite R1. cbn [rh].
      pose proof (@new_leaf_m K V W nalloc place place_fresh hp w) as NL. unfold new_leaf in NL. destruct (nalloc false w) as [[e|] w1] eqn:En.
      { rewrite NL. destruct (@drop_m K V h_new (@new K V) None hp) as (l & fr & _ & D); [apply mrep_new|constructor; constructor|reflexivity|reflexivity|].
        unfold wp in D. destruct (h_drop (@h_new) hp) as [[r hp']|]; [|contradiction]. destruct D as (_ & D). cbn [sres] in D.
        eexists (Err e), m2, m1, (Some T), [], hp', w1. split; [reflexivity|]. split; [exact R|]. split; [cbn [sres app]; exact (goes_fst D (b := [Root T]) O)|].
        split; [exists false, w, w1; exact En|]. auto. }
      destruct NL as (hp1 & l & E & Ee & G1). rewrite E. clear E. cbn [fst snd].
      pose proof (goes_add G1 O) as G1'. cbn [app] in G1'.
      pose proof (@push_levels_m K V W nalloc place place_fresh (bheight m1) (LN l [] []) 0 hp1 w1 (go_own G1)) as PL.
      pose proof (@push_levels_ok K V W nalloc (bheight m1) (erase (LN l [] [])) 0 w1 eq_refl) as PO.
      destruct (push_levels nalloc (bheight m1) (erase (LN l [] [])) 0 w1) as [[o [n1 h1]] w2]. destruct PL as (T2 & hp2 & E & -> & G2 & Q).
      cbn [lroot HeapRep.lroot] in E. rewrite E. clear E. destruct PO as (Hch & PO).
      pose proof (goes_fst G2 (b := [Root T]) (go_own G1')) as G2'. cbn [app] in G2'. pose proof (goes_trans G1' G2') as G3.
      destruct o as [c|e| | |]; try contradiction; cbn [omap].
      - destruct Q as (-> & ->). rewrite Nat.add_0_r in *. cbn [Nat.add] in PO. destruct Hbal as [[Hcap Hone] Hk].
        assert (own hp2 [Root T; Root T2]) as O2 by (eapply own_perm; [|exact (go_own G3)]; apply perm_swap).
        assert (goes hp [Root T] hp2 [Root T; Root T2]) as G3' by (eapply goes_perm; [reflexivity| |exact G3]; apply perm_swap). clear G3.
        destruct (own_roots2 O2) as (Ow & HuT & HuC). rewrite R3 in Hk, Hcap.
        destruct (@split_loop_h sc q C (bheight m1) T T2 hp2 (Datatypes.S (bheight m1)) w2) as (o & hp3 & w3 & TL & TR & E & Rl & Rr & Ev & KL & KR & Ho); [lia|exact Ow|exact Hk|exact Hcap|exact PO|].
        rewrite E. clear E. rewrite <- Rl, <- Rr in *.
        assert (goes hp2 [Root T; Root T2] hp3 [Root TL; Root TR]) as G4 by (apply goes_roots2; [exact Ev|now apply KL|now apply KR]).
        destruct (own_roots2 (go_own G4)) as (Ow3 & Hl3 & Hr3).
        destruct o as [u|e| | |]; try contradiction.
        + destruct Ho as (B1 & C1 & B2 & C2 & I1).
          destruct (@fix_right_border_ok K V (bheight m1) (erase TL) B1 C1) as (l' & hl & F1 & BL & J1 & _).
          destruct (@fix_left_border_ok K V (bheight m1) (erase TR) B2 C2) as (r' & hr & F2 & BR & J2 & _).
          assert (wp (hbind (h_fix_border (@h_fix_right_loop K V) (NR (bheight m1) (lroot TL))) (fun ls =>
            hbind (h_fix_border (@h_fix_left_loop K V) (NR (bheight m1) (lroot TR))) (fun rs =>
            if rh ls <? rh rs then
              hbind (h_dfs (Datatypes.S (rh ls)) ls) (fun n => hret (HMap rs (blen m1 - n), HMap ls n))
            else
              hbind (h_dfs (Datatypes.S (rh rs)) rs) (fun n => hret (HMap rs n, HMap ls (blen m1 - n)))))) hp3 (fun r hp' => exists TL2 TR2,
              goes hp3 [Root TL; Root TR] hp' [Root TL2; Root TR2] /\ erase TL2 = l' /\ erase TR2 = r' /\
              if hl <? hr then r = (HMap (NR hr (lroot TR2)) (blen m1 - dfs hl l'), HMap (NR hl (lroot TL2)) (dfs hl l'))
              else r = (HMap (NR hr (lroot TR2)) (dfs hr r'), HMap (NR hl (lroot TL2)) (blen m1 - dfs hr r')))) as Wp.
          { apply wp_bind. eapply wp_mono; [eapply fix_right_border_t; [exact (owned_one Ow3)|exact Hl3|exact B1|exact C1|exact F1]|].
            intros ls hp4 (TL2 & -> & El & Ev4 & Hl4 & Kl).
            pose proof (goes_fst (goes_root Ev4 Hl4) (b := [Root TR]) (go_own G4)) as G5. cbn [app] in G5.
            destruct (own_roots2 (go_own G5)) as (Ow4 & _ & Hr4).
            apply wp_bind. eapply wp_mono; [eapply fix_left_border_t; [exact (owned_one (owned_swap Ow4))|exact Hr4|exact B2|exact C2|exact F2]|].
            intros rs hp5 (TR2 & -> & Er & Ev5 & Hr5 & Kr).
            pose proof (goes_snd (goes_root Ev5 Hr5) (b := [Root TL2]) (go_own G5)) as G6. cbn [app] in G6.
            destruct (own_roots2 (go_own G6)) as (Ow5 & _). subst l' r'. cbn [rh]. destruct (hl <? hr).
            - apply wp_bind. eapply wp_mono; [eapply dfs_t; [lia|exact Ow5|exact Kl]|]. intros n hp6 (-> & ->). apply wp_ret.
              exists TL2, TR2. split; [exact (goes_trans G5 G6)|]. auto.
            - apply wp_bind. eapply wp_mono; [eapply dfs_t; [lia|exact (owned_swap Ow5)|exact Kr]|]. intros n hp6 (-> & ->). apply wp_ret.
              exists TL2, TR2. split; [exact (goes_trans G5 G6)|]. auto. }
          destruct (lift_ok w3 Wp) as (r & hp4 & E3 & TL2 & TR2 & G5 & El & Er & Qr). rewrite E3. clear E3 Wp. subst l' r'.
          assert (Hdl : dfs hl (erase TL2) = length (inorder (erase TL2))) by (apply dfs_ok; eapply kids_shape; exact (proj2 BL)).
          assert (Hdr : dfs hr (erase TR2) = length (inorder (erase TR2))) by (apply dfs_ok; eapply kids_shape; exact (proj2 BR)).
          assert (HG : entries m1 = inorder (erase TL2) ++ inorder (erase TR2)) by (unfold entries; rewrite R3, J1, J2; exact I1).
          assert (Hn : blen m1 = length (inorder (erase TL2)) + length (inorder (erase TR2))) by (rewrite Hlen, HG, app_length; auto).
          rewrite Hdl, Hdr in Qr.
          assert (exists a b, r = (HMap (NR hr (lroot TR2)) b, HMap (NR hl (lroot TL2)) a) /\ a = length (inorder (erase TL2)) /\ b = length (inorder (erase TR2))) as (a & b & -> & La & Lb).
          { destruct (hl <? hr); subst r; (eexists _, _; split; [reflexivity|]); lia. }
          exists (Ret (HMap (NR hr (lroot TR2)) b)), (HMap (NR hl (lroot TL2)) a), (BMap false (erase TL2) hl a), (Some TL2), [Root TR2], hp4, w3. split; [reflexivity|].
          split; [split; [reflexivity|]; auto|]. split; [cbn [sres app]; exact (goes_trans G3' (goes_trans G4 G5))|].
          exists (BMap false (erase TR2) hr b), (Some TR2). split; [reflexivity|]. split; [split; [reflexivity|]; auto|].
          split; [split; [exact BL|split; [discriminate|exact La]]|]. split; [split; [exact BR|split; [discriminate|exact Lb]]|]. exact HG.
        + destruct Ho as (Hsc & K1 & K2 & K3).
          assert (own hp3 [Root TR]) as OR by exact (proj1 (proj2 (proj1 (own_app hp3 [Root TL] [Root TR]) (go_own G4)))).
          pose proof (drop_short_m OR K2) as D. unfold wp in D. destruct (h_drop (HMap (NR (bheight m1) (lroot TR)) 0) hp3) as [[r hp4]|]; [|contradiction].
          destruct D as (lost & D). pose proof (goes_snd D (b := [Root TL]) (go_own G4)) as G5. cbn [app] in G5.
          exists Panic, m2, (BMap false (erase TL) (bheight m1) (blen m1)), (Some TL), lost, hp4, w3. split; [reflexivity|].
          split; [split; [exact EL|]; cbn; rewrite R1, Rl; auto|]. split; [cbn [sres app]; exact (goes_trans G3' (goes_trans G4 G5))|]. split; [exact Hsc|].
          destruct K3 as [K3|K3]; [left|right].
          * rewrite K3, <- R3. destruct m1 as [em n h0 len0]. cbn [bheight bnode blen] in *. split; [|reflexivity].
            split; [split; [split; [rewrite R3; exact Hcap|exact Hone]|rewrite R3; exact Hk]|]. split; [discriminate|exact Hlen].
          * split; [discriminate|]. cbn [bheight bnode blen]. split; [exact K1|]. rewrite Hlen. unfold entries. cbn [bnode]. rewrite R3. exact K3.
      - destruct (chain_kids _ _ Hch) as (K1 & K2 & K3).
        destruct (@drop_m K V (HMap (NR h1 (lroot T2)) 0) (BMap false (erase T2) h1 0) (Some T2) hp2) as (l0 & fr & _ & D).
        { split; [reflexivity|auto]. } { exact (own_sub (rs := [Root T2]) (us := [Root T]) (go_own G3)). } { exact K1. } { unfold entries. cbn. now rewrite K3. }
        unfold wp in D. destruct (h_drop (HMap (NR h1 (lroot T2)) 0) hp2) as [[r hp3]|]; [|contradiction]. destruct D as (_ & D).
        pose proof (goes_fst D (b := [Root T]) (go_own G3)) as G4. cbn [app] in G4.
        eexists (Err e), m2, m1, (Some T), [], hp3, w2. split; [reflexivity|]. split; [exact R|]. split; [cbn [sres app]; exact (goes_trans G3 G4)|].
        destruct PO as (i & w0 & PO). split; [exists i, w0, w2; exact PO|]. auto.
    Qed.
  End Alloc.
End Split.
