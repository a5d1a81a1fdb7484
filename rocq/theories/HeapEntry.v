(** * HeapEntry: entries and insertion on raw memory. *)
From Coq Require Import List Arith Lia Bool Permutation.
From Verif Require Import Base MapSpec IterSpec BTreeModel BTreeInv BTreeLemmas BTreeSearch BTreeInsert BTreeIterModel BTreeIter BTreeStep BTreeIterProofs.
From Verif Require Import BTreeOps BTreeEntry BTreeWrites BTreeBulkModel SpecFacts BTreeCollect HistoryModel.
From Verif Require Import HeapModel HeapMapModel HeapArr HeapRep HeapWp HeapNode HeapOps HeapOps2 HeapOps3 HeapOps4 HeapZip HeapRemove HeapSearch HeapInsert HeapRes HeapPart HeapMap.
Import ListNotations.
Set Implicit Arguments.
Unset Strict Implicit.

Section Entry.
  Variables (K V : Type).
  Notation kv := (K * V)%type.
  Notation cell := (cell K V).
  Notation heap := (heap K V).
  Notation HM := (HM K V).
  Notation ltree := (ltree K V).
  Notation lroot := (@lroot K V).
  Notation erase := (@erase K V).
  Notation bmap := (bmap K V).
  Notation res := (res K V).
  Implicit Types (hp : heap).

  (** a fresh leaf *)
  Lemma fresh_leaf hp l hp' : hget hp l = None -> hup hp l (Some (fresh_cell K V false)) hp' -> goes hp [] hp' [Root (LN l [] [])].
  Proof.
    intros Fn U. pose proof (fresh_sroot Fn) as N. pose proof (hup_same U) as G.
    assert (content (fresh_cell K V false) false [] (map lroot [])) as C.
    { constructor; cbn [fresh_cell clen cint ckeys cvals cedges map length]; auto; split; cbn [length]; auto; try apply repeat_length; intros j y Hj; destruct j; discriminate. }
    constructor.
    - apply owned_own_root.
      + split; [|repeat constructor; intros []]. constructor; [|constructor]. apply body_eq. split; [exact N|]. split; [|exact I]. eauto.
      + exists (fresh_cell K V false). split; [exact G|]. split; [reflexivity|discriminate].
    - intros x _ H. apply (hup_other U). intros ->. apply H. now left.
    - intros x [].
    - intros x [<- | []] _. exact Fn.
  Qed.

  Section Alloc.
    Variable W : Type.
    Variable nalloc : bool -> W -> option reserve_error * W.
    Variable place : heap -> W -> loc.
    Hypothesis place_fresh : forall hp w, hget hp (place hp w) = None.
    Variable cmp : K -> K -> comparison.

    Lemma new_leaf_m hp (w : W) :
      let '(o, w') := new_leaf K V nalloc w in
      match o with
      | Ret n => exists hp' l, h_new_leaf nalloc place hp w = (Ret (NR 0 l), hp', w') /\ n = erase (LN l [] []) /\ goes hp [] hp' [Root (LN l [] [])]
      | Err e => h_new_leaf nalloc place hp w = (Err e, hp, w')
      | _ => False
      end.
    Proof.
      unfold new_leaf, h_new_leaf. pose proof (@new_box_ok K V W nalloc place place_fresh false hp w) as NB. destruct (nalloc false w) as [[e|] w'].
      - unfold abind. now rewrite NB.
      - destruct NB as (hp' & E & Fn & U). rewrite (abind_ret _ E). exists hp', (place hp w'). split; [reflexivity|]. split; [reflexivity|].
        now apply fresh_leaf.
    Qed.

    (** map.rs 1236-1241 *)
    Lemma ensure_m m2 (m1 : bmap) s hp (w : W) : mrep m2 m1 s -> own hp (sres s) ->
      let '(o, m1', w') := ensure_root_is_owned nalloc m1 w in
      exists s' hp' m2', h_ensure_root_is_owned nalloc place m2 hp w = (o, m2', hp', w') /\ mrep m2' m1' s' /\ goes hp (sres s) hp' (sres s') /\
        match o with Ret _ => exists T, s' = Some T | Err _ => s' = s | _ => False end.
    Proof.
      intros (EL & R) O. unfold ensure_root_is_owned, h_ensure_root_is_owned. destruct s as [T|].
      - destruct R as (R1 & R2 & R3). rewrite R2, R1. cbn [rl]. destruct (own_root_owned O) as (Ow & Hu).
        assert (lroot T =? sroot = false) as ->.
        { apply Nat.eqb_neq. destruct Ow as [Hb _]. inversion Hb as [|? ? H1 _]; subst. exact (proj1 (body_root H1)). }
        exists (Some T), hp, m2. split; [reflexivity|]. split; [split; auto|]. split; [now apply goes_refl|]. eauto.
      - destruct R as (R1 & R2 & R3 & R4). rewrite R2, R1. cbn [rl]. rewrite Nat.eqb_refl.
        pose proof (new_leaf_m hp w) as NL. destruct (new_leaf K V nalloc w) as [[n|e| | |] w']; try contradiction.
        + destruct NL as (hp' & l & E & -> & G). rewrite E. exists (Some (LN l [] [])), hp', (HMap (NR 0 l) (mlen m2)).
          split; [reflexivity|]. split; [split; [exact EL|]; auto|]. split; [exact G|]. eauto.
        + rewrite NL. exists None, hp, m2. split; [reflexivity|]. split; [split; auto|]. split; [now apply goes_refl|]. reflexivity.
    Qed.

    Definition erep (T : ltree) (en : entry K V) (en2 : hentry K) : Prop :=
      match en, en2 with
      | Occupied hd, HOccupied _ x => edge_rep T hd x /\ hi hd < nlen (hn hd)
      | Vacant k hd, HVacant k' x => k' = k /\ edge_rep T hd x /\ hh hd = 0 /\ hi hd <= nlen (hn hd)
      | _, _ => False
      end.
    Lemma sound_any (m1 : bmap) : sound m1 -> kids any (bheight m1) (bnode m1).
    Proof. intros ((_ & B) & _). eapply kids_weaken; [|exact B]. unfold any; auto. Qed.

    (** map.rs 965-981 *)
    Lemma try_entry_m k m2 (m1 : bmap) s hp (w : W) : mrep m2 m1 s -> own hp (sres s) -> sound m1 ->
      let '(o, m1', w') := try_entry nalloc cmp k m1 w in
      exists s' hp' m2' o2, h_try_entry nalloc place cmp k m2 hp w = (o2, m2', hp', w') /\ mrep m2' m1' s' /\ goes hp (sres s) hp' (sres s') /\
        match o with Ret en => exists T en2, s' = Some T /\ o2 = Ret en2 /\ erep T en en2 | Err e => o2 = Err e | _ => False end.
    Proof.
      intros R O S. unfold try_entry, h_try_entry. pose proof (ensure_m w R O) as E1. pose proof (ensure_root_ok nalloc w S) as E2.
      destruct (ensure_root_is_owned nalloc m1 w) as [[o m1'] w']. destruct E1 as (s' & hp' & m2' & E1 & R' & G & Hs). rewrite E1.
      destruct o as [u|e| | |]; try contradiction.
      - destruct Hs as (T & ->). destruct E2 as (S' & _). pose proof (search_m (cmp k) R' (go_own G) (sound_any S')) as Sm.
        unfold wp in Sm.
        all: destruct (h_search_tree (Datatypes.S (rh (mroot m2'))) (cmp k) (mroot m2') hp') as [[r hp2]|]; [|contradiction].
        all: destruct Sm as (-> & [(hd & x & E & -> & A & Hi) | (hd & x & E & -> & A & H0 & Hi)]); rewrite E.
        all: eexists (Some T), hp', m2', _; (split; [reflexivity|]); (split; [exact R'|]); (split; [exact G|]).
        all: eexists T, _; (split; [reflexivity|]); (split; [reflexivity|]); cbn; auto.
      - exists s', hp', m2', (Err e). auto.
    Qed.

    (** map.rs 2370-2407 *)
    Lemma vacant_m m2 (m1 : bmap) T hd x k v hp (w : W) : mrep m2 m1 (Some T) -> own hp [Root T] ->
      hok fair root_fair (bheight m1) (bnode m1) hd -> edge_rep T hd x -> hh hd = 0 -> hi hd <= nlen (hn hd) ->
      let '(o, m1', w') := vacant_insert nalloc m1 k hd v w in
      exists T' hp' m2' o2 lost, h_vacant_insert nalloc place m2 x (k, v) hp w = (o2, m2', hp', w') /\ mrep m2' m1' (Some T') /\
        goes hp [Root T] hp' (Root T' :: lost) /\
        match o with Ret a => lost = [] /\ exists p, o2 = Ret p /\ at_place (Some T') a p | Err e => o2 = Err e | _ => False end.
    Proof.
      intros (EL & R1 & R2 & R3) O Hok (t & c & h & i & ET & -> & ->) H0 Hi. cbn [hh hi hn] in H0, Hi. subst h. rewrite nlen_erase in Hi.
      destruct (own_root_owned O) as (Ow & Hu). pose proof Ow as Oc. rewrite ET in Oc. pose proof (owned_focus Oc) as Ot.
      pose proof Hok as (_ & EH & _ & Hk & _). cbn [hh hc hn] in EH, Hk. rewrite ectx_length in EH. cbn [Nat.add] in EH.
      assert (les t = []) as Le. { destruct (kids_les Hk) as [[_ H]|[H _]]; [exact H|lia]. }
      unfold vacant_insert, h_vacant_insert. cbn [hi hn hc hpath].
      pose proof (@leaf_insert_t K V W nalloc place place_fresh t i (k, v) hp w Ot Le Hi) as LI.
      destruct (leaf_insert nalloc i (k, v) (erase t) w) as [[[[n|nl y nr] [b j]]|e| | |] w']; try contradiction.
      - destruct LI as (t' & hp' & E & En & Er & Ev & Ke & -> & ->). rewrite E.
        destruct (@evolves_plug _ _ hp hp' c t [] t' [] Oc Ev Er Ke) as (Ev' & Ke').
        exists (lplug t' c), hp'. eexists _, _, []. split; [reflexivity|]. split; [|split; [|split; [reflexivity|]]].
        + split; [cbn; now rewrite EL|]. cbn [mroot bheight bnode bshared]. split; [|split; [exact R2|now rewrite erase_plug, En]].
          rewrite R1, ET. f_equal. symmetry. now apply lplug_root.
        + rewrite ET. apply goes_root; [exact Ev'|]. rewrite (lplug_root c Er). apply Ke'. now rewrite <- ET.
        + eexists. split; [reflexivity|]. unfold hpath. cbn [at_place fst snd hc rl]. rewrite <- (app_nil_r (cpath _)), lat_plug. cbn. now rewrite Er.
      - destruct LI as (tl & tr & hp1 & E & El & Err & Er & Ev & Ke). rewrite E.
        destruct (@evolves_plug _ _ hp hp1 c t [] tl [tr] Oc Ev Er Ke) as (Ev' & Ke').
        assert (lat (if b then tr else tl) [] = Some (if b then tr else tl)) as HL by reflexivity.
        assert (hung hp1 (lroot (lplug tl c)) None) as Hu1. { rewrite (lplug_root c Er). apply Ke'. now rewrite <- ET. }
        assert (length c < S (rh (mroot m2))) as Hf by (rewrite R1; cbn [rh]; lia).
        pose proof (@insert_up_t K V W nalloc place place_fresh c 0 tl y tr b [] j _ hp1 (S (rh (mroot m2))) w' Hf (ev_own Ev') Hu1 HL) as IU.
        rewrite El, Err in IU. cbn [Nat.add] in IU. rewrite EH in IU.
        destruct (insert_up nalloc (bheight m1) nl y nr b ([], j) (ectx c) w') as [[o [n H']] w''].
        destruct IU as (hp2 & T' & leak & E2 & En & Ev2 & Hu2 & Q). rewrite Er in E2.
        replace (NR (bheight m1) (lroot (lplug tl c))) with (mroot m2) in E2 by (rewrite R1, ET; f_equal; symmetry; now apply lplug_root).
        rewrite E2. exists T', hp2. eexists _, _, (map (@Tree K V) leak). split; [reflexivity|]. split; [|split].
        + split; [cbn; now rewrite EL|]. cbn [mroot bheight bnode bshared]. split; [reflexivity|]. split; [exact R2|now rewrite En].
        + apply goes_roots; [|exact Hu2]. rewrite ET. exact (evolves_trans Ev' Ev2).
        + destruct o as [a|e| | |]; try contradiction; [|reflexivity]. destruct Q as (-> & HLa & Ea). split; [reflexivity|].
          eexists. split; [reflexivity|]. cbn [at_place fst snd]. rewrite HLa. cbn. auto.
      - rewrite LI. exists T, hp. eexists _, _, []. split; [reflexivity|]. split; [|split; [now apply goes_refl|reflexivity]].
        split; [cbn; now rewrite EL|]. cbn. auto.
    Qed.

    (** writing through an occupied entry *)
    Lemma occ_write (A : Type) (m : place_ -> HM A) (g : kv -> kv) (old : kv -> A) : writes m g old ->
      forall m2 (m1 : bmap) T hd x hp, mrep m2 m1 (Some T) -> own hp [Root T] -> edge_rep T hd x -> hi hd < nlen (hn hd) ->
      exists m1' T' e hd', update_at (haddr hd) g m1 = Some m1' /\ into_kv hd = Some e /\ mrep m2 m1' (Some T') /\
        pick (hi hd) (kvs (hn hd)) = Some (firstn (hi hd) (kvs (hn hd)), e, skipn (S (hi hd)) (kvs (hn hd))) /\
        hd' = Handle (Node (firstn (hi hd) (kvs (hn hd)) ++ g e :: skipn (S (hi hd)) (kvs (hn hd))) (edges (hn hd))) (hh hd) (hc hd) (hi hd) /\
        edge_rep T' hd' x /\ hi hd' < nlen (hn hd') /\
        wp (hbind (h_kv_mut x) m) hp (fun r hp' => r = old e /\ goes hp [Root T] hp' [Root T']).
    Proof.
      intros Hm m2 m1 T hd x hp (EL & R1 & R2 & R3) O Ae Hi. pose proof (kv_mut_t O Ae Hi) as KM.
      destruct Ae as (t & c & h & i & ET & -> & ->). cbn [hi hn hh hc] in *. rewrite nlen_erase in Hi.
      destruct (nth_error (lks t) i) as [e|] eqn:Ee; [|apply nth_error_None in Ee; lia].
      pose proof Ee as Ee'. apply nth_error_split in Ee' as (ka & kz & Ek & Lk).
      destruct (write_plug Hm O ET Ek) as (Wp & Un & La & Lr). cbn zeta in *. set (T' := lplug (LN (lroot t) (ka ++ g e :: kz) (les t)) c) in *.
      assert (firstn i (kvs (erase t)) = ka /\ skipn (S i) (kvs (erase t)) = kz) as [Ef Es].
      { rewrite kvs_erase, Ek, <- Lk. split; [rewrite firstn_app, Nat.sub_diag, firstn_all, app_nil_r; reflexivity|].
        replace (S (length ka)) with (length ka + 1) by lia. rewrite skipn_app, skipn_all2, Nat.add_comm by lia.
        replace (1 + length ka - length ka) with 1 by lia. reflexivity. }
      eexists _, T', e, _. split; [|split; [|split; [|split; [|split; [reflexivity|split; [|split]]]]]].
      - unfold update_at, haddr, hpath. cbn [fst snd hc hi]. rewrite R3, <- Lk, Un. reflexivity.
      - unfold into_kv. cbn [hn hi]. now rewrite kvs_erase.
      - split; [exact EL|]. cbn. rewrite Lr. auto.
      - unfold pick. now rewrite kvs_erase, Ee.
      - exists (LN (lroot t) (ka ++ g e :: kz) (les t)), c, h, i. split; [reflexivity|]. split; [|reflexivity].
        rewrite Ef, Es, edges_erase, erase_eq. reflexivity.
      - cbn [hi hn]. unfold nlen. cbn [kvs]. rewrite Ef, Es, app_length. cbn [length]. lia.
      - st wp_mono; [exact KM|]. intros p hp' (-> & P). destruct (at_place_rep P) as (t2 & c2 & E1 & E2 & E3 & E4).
        unfold haddr, hpath in P; cbn [at_place hc hi fst snd] in P. destruct P as (P1 & P2). rewrite ET, <- (app_nil_r (cpath _)), lat_plug in P1. cbn in P1.
        destruct p as [pl pi]. cbn [fst snd] in *. subst pi. injection P1 as <-. rewrite <- Lk. exact Wp.
    Qed.
    Lemma lift_wp A (m : HM A) hp (w : W) (Q : A -> heap -> Prop) : wp m hp Q -> exists a hp', lift m hp w = (Ret a, hp', w) /\ Q a hp'.
    Proof. apply lift_ok. Qed.

    Lemma stands_vacant (m1 : bmap) k hd : stands cmp m1 k (Vacant k hd) -> hok fair root_fair (bheight m1) (bnode m1) hd.
    Proof. intros (_ & _ & H & _). exact H. Qed.

    (** map.rs 754-762 *)
    Lemma vacant_room k hd v (m1 : bmap) (w : W) e m' w' : stands cmp m1 k (Vacant k hd) -> vacant_insert nalloc m1 k hd v w = (Err e, m', w') ->
      CAPACITY <= length (entries m1).
    Proof.
      intros (_ & _ & _ & _ & _ & _ & l & r & El & Er & E & _) H. apply vacant_insert_room in H. rewrite E, El, Er, !app_length.
      pose proof (firstn_skipn (hi hd) (kvs (hn hd))) as Q. apply (f_equal (@length _)) in Q. rewrite app_length in Q. unfold nlen in H. lia.
    Qed.
    Lemma try_insert_m k v m2 (m1 : bmap) s hp (w : W) : ord_laws cmp -> mrep m2 m1 s -> own hp (sres s) -> valid cmp m1 ->
      let '(o, m1', w') := try_insert nalloc cmp k v m1 w in
      exists s' hp' m2' lost, h_try_insert nalloc place cmp k v m2 hp w = (o, m2', hp', w') /\ mrep m2' m1' s' /\
        goes hp (sres s) hp' (sres s' ++ lost) /\ (match o with Ret _ => lost = [] | Err _ => lost = [] \/ CAPACITY <= length (entries m1) | _ => False end).
    Proof.
      intros OL R O Va. unfold try_insert, h_try_insert. pose proof (try_entry_m k w R O (proj1 Va)) as TE.
      pose proof (try_entry_stands OL nalloc k w Va) as St.
      destruct (try_entry nalloc cmp k m1 w) as [[o m1'] w']. destruct TE as (s' & hp' & m2' & o2 & E & R' & G & Q). rewrite E.
      destruct o as [en|e| | |]; try contradiction.
      - destruct Q as (T & en2 & -> & -> & Er). destruct St as (Va' & St & Een & _). destruct en as [hd|k' hd], en2 as [x|k2 x]; try contradiction.
        + destruct Er as (A & Hi).
          destruct (occ_write (writes_val (fun _ => v)) R' (go_own G) A Hi) as (m1a & T' & e & hd' & Eu & Ei & R2 & _ & _ & _ & _ & Wp).
          unfold occupied_insert. rewrite Ei, Eu. destruct (lift_wp w' Wp) as (r & hp2 & E2 & -> & G2).
          unfold h_occupied_insert. rewrite E2. exists (Some T'), hp2, m2', []. split; [reflexivity|]. split; [exact R2|]. split; [|reflexivity].
          exact (goes_trans G G2).
        + destruct Er as (-> & A & H0 & Hi). assert (k' = k) as -> by exact (proj1 St).
          pose proof (vacant_m k v w' R' (go_own G) (stands_vacant St) A H0 Hi) as VM.
          pose proof (fun e m' w'' => @vacant_room k hd v m1' w' e m' w'' St) as Rm. rewrite Een in Rm.
          destruct (vacant_insert nalloc m1' k hd v w') as [[o3 m3] w3]. destruct VM as (T' & hp3 & m23 & o23 & lost & E3 & R3 & G3 & Q3). rewrite E3.
          exists (Some T'), hp3, m23, lost. split; [|split; [exact R3|split; [exact (goes_trans G G3)|]]].
          * destruct o3 as [a|e| | |]; try contradiction; [destruct Q3 as (_ & p & -> & _)|subst o23]; reflexivity.
          * destruct o3 as [a|e| | |]; try contradiction; cbn [omap]; [tauto|]. right. exact (Rm e m3 w3 eq_refl).
      - subst o2. exists s', hp', m2', []. rewrite app_nil_r. cbn [omap]. split; [reflexivity|]. split; [exact R'|]. split; [exact G|]. now left.
    Qed.
    (** map.rs 328-343 *)
    Lemma replace_key_m k v m2 (m1 : bmap) s hp (w : W) : ord_laws cmp -> mrep m2 m1 s -> own hp (sres s) -> valid cmp m1 ->
      let '(o, m1', w') := replace_key nalloc cmp k v m1 w in
      exists s' hp' m2' lost, h_replace_key nalloc place cmp k v m2 hp w = (o, m2', hp', w') /\ mrep m2' m1' s' /\
        goes hp (sres s) hp' (sres s' ++ lost) /\ (match o with Ret _ => lost = [] | Err _ => lost = [] \/ CAPACITY <= length (entries m1) | _ => False end).
    Proof.
      intros OL R O Va. unfold replace_key, h_replace_key. pose proof (try_entry_m k w R O (proj1 Va)) as TE.
      pose proof (try_entry_stands OL nalloc k w Va) as St.
      destruct (try_entry nalloc cmp k m1 w) as [[o m1'] w']. destruct TE as (s' & hp' & m2' & o2 & E & R' & G & Q). rewrite E.
      destruct o as [en|e| | |]; try contradiction.
      - destruct Q as (T & en2 & -> & -> & Er). destruct St as (Va' & St & Een & _). destruct en as [hd|k' hd], en2 as [x|k2 x]; try contradiction.
        + destruct Er as (A & Hi).
          destruct (occ_write (writes_key k) R' (go_own G) A Hi) as (m1a & T' & e & hd' & Eu & Ei & R2 & _ & _ & _ & _ & Wp).
          rewrite Ei, Eu. destruct (lift_wp w' Wp) as (r & hp2 & E2 & -> & G2).
          rewrite E2. exists (Some T'), hp2, m2', []. split; [reflexivity|]. split; [exact R2|]. split; [|reflexivity].
          exact (goes_trans G G2).
        + destruct Er as (-> & A & H0 & Hi). assert (k' = k) as -> by exact (proj1 St).
          pose proof (vacant_m k v w' R' (go_own G) (stands_vacant St) A H0 Hi) as VM.
          pose proof (fun e m' w'' => @vacant_room k hd v m1' w' e m' w'' St) as Rm. rewrite Een in Rm.
          destruct (vacant_insert nalloc m1' k hd v w') as [[o3 m3] w3]. destruct VM as (T' & hp3 & m23 & o23 & lost & E3 & R3 & G3 & Q3). rewrite E3.
          exists (Some T'), hp3, m23, lost. split; [|split; [exact R3|split; [exact (goes_trans G G3)|]]].
          * destruct o3 as [a|e| | |]; try contradiction; [destruct Q3 as (_ & p & -> & _)|subst o23]; reflexivity.
          * destruct o3 as [a|e| | |]; try contradiction; cbn [omap]; [tauto|]. right. exact (Rm e m3 w3 eq_refl).
      - subst o2. exists s', hp', m2', []. rewrite app_nil_r. cbn [omap]. split; [reflexivity|]. split; [exact R'|]. split; [exact G|]. now left.
    Qed.
    (** map.rs 1793-1799 *)
    Lemma extend_m l : forall m2 (m1 : bmap) s hp (w : W), ord_laws cmp -> mrep m2 m1 s -> own hp (sres s) -> valid cmp m1 ->
      let '(o, m1', w') := extend nalloc cmp l m1 w in
      exists s' hp' m2' lost, h_extend nalloc place cmp l m2 hp w = (cast o, m2', hp', w') /\ mrep m2' m1' s' /\
        goes hp (sres s) hp' (sres s' ++ lost) /\ (match o with Ret _ => lost = [] | Panic => True | _ => False end).
    Proof.
      induction l as [|x l IH]; intros m2 m1 s hp w OL R O Va; cbn [extend h_extend].
      - exists s, hp, m2, []. rewrite app_nil_r. split; [reflexivity|]. split; [exact R|]. split; [now apply goes_refl|reflexivity].
      - pose proof (try_insert_m (fst x) (snd x) w OL R O Va) as TI. pose proof (try_insert_ok nalloc OL (fst x) (snd x) w (proj1 Va) (proj2 Va)) as OK.
        destruct (try_insert nalloc cmp (fst x) (snd x) m1 w) as [[o m1'] w']. destruct TI as (s' & hp' & m2' & lost & E & R' & G & Q). rewrite E.
        destruct o as [old|e| | |]; try contradiction.
        + subst lost. rewrite app_nil_r in G.
          assert (valid cmp m1') as Va'. { destruct OK as (_ & S' & E' & _). split; [exact S'|]. rewrite E'. destruct Va. now apply s_insert_sorted. }
          specialize (IH m2' m1' s' hp' w' OL R' (go_own G) Va').
          destruct (extend nalloc cmp l m1' w') as [[o2 m3] w3]. destruct IH as (s3 & hp3 & m23 & lost & E3 & R3 & G3 & Q3). rewrite E3.
          exists s3, hp3, m23, lost. split; [reflexivity|]. split; [exact R3|]. split; [exact (goes_trans G G3)|exact Q3].
        + exists s', hp', m2', lost. split; [reflexivity|]. auto.
    Qed.

    (** map.rs 2277-2288 *)
    Lemma and_modify_m f m2 (m1 : bmap) T en en2 hp : mrep m2 m1 (Some T) -> own hp [Root T] -> erep T en en2 ->
      exists en' m1' T', and_modify m1 en f = (Ret en', m1') /\ mrep m2 m1' (Some T') /\ erep T' en' en2 /\
        wp (h_and_modify en2 f) hp (fun _ hp' => goes hp [Root T] hp' [Root T']).
    Proof.
      intros R O Er. destruct en as [hd|k hd], en2 as [x|k2 x]; try contradiction.
      - destruct Er as (A & Hi).
        destruct (occ_write (writes_val f) R O A Hi) as (m1a & T' & e & hd' & Eu & Ei & R2 & Ep & Eh & A' & Hi' & Wp).
        exists (Occupied hd'), m1a, T'. cbn [and_modify]. rewrite Eu, Ep, Eh. split; [reflexivity|]. split; [exact R2|]. split; [rewrite <- Eh; split; assumption|].
        cbn [h_and_modify]. apply wp_bind_assoc. st wp_mono; [exact Wp|]. intros r hp' (_ & G). apply wp_ret. exact G.
      - exists (Vacant k hd), m1, T. split; [reflexivity|]. split; [exact R|]. split; [exact Er|]. cbn. now apply goes_refl.
    Qed.
    (** map.rs 2204-2235 *)
    Lemma or_insert_m k v m2 (m1 : bmap) T en en2 hp (w : W) : mrep m2 m1 (Some T) -> own hp [Root T] -> erep T en en2 -> stands cmp m1 k en ->
      let '(o, m1', w') := or_try_insert_with nalloc m1 en (fun w => (Ret v, w)) w in
      exists T' hp' m2' o2 lost, h_or_try_insert_with nalloc place m2 en2 (fun w => (Ret v, w)) hp w = (o2, m2', hp', w') /\ mrep m2' m1' (Some T') /\
        goes hp [Root T] hp' (Root T' :: lost) /\
        match o with
        | Ret a => lost = [] /\ exists p, o2 = Ret p /\ at_place (Some T') a p
        | Err e => o2 = Err e /\ CAPACITY <= length (entries m1)
        | _ => False
        end.
    Proof.
      intros R O Er St. destruct en as [hd|k' hd], en2 as [x|k2 x]; try contradiction; cbn [or_try_insert_with h_or_try_insert_with].
      - destruct Er as (A & Hi). unfold into_kv.
        destruct (nth_error (kvs (hn hd)) (hi hd)) as [e|] eqn:Ee; [|apply nth_error_None in Ee; unfold nlen in Hi; lia].
        destruct (lift_wp w (kv_mut_t O A Hi)) as (p & hp' & E & -> & P). rewrite E. exists T, hp, m2, (Ret p), []. split; [reflexivity|]. split; [exact R|].
        split; [now apply goes_refl|]. split; [reflexivity|]. eauto.
      - destruct Er as (-> & A & H0 & Hi). assert (k' = k) as -> by exact (proj1 St).
        pose proof (vacant_m k v w R O (stands_vacant St) A H0 Hi) as VM. pose proof (fun e m' w'' => @vacant_room k hd v m1 w e m' w'' St) as Rm.
        cbn [fst snd]. destruct (vacant_insert nalloc m1 k hd v w) as [[o3 m3] w3]. destruct VM as (T' & hp3 & m23 & o23 & lost & E3 & R3 & G3 & Q3).
        exists T', hp3, m23, o23, lost. split; [exact E3|]. split; [exact R3|]. split; [exact G3|].
        destruct o3 as [a|e| | |]; try contradiction; [exact Q3|]. split; [exact Q3|exact (Rm e m3 w3 eq_refl)].
    Qed.
    Lemma read_place T a p x hp : own hp [Root T] -> at_place (Some T) a p -> kv_at (erase T) a = Some x ->
      wp (a_read (avals K V) (fst p) (snd p)) hp (fun v hp' => hp' = hp /\ v = snd x).
    Proof.
      intros O P Ex. destruct a as [pa i], p as [l j]. destruct (at_place_rep P) as (t & c & ET & E & E2 & E3). cbn in E, E2, E3. subst pa l j.
      rewrite ET, erase_plug, <- (app_nil_r (cpath _)), kv_at_plug, kv_at_nil, kvs_erase in Ex.
      destruct (own_part1 O) as (_ & OP). destruct (OP t c ET (fun H => H)) as (N & cl & G & C & _).
      apply nth_error_split in Ex as (ka & kz & Ek & Lk). pose proof (ct_vals C) as C4. rewrite Ek, map_app in C4. cbn [map] in C4.
      destruct (holds_mid C4) as (V1 & _ & _). rewrite map_length, Lk in V1.
      eapply wp_a_read; [exact G|exact V1|]. auto.
    Qed.
  End Alloc.
End Entry.
