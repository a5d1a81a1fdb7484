(** * HeapPart: walking in a tree some of whose nodes have been freed.  With no
    freed nodes this is walking in a whole tree. *)
From Coq Require Import List Arith Lia Bool Permutation.
From Verif Require Import Base MapSpec IterSpec BTreeModel BTreeInv BTreeLemmas BTreeSearch BTreeInsert BTreeIterModel BTreeIter BTreeStep BTreeIterProofs.
From Verif Require Import HeapModel HeapMapModel HeapArr HeapRep HeapWp HeapNode HeapOps HeapOps2 HeapOps3 HeapOps4 HeapZip HeapRemove HeapSearch HeapInsert HeapRes.
Import ListNotations.
Set Implicit Arguments.
Unset Strict Implicit.

Ltac st R := apply wp_bind; eapply R.

Section Part.
  Variables (K V : Type).
  Notation kv := (K * V)%type.
  Notation cell := (cell K V).
  Notation heap := (heap K V).
  Notation HM := (HM K V).
  Notation ltree := (ltree K V).
  Notation lroot := (@lroot K V).
  Notation erase := (@erase K V).
  Implicit Types (hp : heap).

  Definition dead_none (F : list path) (c : ctx K V) : Prop := forall q, In q (spine c) -> ~ In q F.
  Lemma spine_alive_iff F c : spine_alive F c = true <-> dead_none F c.
  Proof.
    split; [|apply spine_alive_ok]. induction c as [|f c IH]; cbn [spine_alive]; intro H; apply andb_prop in H as [H1 H2];
      intros q Hq; cbn [spine] in Hq; destruct Hq as [<- | Hq].
    - intro I. apply freed_mem_In in I. now rewrite I in H1.
    - destruct Hq.
    - intro I. apply freed_mem_In in I. now rewrite I in H1.
    - exact (IH H2 q Hq).
  Qed.
  Lemma spine_app (d c : ctx K V) q : In q (spine c) -> In q (spine (d ++ c)).
  Proof. induction d as [|f d IH]; intro H; [exact H|]. cbn [app spine]. right. auto. Qed.
  Lemma spine_self (c : ctx K V) : In (cpath c) (spine c).
  Proof. destruct c; now left. Qed.
  Lemma dead_none_app F (d c : ctx K V) : dead_none F (d ++ c) -> dead_none F c.
  Proof. intros H q Hq. apply H. now apply spine_app. Qed.
  Lemma dead_none_tl F f (c : ctx K V) : dead_none F (f :: c) -> dead_none F c.
  Proof. exact (@dead_none_app F [f] c). Qed.
  Lemma dead_none_self F (c : ctx K V) : dead_none F c -> ~ In (cpath c) F.
  Proof. intro H. apply H. apply spine_self. Qed.
  Lemma dead_none_nil (c : ctx K V) : dead_none [] c.
  Proof. intros q _ []. Qed.

  (** ** Access *)
  Section Access.
    Variables (T : ltree) (F : list path) (hp : heap).
    Hypothesis ok : part_ok hp T F.
    Variables (t : ltree) (c : lctx K V).
    Hypothesis at_ : T = lplug t c.
    Hypothesis live_ : ~ In (cpath (ectx c)) F.

    Lemma part_len h (Q : nat -> heap -> Prop) : Q (length (lks t)) hp -> wp (n_len (NR h (lroot t))) hp Q.
    Proof using ok at_ live_. intro H. destruct (proj2 ok t c at_ live_) as (N & cl & G & C & L). eapply wp_len; [exact G|]. rewrite (ct_len C). exact H. Qed.
    Lemma part_edge h i (Q : hhandle -> heap -> Prop) : i <= length (lks t) -> Q (NR h (lroot t), i) hp -> wp (new_edge (NR h (lroot t)) i) hp Q.
    Proof using ok at_ live_. intros Hi H. destruct (proj2 ok t c at_ live_) as (N & cl & G & C & L). eapply wp_new_edge; [exact G|rewrite (ct_len C); exact Hi|exact H]. Qed.
    Lemma part_kv h i (Q : hhandle -> heap -> Prop) : i < length (lks t) -> Q (NR h (lroot t), i) hp -> wp (new_kv (NR h (lroot t)) i) hp Q.
    Proof using ok at_ live_. intros Hi H. destruct (proj2 ok t c at_ live_) as (N & cl & G & C & L). eapply wp_new_kv; [exact G|rewrite (ct_len C); exact Hi|exact H]. Qed.
    Lemma part_keys h (Q : list K -> heap -> Prop) : Q (map fst (lks t)) hp -> wp (n_keys (NR h (lroot t))) hp Q.
    Proof using ok at_ live_.
      intro H. destruct (proj2 ok t c at_ live_) as (N & cl & G & C & L).
      eapply wp_keys; [exact G|exact (ct_keys C)|rewrite map_length; exact (ct_len C)|exact H].
    Qed.
    Lemma part_vals h (Q : list V -> heap -> Prop) : Q (map snd (lks t)) hp -> wp (n_vals (NR h (lroot t))) hp Q.
    Proof using ok at_ live_.
      intro H. destruct (proj2 ok t c at_ live_) as (N & cl & G & C & L).
      eapply wp_vals; [exact N|exact G|exact (ct_vals C)|rewrite map_length; exact (ct_len C)|exact H].
    Qed.
    Lemma part_read_kv h i x (Q : kv -> heap -> Prop) : nth_error (lks t) i = Some x -> Q x hp -> wp (h_into_kv (NR h (lroot t), i)) hp Q.
    Proof using ok at_ live_.
      intros Hx H. unfold h_into_kv. st part_keys. st part_vals. cbn [rl].
      destruct (proj2 ok t c at_ live_) as (N & cl & G & C & L).
      assert (i < length (lks t)) as Hi by (apply nth_error_Some; congruence).
      st wp_a_read; [exact G|eapply holds_read; [exact (ct_keys C)|rewrite nth_error_map, Hx; reflexivity]|].
      st wp_a_read; [exact G|eapply holds_read; [exact (ct_vals C)|rewrite nth_error_map, Hx; reflexivity]|].
      cbn [option_map]. apply wp_ret. destruct x. exact H.
    Qed.
    Lemma part_right_kv h i (Q : option hhandle -> heap -> Prop) :
      Q (if i <? length (lks t) then Some (NR h (lroot t), i) else None) hp -> wp (right_kv (NR h (lroot t), i)) hp Q.
    Proof using ok at_ live_.
      intro H. unfold right_kv. cbn [fst snd]. st part_len. destruct (i <? length (lks t)) eqn:E.
      - st part_kv; [now apply Nat.ltb_lt|]. now apply wp_ret.
      - now apply wp_ret.
    Qed.
    Lemma part_left_kv h i (Q : option hhandle -> heap -> Prop) : i <= length (lks t) ->
      Q (if 0 <? i then Some (NR h (lroot t), i - 1) else None) hp -> wp (left_kv (NR h (lroot t), i)) hp Q.
    Proof using ok at_ live_.
      intros Hi H. unfold left_kv. cbn [fst snd]. destruct (0 <? i) eqn:E.
      - apply Nat.ltb_lt in E. st part_kv; [lia|]. now apply wp_ret.
      - now apply wp_ret.
    Qed.
    Lemma part_ascend h (Q : option hhandle -> heap -> Prop) :
      Q (match lpar c with Some (p, i) => Some (NR (S h) p, i) | None => None end) hp -> wp (ascend (NR h (lroot t))) hp Q.
    Proof using ok at_ live_.
      intro P. destruct (proj2 ok t c at_ live_) as (N & cl & G & C & L1 & L2). unfold ascend. cbn [rl rh].
      st wp_read; [exact G|]. rewrite L1. destruct (lpar c) as [[p i]|]; cbn [option_map fst].
      - st wp_option; [exact (L2 p i eq_refl)|]. exact P.
      - exact P.
    Qed.
    Lemma part_free h (Q : option hhandle -> heap -> Prop) :
      (forall hp', goes hp [Part T F] hp' [Part T (cpath (ectx c) :: F)] ->
         Q (match lpar c with Some (p, i) => Some (NR (S h) p, i) | None => None end) hp') ->
      wp (deallocate_and_ascend (NR h (lroot t)) (is_int (les t))) hp Q.
    Proof using ok at_ live_.
      intro H. unfold deallocate_and_ascend. destruct (proj2 ok t c at_ live_) as (N & cl & G & C & L).
      apply wp_bind. assert (wp (if is_int (les t) then hret tt else not_shared (NR h (lroot t))) hp (fun _ hp' => hp' = hp)) as W1.
      { destruct (is_int (les t)); [now apply wp_ret|now apply wp_not_shared]. }
      eapply wp_mono; [exact W1|]. cbn beta. intros _ ? ->. st part_ascend. cbn [rl].
      st wp_free; [exact N|exact G|exact (ct_int C)|]. intros hp' U. apply wp_ret. apply H. eapply goes_free; eauto.
    Qed.
  End Access.

  (** the child at the hole of a frame *)
  Lemma part_down T F hp t f c h i (Q : nref -> heap -> Prop) : part_ok hp T F -> T = lplug t (f :: c) -> ~ In (cpath (ectx c)) F ->
    length (lfa f) = i -> Q (NR h (lroot t)) hp -> wp (h_descend (NR (S h) (lfl f), i)) hp Q.
  Proof.
    intros ok E A Hi H. destruct (proj2 ok (lfill f t) c E A) as (N & cl & G & C & L). cbn [lfill HeapRep.lroot HeapRep.les] in G, C.
    assert (is_int (lfa f ++ t :: lfz f) = true) as I by (destruct (lfa f); reflexivity). rewrite I in C.
    eapply wp_descend; [reflexivity|exact G|exact (ct_int C)| |exact H].
    eapply holds_read; [exact (ct_edges C)|]. rewrite map_app. cbn [map]. rewrite nth_error_app2; rewrite map_length; [|lia].
    replace (i - length (lfa f)) with 0 by lia. reflexivity.
  Qed.

  (** ** Edges *)
  Definition edge_rep (T : ltree) (hd : handle K V) (r : hhandle) : Prop :=
    exists t c h i, T = lplug t c /\ hd = Handle (erase t) h (ectx c) i /\ r = (NR h (lroot t), i).
  Definition place_rep (T : ltree) (a : addr) (p : loc * nat) : Prop :=
    exists t c, T = lplug t c /\ fst a = cpath (ectx c) /\ fst p = lroot t /\ snd a = snd p.

  Lemma first_leaf_ctx h : forall (n : node K V) c hd, first_leaf_edge h n c = Some hd -> exists d, hc hd = d ++ c.
  Proof.
    induction h as [|h IH]; intros n c hd E; cbn [first_leaf_edge] in E.
    - injection E as <-. now exists [].
    - destruct (descend n 0) as [[e f]|]; [|discriminate E]. destruct (IH _ _ _ E) as (d & Hd). exists (d ++ [f]). now rewrite <- app_assoc.
  Qed.
  Lemma last_leaf_ctx h : forall (n : node K V) c hd, last_leaf_edge h n c = Some hd -> exists d, hc hd = d ++ c.
  Proof.
    induction h as [|h IH]; intros n c hd E; cbn [last_leaf_edge] in E.
    - injection E as <-. now exists [].
    - destruct (descend n (nlen n)) as [[e f]|]; [|discriminate E]. destruct (IH _ _ _ E) as (d & Hd). exists (d ++ [f]). now rewrite <- app_assoc.
  Qed.

  Lemma part_first_leaf T F hp : part_ok hp T F -> forall h t c hd fuel, T = lplug t c -> h < fuel ->
    first_leaf_edge h (erase t) (ectx c) = Some hd -> dead_none F (hc hd) ->
    wp (h_first_leaf_edge fuel (NR h (lroot t))) hp (fun r hp' => hp' = hp /\ edge_rep T hd r).
  Proof.
    intros ok h. induction h as [|h IH]; intros t c hd fuel E Hf Hfl A; (destruct fuel as [|fuel]; [lia|]); cbn [h_first_leaf_edge rh].
    - cbn [first_leaf_edge] in Hfl. injection Hfl as <-. unfold first_edge. eapply part_edge; eauto; [apply (dead_none_self A)|lia|].
      split; [reflexivity|]. exists t, c, 0, 0. auto.
    - destruct (first_leaf_ctx Hfl) as (d & Hd). assert (dead_none F (ectx c)) as A0 by (rewrite Hd in A; exact (dead_none_app A)).
      cbn [first_leaf_edge] in Hfl. destruct (descend (erase t) 0) as [[e f]|] eqn:Ed; [|discriminate Hfl].
      destruct (descend_loc Ed) as (t' & lf & Et & -> & -> & Hl). unfold first_edge. subst t.
      st part_edge; eauto; [exact (dead_none_self A0)|lia|].
      st part_down; [exact ok|exact E|exact (dead_none_self A0)|exact Hl|].
      apply IH with (c := lf :: c); [exact E|lia|exact Hfl|exact A].
  Qed.
  Lemma part_last_leaf T F hp : part_ok hp T F -> forall h t c hd fuel, T = lplug t c -> h < fuel ->
    last_leaf_edge h (erase t) (ectx c) = Some hd -> dead_none F (hc hd) ->
    wp (h_last_leaf_edge fuel (NR h (lroot t))) hp (fun r hp' => hp' = hp /\ edge_rep T hd r).
  Proof.
    intros ok h. induction h as [|h IH]; intros t c hd fuel E Hf Hfl A; (destruct fuel as [|fuel]; [lia|]); cbn [h_last_leaf_edge rh].
    - cbn [last_leaf_edge] in Hfl. injection Hfl as <-. unfold last_edge.
      st part_len; [exact ok|exact E|exact (dead_none_self A)|]. eapply part_edge; eauto; [apply (dead_none_self A)|].
      split; [reflexivity|]. exists t, c, 0, (length (lks t)). rewrite nlen_erase. auto.
    - destruct (last_leaf_ctx Hfl) as (d & Hd). assert (dead_none F (ectx c)) as A0 by (rewrite Hd in A; exact (dead_none_app A)).
      cbn [last_leaf_edge] in Hfl. destruct (descend (erase t) (nlen (erase t))) as [[e f]|] eqn:Ed; [|discriminate Hfl].
      rewrite nlen_erase in Ed. destruct (descend_loc Ed) as (t' & lf & Et & -> & -> & Hl). unfold last_edge. subst t.
      apply wp_bind. st part_len; [exact ok|exact E|exact (dead_none_self A0)|].
      eapply part_edge; eauto; [exact (dead_none_self A0)|].
      st part_down; [exact ok|exact E|exact (dead_none_self A0)|exact Hl|].
      apply IH with (c := lf :: c); [exact E|lia|exact Hfl|exact A].
  Qed.

  (** ** One step of an iterator that only reads *)
  Lemma part_climb_right T F hp : part_ok hp T F -> forall c h t left s fuel, T = lplug t c -> length c <= fuel ->
    climb_right h (erase t) (ectx c) left = Some s -> dead_none F (ectx c) -> dead_none F (hc (s_edge s)) ->
    wp (h_climb_right fuel (NR h (lroot t))) hp (fun r hp' => hp' = hp /\
      fst (fst r) = s_kv s /\ place_rep T (s_addr s) (snd (fst r)) /\ edge_rep T (s_edge s) (snd r)).
  Proof.
    intros ok c. induction c as [|f c IH]; intros h t left s fuel E Hf Hc A As; cbn [ectx map climb_right] in Hc; [discriminate Hc|].
    fold (ectx c) in *. destruct fuel as [|fuel]; [cbn [length] in Hf; lia|]. cbn [h_climb_right].
    pose proof (dead_none_tl A) as A1.
    st part_ascend; [exact ok|exact E|exact (dead_none_self A)|]. cbn [lpar]. st wp_option; [reflexivity|].
    rewrite <- erase_fill, fidx_eframe in Hc. change (lfl f) with (lroot (lfill f t)).
    st part_right_kv; [exact ok|exact E|exact (dead_none_self A1)|]. rewrite nlen_erase in Hc.
    destruct (length (lfa f) <? length (lks (lfill f t))) eqn:Ei.
    - rewrite kvs_erase in Hc. destruct (nth_error (lks (lfill f t)) (length (lfa f))) as [x|] eqn:Ex; [|discriminate Hc].
      destruct (descend (erase (lfill f t)) (length (lfa f) + 1)) as [[e f']|] eqn:Ed; [|discriminate Hc].
      destruct (first_leaf_edge h e (f' :: ectx c)) as [hd|] eqn:Ef; [|discriminate Hc]. injection Hc as <-. cbn [s_kv s_addr s_edge] in *.
      destruct (descend_loc Ed) as (e' & lf & Et & -> & -> & Hl). apply Nat.ltb_lt in Ei.
      assert (lroot (lfill f t) = lfl lf) as Rl by (rewrite Et; reflexivity).
      st part_read_kv; [exact ok|exact E|exact (dead_none_self A1)|exact Ex|]. unfold right_edge. cbn [fst snd].
      st part_edge; [exact ok|exact E|exact (dead_none_self A1)|lia|]. rewrite Rl. cbn [lplug] in E. rewrite Et in E.
      st part_down; [exact ok|exact E|exact (dead_none_self A1)|exact Hl|]. cbn [rh].
      st wp_mono; [eapply part_first_leaf with (c := lf :: c); [exact ok|exact E| |exact Ef|exact As]; lia|]. cbn beta. intros r hp' [-> R].
      apply wp_ret. cbn [fst snd]. split; [reflexivity|]. split; [reflexivity|]. split; [|exact R]. exists (lfill lf e'), c. auto.
    - eapply (IH (S h) (lfill f t)); [exact E|cbn [length] in Hf; lia|exact Hc|exact A1|exact As].
  Qed.
  Lemma part_climb_left T F hp : part_ok hp T F -> forall c h t left s fuel, T = lplug t c -> length c <= fuel ->
    climb_left h (erase t) (ectx c) left = Some s -> dead_none F (ectx c) -> dead_none F (hc (s_edge s)) ->
    Forall (fun f => length (lfa f) <= length (lfk f)) c ->
    wp (h_climb_left fuel (NR h (lroot t))) hp (fun r hp' => hp' = hp /\
      fst (fst r) = s_kv s /\ place_rep T (s_addr s) (snd (fst r)) /\ edge_rep T (s_edge s) (snd r)).
  Proof.
    intros ok c. induction c as [|f c IH]; intros h t left s fuel E Hf Hc A As Fr; cbn [ectx map climb_left] in Hc; [discriminate Hc|].
    fold (ectx c) in *. destruct fuel as [|fuel]; [cbn [length] in Hf; lia|]. cbn [h_climb_left].
    pose proof (dead_none_tl A) as A1. inversion Fr as [|? ? Fr1 Fr2]; subst.
    st part_ascend; [exact ok|reflexivity|exact (dead_none_self A)|]. cbn [lpar]. st wp_option; [reflexivity|].
    rewrite <- erase_fill, fidx_eframe in Hc. change (lfl f) with (lroot (lfill f t)).
    st part_left_kv; [exact ok|reflexivity|exact (dead_none_self A1)|exact Fr1|].
    destruct (0 <? length (lfa f)) eqn:Ei.
    - rewrite kvs_erase in Hc. destruct (nth_error (lks (lfill f t)) (length (lfa f) - 1)) as [x|] eqn:Ex; [|discriminate Hc].
      destruct (descend (erase (lfill f t)) (length (lfa f) - 1)) as [[e f']|] eqn:Ed; [|discriminate Hc].
      destruct (last_leaf_edge h e (f' :: ectx c)) as [hd|] eqn:Ef; [|discriminate Hc]. injection Hc as <-. cbn [s_kv s_addr s_edge] in *.
      destruct (descend_loc Ed) as (e' & lf & Et & -> & -> & Hl). apply Nat.ltb_lt in Ei.
      assert (lroot (lfill f t) = lfl lf) as Rl by (rewrite Et; reflexivity).
      st part_read_kv; [exact ok|reflexivity|exact (dead_none_self A1)|exact Ex|]. unfold left_edge. cbn [fst snd].
      assert (length (lfa f) - 1 <= length (lks (lfill f t))) as Hk by (cbn [lfill lks]; lia).
      st part_edge; [exact ok|reflexivity|exact (dead_none_self A1)|exact Hk|]. rewrite Rl. cbn [lplug] in *. rewrite Et in *.
      st part_down; [exact ok|reflexivity|exact (dead_none_self A1)|exact Hl|]. cbn [rh].
      st wp_mono; [eapply part_last_leaf with (c := lf :: c); [exact ok|reflexivity| |exact Ef|exact As]; lia|]. cbn beta. intros r hp' [-> R].
      apply wp_ret. cbn [fst snd]. split; [reflexivity|]. split; [reflexivity|]. split; [|exact R]. exists (lfill lf e'), c. auto.
    - eapply (IH (S h) (lfill f t)); [reflexivity|cbn [length] in Hf; lia|exact Hc|exact A1|exact As|exact Fr2].
  Qed.
End Part.
