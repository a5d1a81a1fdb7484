(** * TouchBlind: walking an iterator looks at keys and links, never at values:
    on memory in which only values differ it goes the same way. *)
From Coq Require Import List Arith Lia Bool.
From Verif Require Import Base MapSpec IterSpec BTreeModel HeapModel HeapMapModel.
Import ListNotations.
Set Implicit Arguments.

Section Blind.
  Variables (K V : Type).
  Notation kv := (K * V)%type.
  Notation heap := (heap K V).
  Notation HM := (HM K V).
  Notation "x <~ m ;~ k" := (hbind m (fun x => k)) (at level 80, m at level 79, right associativity).

  Definition slot_sim (a b : option V) : Prop := match a, b with Some _, Some _ | None, None => True | _, _ => False end.
  Definition cell_sim (c d : cell K V) : Prop :=
    cint d = cint c /\ cpar d = cpar c /\ cpidx d = cpidx c /\ clen d = clen c /\ ckeys d = ckeys c /\ cedges d = cedges c /\
    Forall2 slot_sim (cvals c) (cvals d).
  Definition heap_sim (hp hp' : heap) : Prop :=
    forall l, match hget hp l, hget hp' l with Some c, Some d => cell_sim c d | None, None => True | _, _ => False end.
  Lemma slots_refl l : Forall2 slot_sim l l.
  Proof. induction l as [|[v|] l IH]; constructor; cbn; auto. Qed.
  Lemma cell_refl c : cell_sim c c.
  Proof. repeat (split; [reflexivity|]). apply slots_refl. Qed.
  Lemma sim_refl hp : heap_sim hp hp.
  Proof. intros l. destruct (hget hp l); auto using cell_refl. Qed.
  Lemma slot_trans a b c : slot_sim a b -> slot_sim b c -> slot_sim a c.
  Proof. destruct a, b, c; cbn; tauto. Qed.
  Lemma slots_trans a : forall b c, Forall2 slot_sim a b -> Forall2 slot_sim b c -> Forall2 slot_sim a c.
  Proof.
    induction a as [|x a IH]; intros b c H1 H2; inversion H1; subst; inversion H2; subst; constructor; eauto using slot_trans.
  Qed.
  Lemma cell_trans a b c : cell_sim a b -> cell_sim b c -> cell_sim a c.
  Proof.
    intros (A1 & A2 & A3 & A4 & A5 & A6 & A7) (B1 & B2 & B3 & B4 & B5 & B6 & B7).
    repeat (split; [congruence|]). eapply slots_trans; eauto.
  Qed.
  Lemma sim_trans a b c : heap_sim a b -> heap_sim b c -> heap_sim a c.
  Proof.
    intros H1 H2 l. specialize (H1 l). specialize (H2 l). destruct (hget a l), (hget b l), (hget c l); try contradiction; auto.
    eapply cell_trans; eauto.
  Qed.

  (** [blind R m]: [m] reads only, and its results on such memories are related by [R] *)
  Definition blind {A} (R : A -> A -> Prop) (m : HM A) : Prop :=
    forall hp hp' a h, heap_sim hp hp' -> m hp = Some (a, h) -> h = hp /\ exists b, m hp' = Some (b, hp') /\ R a b.
  Lemma blind_ret A (R : A -> A -> Prop) a : R a a -> blind R (hret a).
  Proof. intros H hp hp' b h _ E. injection E as <- <-. split; [reflexivity|]. exists a. auto. Qed.
  Lemma blind_ret2 A (R : A -> A -> Prop) (m m' : HM A) : (forall hp, m hp = m' hp) -> blind R m' -> blind R m.
  Proof. intros E H hp hp' a h S E1. rewrite E in E1. rewrite E. eauto. Qed.
  Lemma blind_bind A B (P : A -> A -> Prop) (R : B -> B -> Prop) (m : HM A) (f : A -> HM B) :
    blind P m -> (forall a b hp hp' x h, heap_sim hp hp' -> P a b -> f a hp = Some (x, h) -> h = hp /\ exists y, f b hp' = Some (y, hp') /\ R x y) ->
    blind R (hbind m f).
  Proof.
    intros Hm Hf hp hp' x h S E. unfold hbind in *. destruct (m hp) as [[a h1]|] eqn:E1; [|discriminate E].
    destruct (Hm hp hp' a h1 S E1) as (-> & b & -> & Pab). eapply Hf; eauto.
  Qed.
  Lemma blind_eq A B (R : B -> B -> Prop) (m : HM A) (f : A -> HM B) : blind eq m -> (forall a, blind R (f a)) -> blind R (hbind m f).
  Proof. intros Hm Hf. eapply blind_bind; [exact Hm|]. intros a b hp hp' x h S <- E. eapply Hf; eauto. Qed.
  Lemma blind_check b : blind eq (@check K V b).
  Proof. unfold check. destruct b; [now apply blind_ret|]. intros ? ? ? ? ? E. discriminate E. Qed.
  Lemma blind_of A (o : option A) : blind eq (@of_option K V A o).
  Proof. unfold of_option. destruct o; [now apply blind_ret|]. intros ? ? ? ? ? E. discriminate E. Qed.
  Lemma blind_read l : blind cell_sim (@hread K V l).
  Proof.
    intros hp hp' c h S E. unfold hread in *. specialize (S l). destruct (hget hp l) as [c0|]; [|discriminate E]. injection E as <- <-.
    destruct (hget hp' l) as [d|]; [|contradiction]. split; [reflexivity|]. eauto.
  Qed.
  Lemma blind_cell A B (g : cell K V -> A) (R : B -> B -> Prop) l (f : A -> HM B) : (forall c d, cell_sim c d -> g d = g c) -> (forall a, blind R (f a)) ->
    blind R (c <~ hread l ;~ f (g c)).
  Proof. intros Hg Hf. eapply blind_bind; [apply blind_read|]. intros c d hp hp' x h S Hc E. rewrite (Hg _ _ Hc). eapply Hf; eauto. Qed.
  Lemma blind_len r : blind eq (@n_len K V r).
  Proof. unfold n_len. apply (blind_cell (@clen K V)); [intros c d H; apply H|]. intros a. now apply blind_ret. Qed.
  Lemma blind_key l i : blind eq (a_read (akeys K V) l i).
  Proof. unfold a_read. apply (blind_cell (fun c => arr_read (aget (akeys K V) c) i)); [|intros a; apply blind_of]. intros c d (_ & _ & _ & _ & E & _). cbn. now rewrite E. Qed.
  Lemma blind_edge l i : blind eq (a_read (aedges K V) l i).
  Proof. unfold a_read. apply (blind_cell (fun c => arr_read (aget (aedges K V) c) i)); [|intros a; apply blind_of]. intros c d (_ & _ & _ & _ & _ & E & _). cbn. now rewrite E. Qed.
  Lemma sim_read (a b : list (option V)) i v : Forall2 slot_sim a b -> arr_read a i = Some v -> exists v', arr_read b i = Some v'.
  Proof.
    unfold arr_read. intros F. revert i. induction F as [|x y a b S F IH]; intros [|i]; cbn; try discriminate; auto. destruct x, y; cbn in S; try contradiction; [eauto|discriminate].
  Qed.
  Lemma blind_val l i : blind (fun _ _ => True) (a_read (avals K V) l i).
  Proof.
    unfold a_read. eapply blind_bind; [apply blind_read|]. intros c d hp hp' v h S (_ & _ & _ & _ & _ & _ & F) E. cbn in *.
    destruct (arr_read (cvals c) i) as [v0|] eqn:Er; [|discriminate E]. injection E as <- <-. destruct (sim_read _ F Er) as (v' & ->). split; [reflexivity|]. cbn. unfold hret. eauto.
  Qed.
  Lemma blind_keys r : blind eq (@n_keys K V r).
  Proof.
    unfold n_keys. apply blind_eq; [apply blind_len|]. intros n. unfold slice. apply (blind_cell (fun c => arr_init (aget (akeys K V) c) n)); [|intros a; apply blind_of].
    intros c d (_ & _ & _ & _ & E & _). cbn. now rewrite E.
  Qed.
  Lemma sim_init (a b : list (option V)) : Forall2 slot_sim a b -> forall n l, arr_init a n = Some l -> exists l', arr_init b n = Some l'.
  Proof.
    induction 1 as [|x y a b S F IH]; intros [|n] l; cbn; try discriminate; eauto. destruct x, y; cbn in S; try contradiction; [|discriminate].
    destruct (arr_init a n) as [l0|] eqn:E; [|discriminate]. destruct (IH _ _ E) as (l' & ->). intros _. cbn. eauto.
  Qed.
  Lemma blind_vals r : blind (fun _ _ => True) (@n_vals K V r).
  Proof.
    unfold n_vals, not_shared. apply blind_eq; [apply blind_check|]. intros _. apply blind_eq; [apply blind_len|]. intros n. unfold slice.
    eapply blind_bind; [apply blind_read|]. intros c d hp hp' v h S (_ & _ & _ & _ & _ & _ & F) E. cbn in *.
    destruct (arr_init (cvals c) n) as [v0|] eqn:Er; [|discriminate E]. injection E as <- <-. destruct (sim_init F _ Er) as (v' & ->). split; [reflexivity|]. cbn. unfold hret. eauto.
  Qed.
  Lemma blind_any A B (R : B -> B -> Prop) (m : HM A) (f : HM B) : blind (fun _ _ => True) m -> blind R f -> blind R (hbind m (fun _ => f)).
  Proof. intros Hm Hf. eapply blind_bind; [exact Hm|]. intros a b hp hp' x h S _ E. eapply Hf; eauto. Qed.
  Lemma blind_into_kv h : blind (fun x y : kv => fst y = fst x) (@h_into_kv K V h).
  Proof.
    destruct h as [r i]. unfold h_into_kv. apply blind_eq; [apply blind_keys|]. intros _. apply blind_any; [apply blind_vals|]. apply blind_eq; [apply blind_key|]. intros k.
    eapply blind_bind; [apply blind_val|]. intros v v' hp hp' x h S _ E. injection E as <- <-. split; [reflexivity|]. exists (k, v'). auto.
  Qed.
  Lemma blind_new_edge r i : blind eq (@new_edge K V r i).
  Proof. unfold new_edge. apply blind_eq; [apply blind_len|]. intros n. apply blind_eq; [apply blind_check|]. intros _. now apply blind_ret. Qed.
  Lemma blind_new_kv r i : blind eq (@new_kv K V r i).
  Proof. unfold new_kv. apply blind_eq; [apply blind_len|]. intros n. apply blind_eq; [apply blind_check|]. intros _. now apply blind_ret. Qed.
  Lemma blind_right_kv h : blind eq (@right_kv K V h).
  Proof.
    unfold right_kv. apply blind_eq; [apply blind_len|]. intros n. destruct (snd h <? n); [|now apply blind_ret]. apply blind_eq; [apply blind_new_kv|]. intros k. now apply blind_ret.
  Qed.
  Lemma blind_left_kv h : blind eq (@left_kv K V h).
  Proof. unfold left_kv. destruct (0 <? snd h); [|now apply blind_ret]. apply blind_eq; [apply blind_new_kv|]. intros k. now apply blind_ret. Qed.
  Lemma blind_ascend r : blind eq (@ascend K V r).
  Proof.
    unfold ascend. eapply blind_bind; [apply blind_read|]. intros c d hp hp' x h S (_ & E1 & E2 & _) E. rewrite E1, E2. destruct (cpar c) as [p|].
    - assert (blind eq (i <~ of_option (cpidx c) ;~ @hret K V _ (Some (NR (Datatypes.S (rh r)) p, i)))) as B by (apply blind_eq; [apply blind_of|]; intros i; now apply blind_ret).
      eapply B; eauto.
    - injection E as <- <-. split; [reflexivity|]. exists None. auto.
  Qed.
  Lemma blind_descend h : blind eq (@h_descend K V h).
  Proof.
    destruct h as [r i]. unfold h_descend. apply blind_eq; [apply blind_check|]. intros _. apply (@blind_cell _ _ (@cint K V) _ _ (fun b => hbind (check b) (fun _ => e <~ a_read (aedges K V) (rl r) i ;~ hret (NR (rh r - 1) e)))); [intros c d H; apply H|]. intros b.
    apply blind_eq; [apply blind_check|]. intros _. apply blind_eq; [apply blind_edge|]. intros e. now apply blind_ret.
  Qed.
  Lemma blind_hub A (R : A -> A -> Prop) : blind R (@hub K V A).
  Proof. intros ? ? ? ? ? E. discriminate E. Qed.
  Lemma blind_first fuel : forall r, blind eq (@h_first_leaf_edge K V fuel r).
  Proof.
    induction fuel as [|fuel IH]; intros r; cbn [h_first_leaf_edge]; [apply blind_hub|]. destruct (rh r); [apply blind_new_edge|].
    apply blind_eq; [apply blind_new_edge|]. intros e. apply blind_eq; [apply blind_descend|]. intros c. apply IH.
  Qed.
  Lemma blind_last fuel : forall r, blind eq (@h_last_leaf_edge K V fuel r).
  Proof.
    assert (forall r, blind eq (@last_edge K V r)) as L by (intros r; unfold last_edge; apply blind_eq; [apply blind_len|]; intros n; apply blind_new_edge).
    induction fuel as [|fuel IH]; intros r; cbn [h_last_leaf_edge]; [apply blind_hub|]. destruct (rh r); [apply L|].
    apply blind_eq; [apply L|]. intros e. apply blind_eq; [apply blind_descend|]. intros c. apply IH.
  Qed.

  (** the same item but for its value, and the same rest *)
  Definition near (x y : kv * (loc * nat) * hhandle) : Prop := fst (fst (fst y)) = fst (fst (fst x)) /\ snd (fst y) = snd (fst x) /\ snd y = snd x.
  Lemma blind_item h p (m : HM hhandle) : blind eq m -> blind near (x <~ h_into_kv h ;~ f <~ m ;~ hret (x, p, f)).
  Proof.
    intros Hm. eapply blind_bind; [apply blind_into_kv|]. intros x y hp hp' z h0 S E Ez. unfold hbind in *. destruct (m hp) as [[f h1]|] eqn:E1; [|discriminate Ez].
    destruct (Hm _ _ _ _ S E1) as (-> & f' & -> & <-). injection Ez as <- <-. split; [reflexivity|]. exists (y, p, f). split; [reflexivity|]. split; [exact E|]. auto.
  Qed.
  Lemma bind_assoc A B C (m : HM A) (f : A -> HM B) (g : B -> HM C) hp : hbind (hbind m f) g hp = hbind m (fun a => hbind (f a) g) hp.
  Proof. unfold hbind. destruct (m hp) as [[a h]|]; reflexivity. Qed.
  Lemma blind_climb_right fuel : forall r, blind near (@h_climb_right K V fuel r).
  Proof.
    induction fuel as [|fuel IH]; intros r; cbn [h_climb_right]; [apply blind_hub|]. apply blind_eq; [apply blind_ascend|]. intros a. apply blind_eq; [apply blind_of|]. intros e.
    apply blind_eq; [apply blind_right_kv|]. intros [h|]; [|apply IH].
    assert (blind near (x <~ h_into_kv h ;~ f <~ (re <~ right_edge h ;~ c <~ h_descend re ;~ h_first_leaf_edge (Datatypes.S (rh c)) c) ;~ @hret K V _ (x, (rl (fst h), snd h), f))) as B.
    { apply blind_item. apply blind_eq; [apply blind_new_edge|]. intros re. apply blind_eq; [apply blind_descend|]. intros c. apply blind_first. }
    eapply blind_ret2; [|exact B]. intros hp. unfold hbind. destruct (h_into_kv h hp) as [[x h1]|]; [|reflexivity].
    destruct (right_edge h h1) as [[re h2]|]; [|reflexivity]. destruct (h_descend re h2) as [[c h3]|]; reflexivity.
  Qed.
  Lemma blind_climb_left fuel : forall r, blind near (@h_climb_left K V fuel r).
  Proof.
    induction fuel as [|fuel IH]; intros r; cbn [h_climb_left]; [apply blind_hub|]. apply blind_eq; [apply blind_ascend|]. intros a. apply blind_eq; [apply blind_of|]. intros e.
    apply blind_eq; [apply blind_left_kv|]. intros [h|]; [|apply IH].
    assert (blind near (x <~ h_into_kv h ;~ f <~ (re <~ left_edge h ;~ c <~ h_descend re ;~ h_last_leaf_edge (Datatypes.S (rh c)) c) ;~ @hret K V _ (x, (rl (fst h), snd h), f))) as B.
    { apply blind_item. apply blind_eq; [apply blind_new_edge|]. intros re. apply blind_eq; [apply blind_descend|]. intros c. apply blind_last. }
    eapply blind_ret2; [|exact B]. intros hp. unfold hbind. destruct (h_into_kv h hp) as [[x h1]|]; [|reflexivity].
    destruct (left_edge h h1) as [[re h2]|]; [|reflexivity]. destruct (h_descend re h2) as [[c h3]|]; reflexivity.
  Qed.
  Lemma blind_next fuel h : blind near (@h_next_unchecked K V fuel h).
  Proof.
    unfold h_next_unchecked. apply blind_eq; [apply blind_right_kv|]. intros [k|]; [|apply blind_climb_right]. apply blind_item. apply blind_new_edge.
  Qed.
  Lemma blind_next_back fuel h : blind near (@h_next_back_unchecked K V fuel h).
  Proof.
    unfold h_next_back_unchecked. apply blind_eq; [apply blind_left_kv|]. intros [k|]; [|apply blind_climb_left]. apply blind_item. apply blind_new_edge.
  Qed.

  (** the four iterator steps *)
  Definition nearby (I : Type) (x y : option (hitem K V) * I) : Prop :=
    snd y = snd x /\ match fst x, fst y with Some a, Some b => fst (fst b) = fst (fst a) /\ snd b = snd a | None, None => True | _, _ => False end.
  Lemma nearby_of I (m : HM (kv * (loc * nat) * hhandle)) (g : hhandle -> I) : blind near m ->
    blind (@nearby I) (s <~ m ;~ hret (Some (fst s), g (snd s))).
  Proof.
    intros B. eapply blind_bind; [exact B|]. intros a b hp hp' x h S (E1 & E2 & E3) E. injection E as <- <-. split; [reflexivity|].
    eexists. split; [reflexivity|]. split; [cbn; now rewrite E3|]. cbn. auto.
  Qed.
  Lemma nearby_none I (i : I) : blind (@nearby I) (hret (None, i)).
  Proof. apply blind_ret. split; cbn; auto. Qed.
  Lemma blind_iter_next fuel it : blind (@nearby hiter) (@h_iter_next K V fuel it).
  Proof. unfold h_iter_next. destruct (xlen it =? 0); [apply nearby_none|]. apply (nearby_of (fun e => HIter (HRange e (xback (xrange it))) (xlen it - 1)) (blind_next _ _)). Qed.
  Lemma blind_iter_next_back fuel it : blind (@nearby hiter) (@h_iter_next_back K V fuel it).
  Proof. unfold h_iter_next_back. destruct (xlen it =? 0); [apply nearby_none|]. apply (nearby_of (fun e => HIter (HRange (xfront (xrange it)) e) (xlen it - 1)) (blind_next_back _ _)). Qed.
  Lemma blind_range_next fuel it : blind (@nearby hrange) (@h_range_next K V fuel it).
  Proof. unfold h_range_next. destruct (hhandle_eqb (xfront it) (xback it)); [apply nearby_none|]. apply (nearby_of (fun e => HRange e (xback it)) (blind_next _ _)). Qed.
  Lemma blind_range_next_back fuel it : blind (@nearby hrange) (@h_range_next_back K V fuel it).
  Proof. unfold h_range_next_back. destruct (hhandle_eqb (xfront it) (xback it)); [apply nearby_none|]. apply (nearby_of (fun e => HRange (xfront it) e) (blind_next_back _ _)). Qed.

  (** a write to a value *)
  Lemma write_sim hp l i v v' h1 u h2 : a_read (avals K V) l i hp = Some (v, h1) -> a_write (avals K V) l i v' h1 = Some (u, h2) -> heap_sim hp h2.
  Proof.
    unfold a_read, a_write, hbind, hread. destruct (hget hp l) as [c|] eqn:E; [|discriminate]. cbn [aget avals].
    destruct (arr_read (cvals c) i) as [v0|] eqn:Er; [|discriminate]. cbn. intros E1. injection E1 as <- <-. rewrite E.
    unfold arr_write. destruct (i <? length (cvals c)) eqn:Hi; [|discriminate]. cbn. unfold hwrite. destruct (l =? sroot) eqn:El; [discriminate|]. rewrite E.
    intros E2. injection E2 as _ <-. intros l'. unfold hset, hget. cbn [hfind]. destruct (l' =? sroot) eqn:El'; [apply cell_refl|].
    destruct (Nat.eqb_spec l l') as [<-|N].
    - unfold hget in E. rewrite El in E. rewrite E. repeat (split; [reflexivity|]). cbn [cvals aset avals].
      unfold arr_read in Er. clear - Er. generalize dependent i. induction (cvals c) as [|x a IH]; intros [|i] Er; cbn in *; try discriminate.
      + destruct x; [|discriminate]. constructor; [exact I|apply slots_refl].
      + constructor; [destruct x; exact I|]. apply IH. exact Er.
    - destruct (hfind hp l'); auto using cell_refl.
  Qed.
End Blind.
