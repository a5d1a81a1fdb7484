(** * HostileRange: places of entries as positions in the list; ranges with
    comparisons that answer anything; comparison of maps. *)
From Coq Require Import List Arith Lia Bool Permutation.
From Verif Require Import Base MapSpec IterSpec BTreeModel BTreeInv BTreeLemmas BTreeSearch BTreeInsert BTreeIterModel BTreeIter BTreeStep BTreeIterProofs.
From Verif Require Import BTreeRange BTreeRemove BTreeOps BTreeEntry BTreeWrites BTreeBulkModel BTreeCollect HistoryModel.
From Verif Require Import HeapModel HeapMapModel HeapArr HeapRep HeapWp HeapNode HeapOps HeapOps2 HeapOps3 HeapOps4 HeapZip HeapRemove HeapSearch HeapInsert HeapRes HeapPart HeapMap HeapEntry HeapIter.
From Verif Require Import HostileModel HostileSpec HostileOps.
Import ListNotations.
Set Implicit Arguments.
Unset Strict Implicit.

Lemma skip_skip A (l : list A) : forall a b, skipn a (skipn b l) = skipn (a + b) l.
Proof.
  intros a b. revert l. induction b as [|b IH]; intros l.
  - now rewrite Nat.add_0_r.
  - destruct l as [|x l]; [now rewrite !skipn_nil|]. rewrite Nat.add_succ_r. cbn [skipn]. apply IH.
Qed.
Section Rank.
  Variables (K V : Type).
  Notation kv := (K * V)%type.
  Notation node := (node K V).
  Notation frame := (frame K V).
  Notation ctx := (ctx K V).
  Notation bmap := (bmap K V).
  Implicit Types (n e : node) (f : frame) (c : ctx).

  Definition size n : nat := length (inorder n).
  Fixpoint sum (l : list nat) : nat := match l with [] => 0 | x :: l' => x + sum l' end.
  Lemma sum_app a b : sum (a ++ b) = sum a + sum b.
  Proof. induction a; cbn; lia. Qed.
  (** how many entries stand before the one at an address *)
  Fixpoint rank n (p : list nat) (i : nat) : nat :=
    match p with
    | [] => i + sum (firstn (S i) (map size (edges n)))
    | j :: p' => j + sum (firstn j (map size (edges n))) + match nth_error (edges n) j with Some e => rank e p' i | None => 0 end
    end.

  Lemma wl_length (es : list (list kv)) : forall ks, length ks = length es -> length (wl es ks) = length ks + sum (map (@length _) es).
  Proof. induction es as [|x es IH]; intros [|k ks] H; cbn in *; try lia. rewrite app_length. cbn. rewrite IH by lia. lia. Qed.
  Lemma before_length f : frame_ok f -> length (before f) = fidx f + sum (map size (fl f)).
  Proof.
    unfold frame_ok, before, fidx. intros H. rewrite wl_length by (rewrite map_length, firstn_length; lia). rewrite firstn_length.
    rewrite map_map. unfold size. lia.
  Qed.
  Lemma firstn_sizes a e z : firstn (length a) (map size (a ++ e :: z)) = map size a.
  Proof. rewrite map_app. rewrite <- (map_length size a). rewrite firstn_app, Nat.sub_diag, firstn_all. apply app_nil_r. Qed.
  Lemma firstn_sizes_S a e z : firstn (S (length a)) (map size (a ++ e :: z)) = map size a ++ [size e].
  Proof.
    rewrite map_app. cbn [map]. rewrite <- (map_length size a), firstn_app. replace (S (length (map size a)) - length (map size a)) with 1 by lia.
    rewrite firstn_all2 by lia. reflexivity.
  Qed.
  Lemma rank_plug c : forall n p i, Forall (@frame_ok K V) c -> rank (plug n c) (cpath c ++ p) i = length (cbefore c) + rank n p i.
  Proof.
    induction c as [|f c IH]; intros n p i F; [reflexivity|]. inversion F as [|? ? Ff Fc]; subst.
    rewrite cpath_cons, <- app_assoc. cbn [plug app]. rewrite (IH _ _ _ Fc). cbn [cbefore rank fill edges]. rewrite app_length, before_length by exact Ff.
    unfold fidx. rewrite firstn_sizes, nth_error_mid by reflexivity. lia.
  Qed.

  Lemma climb_right_rank c : forall h n left s, kids any h n -> cok any (@anyR) h c -> climb_right h n c left = Some s ->
    rank (plug n c) (fst (s_addr s)) (snd (s_addr s)) = length (cbefore c) + size n.
  Proof.
    induction c as [|f c IH]; intros h n left s Hk Hc E; [discriminate E|]. cbn [climb_right] in E. apply cok_top in Hc as (Ff & F1 & F2 & Hc).
    destruct (fidx f <? nlen (fill f n)) eqn:L.
    - destruct (nth_error (kvs (fill f n)) (fidx f)); [|discriminate E]. destruct (descend (fill f n) (fidx f + 1)) as [[e f']|]; [|discriminate E].
      destruct (first_leaf_edge h e (f' :: c)); [|discriminate E]. injection E as <-. cbn [s_addr fst snd plug].
      rewrite <- (app_nil_r (cpath c)), rank_plug by (eapply cok_frames; exact Hc). cbn [rank cbefore fill edges]. rewrite app_length, before_length by exact Ff.
      unfold fidx. rewrite firstn_sizes_S, sum_app. cbn [sum]. lia.
    - cbn [plug]. rewrite (IH (S h) (fill f n) (left ++ [cpath (f :: c)]) s); [|apply fill_kids; unfold sub, any; auto|exact Hc|exact E].
      unfold size. rewrite inorder_fill by exact Ff. cbn [cbefore]. rewrite !app_length. apply Nat.ltb_ge in L. unfold nlen in L. cbn [fill kvs] in L.
      unfold BTreeLemmas.after. rewrite skipn_all2 by exact L. cbn. lia.
  Qed.
  Lemma climb_left_rank c : forall h n left s, kids any h n -> cok any (@anyR) h c -> climb_left h n c left = Some s ->
    S (rank (plug n c) (fst (s_addr s)) (snd (s_addr s))) = length (cbefore c).
  Proof.
    induction c as [|f c IH]; intros h n left s Hk Hc E; [discriminate E|]. cbn [climb_left] in E. apply cok_top in Hc as (Ff & F1 & F2 & Hc).
    destruct (0 <? fidx f) eqn:L.
    - destruct (nth_error (kvs (fill f n)) (fidx f - 1)); [|discriminate E]. destruct (descend (fill f n) (fidx f - 1)) as [[e f']|]; [|discriminate E].
      destruct (last_leaf_edge h e (f' :: c)); [|discriminate E]. injection E as <-. cbn [s_addr fst snd plug]. apply Nat.ltb_lt in L.
      rewrite <- (app_nil_r (cpath c)), rank_plug by (eapply cok_frames; exact Hc). cbn [rank cbefore fill edges]. rewrite app_length, before_length by exact Ff.
      replace (S (fidx f - 1)) with (fidx f) by lia. unfold fidx in *. rewrite firstn_sizes. lia.
    - cbn [plug]. rewrite (IH (S h) (fill f n) (left ++ [cpath (f :: c)]) s); [|apply fill_kids; unfold sub, any; auto|exact Hc|exact E].
      apply Nat.ltb_ge in L. cbn [cbefore]. rewrite app_length, before_length by exact Ff. unfold fidx in *. destruct (fl f); cbn in *; lia.
  Qed.
  Lemma next_rank H T hd s : leaf_edge H T hd -> next_unchecked hd = Some s -> rank T (fst (s_addr s)) (snd (s_addr s)) = pos hd.
  Proof.
    intros (Hok & H0 & Hi) E. apply hok_any in Hok as (<- & _ & Hk & Hc). rewrite H0 in *. unfold next_unchecked in E. destruct (hi hd <? nlen (hn hd)) eqn:L.
    - destruct (nth_error (kvs (hn hd)) (hi hd)); [|discriminate E]. injection E as <-. cbn [s_addr haddr fst snd hpath].
      unfold hpath. rewrite <- (app_nil_r (cpath (hc hd))), rank_plug by (eapply cok_frames; exact Hc). cbn [kids] in Hk. cbn [rank]. rewrite Hk. cbn. unfold pos. lia.
    - rewrite (climb_right_rank Hk Hc E). unfold size. rewrite (leaf_inorder Hk). apply Nat.ltb_ge in L. unfold nlen in *. unfold pos. lia.
  Qed.
  Lemma next_back_rank H T hd s : leaf_edge H T hd -> next_back_unchecked hd = Some s -> S (rank T (fst (s_addr s)) (snd (s_addr s))) = pos hd.
  Proof.
    intros (Hok & H0 & Hi) E. apply hok_any in Hok as (<- & _ & Hk & Hc). rewrite H0 in *. unfold next_back_unchecked in E. destruct (0 <? hi hd) eqn:L.
    - destruct (nth_error (kvs (hn hd)) (hi hd - 1)); [|discriminate E]. injection E as <-. cbn [s_addr haddr fst snd hpath]. apply Nat.ltb_lt in L.
      unfold hpath. rewrite <- (app_nil_r (cpath (hc hd))), rank_plug by (eapply cok_frames; exact Hc). cbn [kids] in Hk. cbn [rank]. rewrite Hk. cbn. unfold pos. lia.
    - rewrite (climb_left_rank Hk Hc E). apply Nat.ltb_ge in L. unfold pos. lia.
  Qed.

  (** the items of a sequence of calls, as positions *)
  Definition where_ T (it : item K V) : nat := rank T (fst (snd it)) (snd (snd it)).
  Lemma seg_seq (n : nat) : forall k a b, a <= b -> b <= n -> seg (seq k n) a b = seq (k + a) (b - a).
  Proof.
    induction n as [|n IH]; intros k a b H1 H2.
    - assert (a = 0) by lia. assert (b = 0) by lia. subst. reflexivity.
    - cbn [seq]. unfold seg. destruct a as [|a]; cbn [skipn].
      + rewrite Nat.sub_0_r, Nat.add_0_r. destruct b as [|b]; [reflexivity|]. cbn [firstn seq]. f_equal.
        specialize (IH (S k) 0 b). unfold seg in IH. cbn [skipn] in IH. rewrite Nat.sub_0_r, Nat.add_0_r in IH. apply IH; lia.
      + destruct b as [|b]; [lia|]. replace (S b - S a) with (b - a) by lia. specialize (IH (S k) a b). unfold seg in IH. rewrite IH by lia. f_equal. lia.
  Qed.
  Lemma nth_seq (k n i : nat) : i < n -> nth_error (seq k n) i = Some (k + i).
  Proof. revert k i. induction n as [|n IH]; intros k [|i] H; cbn; try lia; [f_equal; lia|]. rewrite IH by lia. f_equal. lia. Qed.
  Lemma range_where H T a b r ops outs r' : between H T a b r -> calls (@range_next K V) (@range_next_back K V) ops r = Ret (outs, r') ->
    fst (dq_run ops (seq a (b - a))) = map (option_map (where_ T)) outs.
  Proof.
    intros Bt E. pose proof (between_bound Bt) as Bb.
    destruct (@calls_sim _ _ _ (where_ T) (fun _ => True) (seq 0 (length (inorder T))) (@range_next K V) (@range_next_back K V) (between H T)) with (ops := ops) (a := a) (b := b) (s := r)
      as (outs' & r'' & a' & b' & E1 & _ & E3 & _); auto.
    - intros a0 b0 s B. rewrite seq_length. exact (between_bound B).
    - intros a0 b0 s B. pose proof (range_next_ok B) as N. pose proof (between_bound B). destruct (Nat.eqb_spec a0 b0); [exact N|].
      destruct N as (x & s' & N & _ & _ & B'). exists x, s'. split; [exact N|]. split; [|auto]. rewrite nth_seq by lia. f_equal. destruct B as (B1 & B2 & <- & _).
      unfold range_next in N. destruct (handle_eqb _ _); [discriminate N|]. destruct (next_unchecked (rfront s)) as [st|] eqn:En; [|discriminate N]. injection N as <- _.
      symmetry. exact (next_rank B1 En).
    - intros a0 b0 s B. pose proof (range_next_back_ok B) as N. pose proof (between_bound B). destruct (Nat.eqb_spec a0 b0); [exact N|].
      destruct N as (x & s' & N & _ & _ & B'). exists x, s'. split; [exact N|]. split; [|auto]. rewrite nth_seq by lia. f_equal. destruct B as (B1 & B2 & _ & <- & _).
      unfold range_next_back in N. destruct (handle_eqb _ _); [discriminate N|]. destruct (next_back_unchecked (rback s)) as [st|] eqn:En; [|discriminate N]. injection N as <- _.
      pose proof (next_back_rank B2 En) as P. unfold where_. cbn [snd]. lia.
    - rewrite E in E1. injection E1 as <- <-. rewrite seg_seq in E3 by lia. cbn [Nat.add] in E3. now rewrite E3.
  Qed.
  Lemma iter_where H T a b r ops outs r' : iter_ok H T a b r -> calls (@iter_next K V) (@iter_next_back K V) ops r = Ret (outs, r') ->
    fst (dq_run ops (seq a (b - a))) = map (option_map (where_ T)) outs.
  Proof.
    intros Bt E. pose proof (between_bound (proj1 Bt)) as Bb.
    destruct (@calls_sim _ _ _ (where_ T) (fun _ => True) (seq 0 (length (inorder T))) (@iter_next K V) (@iter_next_back K V) (iter_ok H T)) with (ops := ops) (a := a) (b := b) (s := r)
      as (outs' & r'' & a' & b' & E1 & _ & E3 & _); auto.
    - intros a0 b0 s B. rewrite seq_length. exact (between_bound (proj1 B)).
    - intros a0 b0 s B. pose proof (iter_next_ok B) as N. pose proof (between_bound (proj1 B)). destruct (Nat.eqb_spec a0 b0); [exact N|].
      destruct N as (x & s' & N & _ & _ & B'). exists x, s'. split; [exact N|]. split; [|auto]. rewrite nth_seq by lia. f_equal. destruct B as ((B1 & B2 & <- & _) & _).
      unfold iter_next in N. destruct (ilen s =? 0); [discriminate N|]. destruct (next_unchecked (rfront (irange s))) as [st|] eqn:En; [|discriminate N]. injection N as <- _.
      symmetry. exact (next_rank B1 En).
    - intros a0 b0 s B. pose proof (iter_next_back_ok B) as N. pose proof (between_bound (proj1 B)). destruct (Nat.eqb_spec a0 b0); [exact N|].
      destruct N as (x & s' & N & _ & _ & B'). exists x, s'. split; [exact N|]. split; [|auto]. rewrite nth_seq by lia. f_equal. destruct B as ((B1 & B2 & _ & <- & _) & _).
      unfold iter_next_back in N. destruct (ilen s =? 0); [discriminate N|]. destruct (next_back_unchecked (rback (irange s))) as [st|] eqn:En; [|discriminate N]. injection N as <- _.
      pose proof (next_back_rank B2 En) as P. unfold where_. cbn [snd]. lia.
    - rewrite E in E1. injection E1 as <- <-. rewrite seg_seq in E3 by lia. cbn [Nat.add] in E3. now rewrite E3.
  Qed.

  (** writing at an address is writing at its position *)
  Lemma firstn_length_in A (a z : list A) x i : pick i (a ++ x :: z) = Some (a, x, z) -> length a = i.
  Proof. intros E. now apply pick_some in E. Qed.
  Lemma weave_left_length (es : list (list kv)) : forall ks, length es = S (length ks) -> length (weave es ks) = length ks + sum (map (@length _) es).
  Proof.
    induction es as [|x es IH]; intros ks H; [discriminate H|]. cbn [weave map sum]. rewrite app_length. destruct ks as [|k ks].
    - destruct es; [cbn; lia|discriminate H].
    - cbn [length] in *. rewrite IH by lia. lia.
  Qed.
  Lemma write_at_app (f : V -> V) (l : list kv) x r : write_at (length l) f (l ++ x :: r) = l ++ write_val f x :: r.
  Proof. induction l as [|y l IH]; [reflexivity|]. cbn. now rewrite IH. Qed.
  Lemma update_rank p : forall h i g n n', kids any h n -> length p <= h -> update_node p i g n = Some n' ->
    (exists l x r, inorder n = l ++ x :: r /\ inorder n' = l ++ g x :: r /\ length l = rank n p i) /\ forall p' i', rank n' p' i' = rank n p' i'.
  Proof.
    induction p as [|j p IH]; intros h i g n n' Hk Hp E; cbn [update_node] in E.
    - destruct (pick i (kvs n)) as [[[a x] z]|] eqn:Ep; [|discriminate E]. injection E as <-. split; [|intros [|j p'] i'; reflexivity].
      assert (kv_at n ([], i) = Some x) as Ea by (rewrite kv_at_nil; pose proof (pick_some _ _ Ep) as [-> Hl]; apply nth_error_mid; exact Hl).
      exists (nleft n i), x, (nright n i). split; [exact (@kv_split _ _ _ _ _ _ _ _ _ Hk Ep)|].
      pose proof (pick_some _ _ Ep) as [En Hl]. set (n' := Node (a ++ g x :: z) (edges n)).
      assert (kids any h n') as Hk'.
      { destruct h; cbn [kids] in *; [exact Hk|]. unfold nlen in *. cbn. rewrite En in Hk. rewrite !app_length in *. exact Hk. }
      assert (pick i (kvs n') = Some (a, g x, z)) as Ep' by (apply pick_app'; auto). split.
      + rewrite (@kv_split _ _ _ _ _ _ _ _ _ Hk' Ep'). unfold nleft, nright, n'. cbn [edges kvs]. rewrite En.
        rewrite !firstn_app_len by auto.
        replace (skipn (S i) (a ++ g x :: z)) with z
            by (change (g x :: z) with ([g x] ++ z); rewrite app_assoc; symmetry; apply skipn_app_len; rewrite app_length; simpl; lia).
        replace (skipn (S i) (a ++ x :: z)) with z
            by (change (x :: z) with ([x] ++ z); rewrite app_assoc; symmetry; apply skipn_app_len; rewrite app_length; simpl; lia).
        reflexivity.
      + cbn [rank]. unfold nleft. rewrite En, firstn_app_len by auto. destruct h; cbn [kids] in Hk.
        * rewrite Hk. cbn. lia.
        * destruct Hk as (He & _). unfold nlen in He. rewrite En, app_length in He. cbn [length] in He.
          rewrite weave_left_length by (rewrite map_length, firstn_length; lia). rewrite Hl, map_map. rewrite firstn_map. reflexivity.
    - destruct h as [|h]; [cbn in Hp; lia|]. destruct (pick j (edges n)) as [[[a e] z]|] eqn:Ep; [|discriminate E].
      destruct (update_node p i g e) as [e'|] eqn:Ee; [|discriminate E]. injection E as <-. pose proof (pick_some _ _ Ep) as [En Hl].
      assert (descend n j = Some (e, Frame (kvs n) a z)) as Ed by (unfold descend; now rewrite Ep).
      destruct (@descend_kids _ _ any anyR _ _ _ _ _ Hk Ed) as (Ef & _ & Ff & _ & (_ & Hke) & _). cbn [length] in Hp.
      destruct (IH h i g e e' Hke) as ((l & x & r & I1 & I2 & I3) & Rk); [lia|exact Ee|]. set (f := Frame (kvs n) a z) in *.
      assert (size e' = size e) as Sz by (unfold size; rewrite I1, I2, !app_length; reflexivity). split.
      + exists (before f ++ l), x, (r ++ BTreeLemmas.after f). rewrite Ef at 1. change (Node (kvs n) (a ++ e' :: z)) with (fill f e').
        rewrite !inorder_fill, I1, I2 by exact Ff. split; [now rewrite <- !app_assoc|]. split; [now rewrite <- !app_assoc|].
        cbn [rank]. rewrite app_length, before_length, I3 by exact Ff. rewrite En, <- Hl, firstn_sizes, nth_error_mid by reflexivity. reflexivity.
      + assert (map size (a ++ e' :: z) = map size (edges n)) as Em by (rewrite En, !map_app; cbn [map]; now rewrite Sz).
        intros [|j' p'] i'; cbn [rank edges]; rewrite Em; [reflexivity|]. f_equal. rewrite En.
        destruct (Nat.lt_trichotomy j' (length a)) as [L | [L | L]].
        * now rewrite !nth_error_app1 by exact L.
        * rewrite !nth_error_mid by auto. apply Rk.
        * rewrite !nth_error_app2 by lia. destruct (j' - length a) eqn:Z; [lia|]. reflexivity.
  Qed.
  Lemma writes_where ws : forall (m : bmap) (outs : list (option (item K V))) pos, sound m ->
    (forall i x, nth_error outs i = Some (Some x) -> (exists k, place_of m (snd x) k) /\ nth_error pos i = Some (Some (where_ (bnode m) x))) ->
    (forall i, nth_error outs i = Some None \/ nth_error outs i = None -> forall p, nth_error pos i <> Some (Some p)) ->
    exists m', write_all (chosen outs ws) m = Some m' /\ sound m' /\ entries m' = writes_at pos ws (entries m).
  Proof.
    induction ws as [|[i f] ws IH]; intros m outs ps Hs Ho Hn; cbn [chosen writes_at].
    - exists m. auto.
    - destruct (nth_error outs i) as [[x|]|] eqn:Ex.
      + destruct (Ho i x Ex) as ((k & Pk) & Ep). rewrite Ep. cbn [write_all]. destruct (place_placed Pk) as (v & Pl).
        destruct (update_at_ok (write_val f) Hs Pl) as (m' & l & r & E & Hs' & _). rewrite E.
        pose proof E as E'. unfold update_at in E'. destruct (update_node (fst (snd x)) (snd (snd x)) (write_val f) (bnode m)) as [n'|] eqn:Eu; [|discriminate E'].
        injection E' as Em. destruct (@update_rank (fst (snd x)) (bheight m) (snd (snd x)) (write_val f) (bnode m) n') as ((l2 & y & r2 & I1 & I2 & I3) & Rk); [eapply kids_weaken; [|exact (proj2 (proj1 Hs))]; unfold any; auto|exact (proj2 Pk)|exact Eu|].
        destruct (IH m' outs ps Hs') as (m'' & E2 & Hs2 & Ee).
        * intros i' x' Ex'. destruct (Ho i' x' Ex') as ((k' & Pk') & Ep'). split.
          -- exists k'. destruct Pk' as (P1 & P2). rewrite <- Em. split; cbn [bnode bheight]; [|exact P2]. rewrite <- P1. exact (@update_node_keys _ _ _ _ _ _ _ Eu (snd x')).
          -- rewrite Ep'. unfold where_. rewrite <- Em. cbn [bnode]. now rewrite Rk.
        * exact Hn.
        * exists m''. split; [exact E2|]. split; [exact Hs2|]. rewrite Ee. f_equal. unfold entries. rewrite <- Em. cbn [bnode].
          unfold where_. rewrite <- I3, I1, I2. symmetry. apply write_at_app.
      + pose proof (Hn i (or_introl Ex)) as Hp. destruct (nth_error ps i) as [[p|]|]; [now destruct (Hp p)| |]; now apply IH.
      + pose proof (Hn i (or_intror Ex)) as Hp. destruct (nth_error ps i) as [[p|]|]; [now destruct (Hp p)| |]; now apply IH.
  Qed.
  Lemma writes_calls (m : bmap) outs ws : sound m -> Forall (points (bheight m) (bnode m)) (somes outs) ->
    exists m', write_all (chosen outs ws) m = Some m' /\ sound m' /\ entries m' = writes_at (map (option_map (where_ (bnode m))) outs) ws (entries m).
  Proof.
    intros Hs F. apply writes_where; [exact Hs| |].
    - intros i x Ex. split; [|now rewrite nth_error_map, Ex]. exists (fst (fst x)). rewrite Forall_forall in F. destruct (F x) as (P1 & P2).
      + clear - Ex. revert i Ex. induction outs as [|[y|] outs IH]; intros [|i] Ex; cbn in *; try discriminate; eauto. injection Ex as ->. now left.
      + split; [now rewrite P1|exact P2].
    - intros i [E | E] p; rewrite nth_error_map, E; discriminate.
  Qed.
End Rank.

Section Range.
  Variables (K V W : Type).
  Notation kv := (K * V)%type.
  Notation heap := (heap K V).
  Notation AM := (AM K V W).
  Notation ltree := (ltree K V).
  Notation lroot := (@lroot K V).
  Notation erase := (@erase K V).
  Notation bmap := (bmap K V).
  Notation src := (src K V).
  Implicit Types (hp : heap).

  Section Search.
    Variables (Q : Type) (qcmp : Q -> K -> asks W comparison) (qeq qgt : Q -> Q -> asks W bool) (view : bound_ Q -> asks W (bound_ Q)).
    Lemma calm_true A (q : asks W A) : calm True q.
    Proof. now intros w w' _. Qed.
    Lemma linear_p T hp (t : ltree) c h (q : K -> asks W comparison) : part_ok hp T [] -> T = lplug t c ->
      reads True (hx_search_linear q (NR h (lroot t))) hp (fun r => fst r <= length (lks t) /\ (snd r = true -> fst r < length (lks t))).
    Proof.
      intros ok E. unfold hx_search_linear. apply reads_bind. apply reads_lift. eapply part_keys; [exact ok|exact E|intros []|]. split; [reflexivity|].
      rewrite <- (map_length fst (lks t)). apply linear_h. intros k. apply calm_true.
    Qed.
    Lemma min_edge_h T hp (t : ltree) c h found lo : part_ok hp T [] -> T = lplug t c ->
      reads True (hx_min_edge qcmp view found lo (NR h (lroot t))) hp (fun r => fst r <= length (lks t)).
    Proof.
      intros ok E. unfold hx_min_edge. apply reads_bind. apply reads_ask; [apply calm_true|]. intros a. destruct found, a.
      - apply reads_lift. st part_keys; [exact ok|exact E|intros []|]. apply wp_ret. cbn. rewrite map_length. auto.
      - apply reads_ret. cbn. lia.
      - apply reads_ret. cbn. lia.
      - eapply reads_mono; [eapply linear_p; eauto|]. cbn. tauto.
      - apply reads_bind. eapply reads_mono; [eapply linear_p; eauto|]. intros [i b] [H1 H2]. cbn [fst snd] in *. apply reads_ret. cbn [fst]. destruct b; [specialize (H2 eq_refl)|]; lia.
      - apply reads_ret. cbn. lia.
    Qed.
    Lemma max_edge_h T hp (t : ltree) c h found hi : part_ok hp T [] -> T = lplug t c ->
      reads True (hx_max_edge qcmp view found hi (NR h (lroot t))) hp (fun r => fst r <= length (lks t)).
    Proof.
      intros ok E. unfold hx_max_edge. apply reads_bind. apply reads_ask; [apply calm_true|]. intros a. destruct found, a.
      - apply reads_ret. cbn. lia.
      - apply reads_lift. st part_keys; [exact ok|exact E|intros []|]. apply wp_ret. cbn. rewrite map_length. auto.
      - apply reads_lift. st part_keys; [exact ok|exact E|intros []|]. apply wp_ret. cbn. rewrite map_length. auto.
      - apply reads_bind. eapply reads_mono; [eapply linear_p; eauto|]. intros [i b] [H1 H2]. cbn [fst snd] in *. apply reads_ret. cbn [fst]. destruct b; [specialize (H2 eq_refl)|]; lia.
      - eapply reads_mono; [eapply linear_p; eauto|]. cbn. tauto.
      - apply reads_lift. st part_keys; [exact ok|exact E|intros []|]. apply wp_ret. cbn. rewrite map_length. auto.
    Qed.

    Definition ranged (s : src) (H : nat) (r : hrange) : Prop :=
      exists a b, at_edge s a (xfront r) /\ at_edge s b (xback r) /\ between H (tree_of s) (pos a) (pos b) (Range a b).
    Lemma leaf_of H (T t : ltree) c i : kids any H (erase T) -> T = lplug t c -> length c = H -> i <= length (lks t) ->
      leaf_edge H (erase T) (Handle (erase t) 0 (ectx c) i).
    Proof.
      intros Hk ET Eh Hi. pose proof (@plug_ok K V any anyR (ectx c) 0 (erase t)) as [_ P]. rewrite ectx_length in P. cbn [Nat.add] in P.
      rewrite ET, erase_plug, <- Eh in Hk. destruct (P (conj I Hk)) as (_ & P2 & P3).
      split; [|split; [reflexivity|]; cbn [hi hn]; now rewrite nlen_erase].
      apply hok_any. cbn [hn hh hc]. rewrite ectx_length, ET, erase_plug. auto.
    Qed.
    Lemma range_loop_h (T : ltree) hp H lo hi : part_ok hp T [] -> kids any H (erase T) -> forall h t1 c1 t2 c2 f1 f2 (dv : bool) fuel, T = lplug t1 c1 -> T = lplug t2 c2 -> h < fuel ->
      h + length c1 = H -> h + length c2 = H -> kids any h (erase t1) -> kids any h (erase t2) ->
      (if dv then length (cbefore (ectx c1)) + size (erase t1) < length (cbefore (ectx c2)) else t1 = t2 /\ c1 = c2) ->
      reads True (hx_range_loop qcmp view fuel lo hi (NR h (lroot t1)) (NR h (lroot t2)) f1 f2 dv) hp (ranged (Some T) H).
    Proof.
      intros ok Hk h. induction h as [|h IH]; intros t1 c1 t2 c2 f1 f2 dv fuel E1 E2 Hf L1 L2 K1 K2 D; (destruct fuel as [|fuel]; [lia|]);
        cbn [hx_range_loop rh]; apply reads_bind; (eapply reads_mono; [eapply min_edge_h; eauto|]); intros [i b1] Li; apply reads_bind;
        (eapply reads_mono; [eapply max_edge_h; eauto|]); intros [j b2] Lj; cbn [fst snd] in *;
        (destruct (negb dv && (j <? i)) eqn:Bad; [now apply reads_panic|]); apply reads_bind; apply reads_lift;
        (eapply part_edge; [exact ok|exact E1|intros []|exact Li|]); (split; [reflexivity|]); apply reads_bind; apply reads_lift;
        (eapply part_edge; [exact ok|exact E2|intros []|exact Lj|]); (split; [reflexivity|]).
      - apply reads_ret. cbn [Nat.add] in L1, L2. exists (Handle (erase t1) 0 (ectx c1) i), (Handle (erase t2) 0 (ectx c2) j).
        split; [exists t1, c1, 0, i; auto|]. split; [exists t2, c2, 0, j; auto|]. cbn [tree_of]. split; [exact (leaf_of Hk E1 L1 Li)|]. split; [exact (leaf_of Hk E2 L2 Lj)|].
        split; [reflexivity|]. split; [reflexivity|]. unfold pos. cbn [hc BTreeModel.hi]. destruct dv; cbn [negb andb] in Bad.
        + unfold size in D. rewrite (leaf_inorder K1), kvs_erase in D. lia.
        + destruct D as (-> & ->). apply Nat.ltb_ge in Bad. lia.
      - destruct (down_t K1 Li) as (t1' & g1 & Et1 & Hl1 & Hr1 & _ & _ & _ & Hk1 & Fo1 & _).
        destruct (down_t K2 Lj) as (t2' & g2 & Et2 & Hl2 & Hr2 & _ & _ & _ & Hk2 & Fo2 & _).
        apply reads_bind. apply reads_lift. rewrite <- Hr1. rewrite Et1 in E1. change (T = lplug t1' (g1 :: c1)) in E1.
        eapply part_down; [exact ok|exact E1|intros []|exact Hl1|]. split; [reflexivity|]. apply reads_bind. apply reads_lift. rewrite <- Hr2. rewrite Et2 in E2.
        change (T = lplug t2' (g2 :: c2)) in E2. eapply part_down; [exact ok|exact E2|intros []|exact Hl2|]. split; [reflexivity|].
        apply (IH t1' (g1 :: c1) t2' (g2 :: c2)); auto; try (cbn [length]; lia).
        assert (size (erase t1) = length (before (eframe g1)) + size (erase t1') + length (BTreeLemmas.after (eframe g1))) as Sz.
        { rewrite Et1, erase_fill. unfold size. rewrite inorder_fill by exact Fo1. rewrite !app_length. lia. }
        cbn [ectx map cbefore]. change (map (@eframe K V) c1) with (ectx c1). change (map (@eframe K V) c2) with (ectx c2). rewrite !app_length. destruct dv; cbn [orb].
        + lia.
        + destruct D as (D & ->). destruct (Nat.eqb_spec i j) as [Eij|Nij]; cbn [negb].
          * assert (length (lfa g1) = length (lfa g2)) as L by lia. clear Eij. rewrite D, Et2 in Et1. assert (eframe g1 = eframe g2 /\ erase t1' = erase t2') as (Q1 & Q2).
            { apply fill_same_idx; [|unfold fidx; cbn; rewrite !map_length; lia]. rewrite <- !erase_fill. now rewrite Et1. }
            injection Et1 as P1 P2 P3. assert (lfa g1 = lfa g2 /\ t1' = t2' /\ lfz g1 = lfz g2) as (P4 & P5 & P6).
            { clear - P3 L. revert P3. generalize (lfz g1) (lfz g2). revert L.
              generalize (lfa g1) (lfa g2). intros a b. revert b. induction a as [|x a IH]; intros [|y b] L z z' E; try discriminate L; cbn in E; injection E; intros; subst; auto.
              destruct (fun L => IH b L z z') as (-> & -> & ->); auto. }
            split; [exact P5|]. f_equal. destruct g1, g2; cbn in *; subst; reflexivity.
          * cbn [negb andb] in Bad. apply Nat.ltb_ge in Bad. rewrite <- Nat.add_assoc. apply Nat.add_lt_mono_l.
            unfold size. apply (@before_later K V (eframe g1) (eframe g2) (erase t1') (erase t2')); auto; [rewrite <- !erase_fill; now rewrite <- Et1, <- Et2, D|]. unfold fidx. cbn. rewrite !map_length. lia.
    Qed.
    Lemma range_h m2 (m1 : bmap) s hp lo hi : mrep m2 m1 s -> own hp (sres s) -> sound m1 ->
      reads True (hx_range qcmp qeq qgt view lo hi m2) hp (ranged s (bheight m1)).
    Proof.
      intros (EL & R) O Hs. unfold hx_range. apply reads_bind. eapply reads_mono with (P := fun _ => True).
      { unfold hx_bad. apply reads_bind. apply reads_ask; [apply calm_true|]. intros a. apply reads_bind. apply reads_ask; [apply calm_true|]. intros b.
        destruct a, b; try (apply reads_ask; [apply calm_true|auto]); try (apply reads_ret; exact I).
        apply reads_bind. apply reads_ask; [apply calm_true|]. intros [|]; [apply reads_ret; exact I|apply reads_ask; [apply calm_true|auto]]. }
      intros b _. destruct b; [now apply reads_panic|]. destruct s as [T|].
      - destruct R as (R1 & R2 & R3). rewrite R1. cbn [rh]. apply own_part1 in O. pose proof (sound_any Hs) as Hk. rewrite R3 in Hk.
        apply (@range_loop_h T hp (bheight m1) lo hi O Hk (bheight m1) T [] T []); auto. 
      - destruct R as (R1 & R2 & R3 & R4). rewrite R1, R4. cbn [rh hx_range_loop]. 
        apply reads_bind. eapply reads_mono with (P := fun r => fst r = 0).
        { unfold hx_min_edge. apply reads_bind. apply reads_ask; [apply calm_true|]. intros [q|q|]; unfold hx_search_linear.
          - apply reads_bind. apply reads_lift. cbn. split; [reflexivity|]. apply reads_ret. reflexivity.
          - apply reads_bind. apply reads_bind. apply reads_lift. cbn. split; [reflexivity|]. apply reads_ret. apply reads_ret. reflexivity.
          - apply reads_ret. reflexivity. }
        intros [i b1] Ei. apply reads_bind. eapply reads_mono with (P := fun r => fst r = 0).
        { unfold hx_max_edge. apply reads_bind. apply reads_ask; [apply calm_true|]. intros [q|q|]; unfold hx_search_linear.
          - apply reads_bind. apply reads_bind. apply reads_lift. cbn. split; [reflexivity|]. apply reads_ret. apply reads_ret. reflexivity.
          - apply reads_bind. apply reads_lift. cbn. split; [reflexivity|]. apply reads_ret. reflexivity.
          - apply reads_lift. cbn. auto. }
        intros [j b2] Ej. cbn [fst snd] in *. subst i j. cbn. apply reads_bind. apply reads_lift. cbn. split; [reflexivity|].
        apply reads_bind. apply reads_lift. cbn. split; [reflexivity|]. apply reads_ret. set (e := Handle (@empty_leaf K V) 0 [] 0).
        assert (leaf_edge 0 (@empty_leaf K V) e) as L by (split; [apply hok_any; cbn; auto 8|cbn; auto]).
        exists e, e. split; [split; reflexivity|]. split; [split; reflexivity|]. cbn [tree_of]. split; [exact L|]. split; [exact L|]. auto.
    Qed.
    (** a range and the calls on it *)
    Lemma range_calls_h m2 (m1 : bmap) s hp lo hi cs : mrep m2 m1 s -> own hp (sres s) -> sound m1 ->
      reads True (abind (hx_range qcmp qeq qgt view lo hi m2) (fun it => lift (hcalls (h_range_next (rh (mroot m2))) (h_range_next_back (rh (mroot m2))) cs it))) hp
        (fun a => exists outs x y z, Forall2 (orel (irel s)) outs (fst a) /\ entries m1 = x ++ y ++ z /\ map (option_map fst) outs = fst (dq_run cs y) /\
           positions cs (length x) (length y) = map (option_map (where_ (bnode m1))) outs /\ Forall (points (bheight m1) (bnode m1)) (somes outs)).
    Proof.
      intros R O Hs. apply reads_bind. eapply reads_mono; [exact (range_h lo hi R O Hs)|]. intros r (a & b & Aa & Ab & Bt). apply reads_lift.
      rewrite <- (tree_of_m R) in Bt. destruct (range_calls cs Bt) as (outs & r' & a' & b' & Ec & _ & Ed & Pt).
      pose proof (mrep_height R) as Hh. eapply wp_mono; [eapply (@hcalls_sim K V _ _ _ _ (fun i1 i2 hp' => rrep s (bheight m1) hp i1 i2 hp') (irel s)); [| | |exact Ec]|].
      - intros. eapply range_next_m; eauto.
      - intros. eapply range_next_back_m; eauto.
      - split; [reflexivity|]. split; [exists (pos a), (pos b); rewrite <- (tree_of_m R); exact Bt|]. cbn [rfront rback]. auto.
      - intros x hp' (F & -> & _). split; [reflexivity|]. pose proof (between_bound Bt) as Bb.
        exists outs, (firstn (pos a) (entries m1)), (seg (entries m1) (pos a) (pos b)), (skipn (pos b) (entries m1)). split; [exact F|]. split; [|split; [|split; [|exact Pt]]].
        + rewrite <- (firstn_skipn (pos a) (entries m1)) at 1. f_equal. unfold seg. rewrite <- (firstn_skipn (pos b - pos a) (skipn (pos a) (entries m1))) at 1. f_equal.
          rewrite skip_skip. f_equal. lia.
        + unfold entries. rewrite Ed. reflexivity.
        + unfold positions. unfold entries. rewrite firstn_length, seg_length by exact Bb. rewrite Nat.min_l by lia. exact (range_where Bt Ec).
    Qed.
  End Search.

  (** ** Comparison *)
  Section Cmp.
    Variables (sc : Prop) (eqb : kv -> kv -> asks W bool) (pcmp : kv -> kv -> asks W (option comparison)).
    Hypothesis Ce : forall x y, calm sc (eqb x y).
    Hypothesis Cp : forall x y, calm sc (pcmp x y).
    Definition iat (s : src) (m1 : bmap) hp (n : nat) (i2 : hiter) : Prop :=
      exists i1 a b, irep s (bheight m1) hp i1 i2 hp /\ iter_ok (bheight m1) (bnode m1) a b i1 /\ b - a = n.
    Lemma iat_next m2 (m1 : bmap) s hp n i2 : mrep m2 m1 s -> own hp (sres s) -> iat s m1 hp n i2 ->
      wp (h_iter_next (rh (mroot m2)) i2) hp (fun r hp' => hp' = hp /\
        match n with 0 => fst r = None | S n' => (exists x, fst r = Some x) /\ iat s m1 hp n' (snd r) end).
    Proof.
      intros R O (i1 & a & b & Ir & Ok & En). pose proof (iter_next_ok Ok) as N. destruct (Nat.eqb_spec a b) as [E|E].
      - destruct N as (i1' & N & Ok'). eapply wp_mono; [eapply iter_next_m; [exact O|exact (mrep_height R)|exact Ir|exact N]|].
        intros r hp' (Or & Ir'). split; [apply Ir'|]. destruct n; [|lia]. cbn in Or. destruct (fst r); [contradiction|reflexivity].
      - destruct N as (x & i1' & N & _ & _ & Ok'). pose proof (between_bound (proj1 Ok)) as Bb. eapply wp_mono; [eapply iter_next_m; [exact O|exact (mrep_height R)|exact Ir|exact N]|].
        intros r hp' (Or & Ir'). pose proof (proj1 Ir') as ->. split; [reflexivity|]. destruct n as [|n]; [lia|]. cbn in Or. destruct (fst r) as [y|]; [|contradiction].
        split; [eauto|]. exists i1', (S a), b. split; [exact Ir'|]. split; [exact Ok'|lia].
    Qed.
    Lemma iat_start m2 (m1 : bmap) s hp : mrep m2 m1 s -> own hp (sres s) -> sound m1 ->
      wp (h_iter m2) hp (fun r hp' => hp' = hp /\ iat s m1 hp (length (entries m1)) r).
    Proof.
      intros R O Hs. destruct (iter_m R O (sound_any Hs) (proj2 (proj2 Hs))) as (it & E & Wp). eapply wp_mono; [exact Wp|]. intros r hp' Ir. pose proof (proj1 Ir) as ->.
      split; [reflexivity|]. destruct (@map_iter_ok K V m1 (sound_any Hs) (proj2 (proj2 Hs))) as (it' & E' & Ok). rewrite E in E'. injection E' as <-.
      exists it, 0, (length (entries m1)). split; [exact Ir|]. split; [exact Ok|lia].
    Qed.
    Variables (ma2 mb2 : hmap) (ma mb : bmap) (sa sb : src) (hp : heap).
    Hypotheses (Ra : mrep ma2 ma sa) (Rb : mrep mb2 mb sb) (Oa : own hp (sres sa)) (Ob : own hp (sres sb)) (Ha : sound ma) (Hb : sound mb).
    Lemma zip_all_h fuel : forall na nb a2 b2, na < fuel -> iat sa ma hp na a2 -> iat sb mb hp nb b2 ->
      reads sc (hx_zip_all eqb (rh (mroot ma2)) (rh (mroot mb2)) fuel a2 b2) hp (fun _ => True).
    Proof using Ce Ra Rb Oa Ob.
      induction fuel as [|fuel IH]; intros na nb a2 b2 Hf Ia Ib; [lia|]. cbn [hx_zip_all]. apply reads_bind. apply reads_lift.
      eapply wp_mono; [exact (iat_next Ra Oa Ia)|]. intros r hp' (-> & Hr). split; [reflexivity|]. destruct na as [|na].
      - rewrite Hr. now apply reads_ret.
      - destruct Hr as ((x & ->) & Ia'). apply reads_bind. apply reads_lift. eapply wp_mono; [exact (iat_next Rb Ob Ib)|]. intros r' hp' (-> & Hr). split; [reflexivity|].
        destruct nb as [|nb].
        + rewrite Hr. now apply reads_ret.
        + destruct Hr as ((y & ->) & Ib'). apply reads_bind. apply reads_ask; [apply Ce|]. intros [|]; [|now apply reads_ret]. apply (IH na nb); auto. lia.
    Qed.
    Lemma eq_h : reads sc (hx_eq eqb ma2 mb2) hp (fun b => b = true -> length (entries ma) = length (entries mb)).
    Proof using Ce Ra Rb Oa Ob Ha Hb.
      unfold hx_eq. pose proof (proj1 Ra) as La. pose proof (proj1 Rb) as Lb. rewrite (proj2 (proj2 Ha)) in La. rewrite (proj2 (proj2 Hb)) in Lb. rewrite La, Lb.
      destruct (Nat.eqb_spec (length (entries ma)) (length (entries mb))) as [E|E]; [|now apply reads_ret].
      apply reads_bind. apply reads_lift. eapply wp_mono; [exact (iat_start Ra Oa Ha)|]. intros a hp' (-> & Ia). split; [reflexivity|].
      apply reads_bind. apply reads_lift. eapply wp_mono; [exact (iat_start Rb Ob Hb)|]. intros b hp' (-> & Ib). split; [reflexivity|].
      eapply reads_mono; [eapply zip_all_h; [|exact Ia|exact Ib]; lia|]. auto.
    Qed.
    Lemma iter_cmp_h fuel : forall na nb a2 b2, na < fuel -> iat sa ma hp na a2 -> iat sb mb hp nb b2 ->
      reads sc (hx_iter_cmp pcmp (rh (mroot ma2)) (rh (mroot mb2)) fuel a2 b2) hp (fun _ => True).
    Proof using Cp Ra Rb Oa Ob.
      induction fuel as [|fuel IH]; intros na nb a2 b2 Hf Ia Ib; [lia|]. cbn [hx_iter_cmp]. apply reads_bind. apply reads_lift.
      eapply wp_mono; [exact (iat_next Ra Oa Ia)|]. intros r hp' (-> & Hr). split; [reflexivity|]. destruct na as [|na].
      - rewrite Hr. apply reads_bind. apply reads_lift. eapply wp_mono; [exact (iat_next Rb Ob Ib)|]. intros r' hp' (-> & _). split; [reflexivity|]. now apply reads_ret.
      - destruct Hr as ((x & ->) & Ia'). apply reads_bind. apply reads_lift. eapply wp_mono; [exact (iat_next Rb Ob Ib)|]. intros r' hp' (-> & Hr). split; [reflexivity|].
        destruct nb as [|nb].
        + rewrite Hr. now apply reads_ret.
        + destruct Hr as ((y & ->) & Ib'). apply reads_bind. apply reads_ask; [apply Cp|]. intros [[| |]|]; try now apply reads_ret. apply (IH na nb); auto. lia.
    Qed.
    Lemma cmp_h : reads sc (hx_cmp pcmp ma2 mb2) hp (fun _ => True).
    Proof using Cp Ra Rb Oa Ob Ha Hb.
      unfold hx_cmp. pose proof (proj1 Ra) as La. rewrite (proj2 (proj2 Ha)) in La. rewrite La.
      apply reads_bind. apply reads_lift. eapply wp_mono; [exact (iat_start Ra Oa Ha)|]. intros a hp' (-> & Ia). split; [reflexivity|].
      apply reads_bind. apply reads_lift. eapply wp_mono; [exact (iat_start Rb Ob Hb)|]. intros b hp' (-> & Ib). split; [reflexivity|].
      eapply iter_cmp_h; [|exact Ia|exact Ib]; lia.
    Qed.
  End Cmp.
End Range.
