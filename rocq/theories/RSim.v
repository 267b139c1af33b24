(** * RSim: memory that is used again, against cells that are never used again:
    the relation, and the operations on cells. *)
From Verif Require Import Value Heap RSimSpec.
From Verif Require Slab RHeap HEval REval.
Open Scope N_scope.

(** ** The relation *)

(** [place]: where a cell of [Heap.v] is (or was) in memory; cells below [lim] have been
    made; [open]: the channel lists exist. *)
Record world := mkw { place : N -> N; lim : N; open : bool }.
Definition wle (W W' : world) : Prop :=
  lim W <= lim W' /\ (forall a, a < lim W -> place W' a = place W a) /\ (open W = true -> open W' = true).
Definition pt (W : world) (a b : N) : Prop := a < lim W /\ b = place W a.
Inductive brel (W : world) : content -> content -> Prop :=
| b_pair : forall x y x' y', pt W x x' -> pt W y y' -> brel W (KPair x y) (KPair x' y')
| b_leaf : forall b, (forall x y, b <> KPair x y) -> brel W b b.
Record crel (W : world) (c c' : cell) : Prop := mkcrel {
  c_refs : refs c' = refs c; c_tail : tail c' = tail c; c_weak : weak c' = weak c; c_body : brel W (body c) (body c') }.
Definition orel (W : world) (o o' : option N) : Prop :=
  match o, o' with Some a, Some b => pt W a b | None, None => True | _, _ => False end.
Record arel (W : world) (r r' : rest) : Prop := mkarel {
  a_binds : Forall2 (fun p q => fst q = fst p /\ pt W (snd p) (snd q)) (binds r) (binds r');
  a_ichan : open W = true -> pt W (ichan r) (ichan r');
  a_ochan : open W = true -> pt W (ochan r) (ochan r');
  a_opens : opens r' = opens r;
  a_outs : outs r' = outs r }.
Record mirrors (W : world) (h : heap) (r : R.heap) : Prop := mkmirrors {
  m_lim : lim W = nxt h;
  m_served : R.served r = nxt h;
  m_cells : forall a c, cells h a = Some c -> a < lim W /\ exists c', R.cells r (place W a) = Some c' /\ crel W c c';
  m_inj : forall a b, cells h a <> None -> cells h b <> None -> place W a = place W b -> a = b;
  m_nodup : NoDup (R.free r);
  m_free : forall b, In b (R.free r) -> R.cells r b = None;
  m_used : forall b, b < R.count (R.pages r) <-> In b (R.free r) \/ R.cells r b <> None;
  m_pages : exists k, R.pages r = 16 * 2 ^ k;
  m_small : R.pages r * Slab.PAGE_SIZE <= Slab.SLAB_SIZE;
  m_keys : forall a e, In (a, e) (caches (aux h)) -> a < lim W;
  m_cache : forall a, cells h a <> None ->
    orel W (HEval.assq (N.eqb a) (caches (aux h))) (HEval.assq (N.eqb (place W a)) (caches (R.aux r)));
  m_onto : strays (aux h) = 0%nat -> forall b, R.cells r b <> None -> exists a, cells h a <> None /\ place W a = b;
  m_aux : arel W (aux h) (R.aux r) }.
(** If the computation on cells returns, the one in memory returns a related result, or
    memory is exhausted.  If [strict], undefined behaviour and a budget used up are the
    same on both sides. *)
Definition exhausted {B} (o : R.hres B) : Prop := match o with R.Full r => full r | _ => False end.
Definition tracks_ (strict : bool) {A B} (Q : world -> A -> B -> Prop) (m : HM A) (m' : R.HM B) (W : world) : Prop :=
  forall W0 h r, wle W W0 -> mirrors W0 h r ->
  match m h with
  | Done a h' =>
      match m' r with
      | R.Done b r' => exists W', wle W0 W' /\ mirrors W' h' r' /\ Q W' a b
      | o => exhausted o
      end
  | Wild => strict = true -> m' r = R.Wild \/ exhausted (m' r)
  | Dry => strict = true -> m' r = R.Dry \/ exhausted (m' r)
  | _ => True
  end.
Definition same {A} (W : world) (a b : A) : Prop := a = b.
Definition two (W : world) (p q : N * N) : Prop := pt W (fst p) (fst q) /\ pt W (snd p) (snd q).

(** ** Order *)
Lemma wle_refl : forall W, wle W W.
Proof. intros W. split; [lia|]. auto. Qed.
Lemma wle_trans : forall A B C, wle A B -> wle B C -> wle A C.
Proof. intros A B C [L [E O]] [L' [E' O']]. split; [lia|]. split; auto. intros a H. rewrite E' by lia. auto. Qed.
Lemma pt_le : forall W W' a b, wle W W' -> pt W a b -> pt W' a b.
Proof. intros W W' a b [L [E _]] [H ->]. split; [lia|]. rewrite E; auto. Qed.
Lemma brel_le : forall W W' a b, wle W W' -> brel W a b -> brel W' a b.
Proof. intros W W' a b L [x y x' y' X Y|u U]; [apply b_pair; eapply pt_le; eauto|apply b_leaf; auto]. Qed.
Lemma crel_le : forall W W' a b, wle W W' -> crel W a b -> crel W' a b.
Proof. intros W W' a b L [X Y Z B]. split; auto. eapply brel_le; eauto. Qed.
Lemma orel_le : forall W W' a b, wle W W' -> orel W a b -> orel W' a b.
Proof. intros W W' [a|] [b|] L; cbn; auto. apply pt_le; auto. Qed.
Lemma open_le : forall W W', wle W W' -> open W = true -> open W' = true.
Proof. intros W W' [_ [_ O]]. auto. Qed.
Lemma arel_le : forall W W' a b, wle W W' -> open W' = open W -> arel W a b -> arel W' a b.
Proof.
  intros W W' a b L O [B I P X Y]. constructor; auto; try (intro H; rewrite O in H; eapply pt_le; eauto).
  induction B as [|p q l l' [E H] B IH]; constructor; auto. split; auto. eapply pt_le; eauto.
Qed.
Lemma two_le : forall W W' a b, wle W W' -> two W a b -> two W' a b.
Proof. intros W W' a b L [X Y]. split; eapply pt_le; eauto. Qed.

(** ** Composition *)
Section Strict.
Variable strict : bool.
Notation tracks := (tracks_ strict).
Lemma t_bind : forall A B C D (Q : world -> A -> B -> Prop) (S : world -> C -> D -> Prop) m m' k k' W,
  tracks Q m m' W -> (forall W' a b, wle W W' -> Q W' a b -> tracks S (k a) (k' b) W') ->
  tracks S (hbind_ m k) (R.hbind_ m' k') W.
Proof.
  intros A B C D Q S m m' k k' W T K W0 h r L M. specialize (T W0 h r L M). unfold hbind_, R.hbind_.
  destruct (m h) as [a h'| | | | |]; auto;
    try (intro ST; destruct (T ST) as [E|E]; [rewrite E; auto|right; destruct (m' r); try contradiction; exact E]).
  destruct (m' r) as [b r'| | | |r'|]; try contradiction.
  - destruct T as [W' [L' [M' H]]]. specialize (K W' a b (wle_trans _ _ _ L L') H W' h' r' (wle_refl _) M').
    destruct (k a h') as [c h2| | | | |]; auto. destruct (k' b r') as [d r2| | | |r2|]; auto.
    destruct K as [W2 [L2 [M2 H2]]]. exists W2. split; [eapply wle_trans; eauto|auto].
  - destruct (k a h'); auto; intros; right; auto.
Qed.
Lemma t_done : forall A B (Q : world -> A -> B -> Prop) a b W, (forall W', wle W W' -> Q W' a b) -> tracks Q (done a) (R.done b) W.
Proof. intros A B Q a b W H W0 h r L M. cbn. exists W0. split; [apply wle_refl|]. auto. Qed.
(** A step that is only on the side of the cells. *)
Lemma t_left : forall A C D (S : world -> C -> D -> Prop) (m : HM A) k m' W,
  (forall W0 h r, mirrors W0 h r -> match m h with Done a h' => mirrors W0 h' r | Wild | Dry => strict = false | _ => True end) ->
  (forall a, tracks S (k a) m' W) -> tracks S (hbind_ m k) m' W.
Proof.
  intros A C D S m k m' W P K W0 h r L M. specialize (P W0 h r M). unfold hbind_. destruct (m h) as [a h'| | | | |]; auto; try congruence.
  apply (K a W0 h' r L P).
Qed.
Lemma t_stop : forall A B (Q : world -> A -> B -> Prop) m m' W, (forall h, match m h with Done _ _ | Wild | Dry => False | _ => True end) -> tracks Q m m' W.
Proof. intros A B Q m m' W H W0 h r L M. specialize (H h). destruct (m h); auto; contradiction. Qed.
Lemma t_wild : forall A B (Q : world -> A -> B -> Prop) W, tracks Q wild R.wild W.
Proof. intros A B Q W W0 h r L M. cbn. auto. Qed.
Lemma t_dry : forall A B (Q : world -> A -> B -> Prop) W, tracks Q dry R.dry W.
Proof. intros A B Q W W0 h r L M. cbn. auto. Qed.

(** ** Cells *)
Lemma t_rd : forall W a b, pt W a b -> tracks crel (rd a) (R.rd b) W.
Proof.
  intros W a b P W0 h r L M. apply (pt_le _ _ _ _ L) in P. destruct P as [H ->].
  unfold rd, R.rd. destruct (cells h a) as [c|] eqn:E; auto. destruct (m_cells _ _ _ M _ _ E) as [_ [c' [E' C]]]. rewrite E'.
  exists W0. split; [apply wle_refl|]. auto.
Qed.
Lemma orel_in : forall W a b (P : N -> N -> Prop), orel W a b -> (forall x y, pt W x y -> P x y) ->
  match a, b with Some x, Some y => P x y | None, None => True | _, _ => False end.
Proof. intros W [a|] [b|] P; cbn; auto. Qed.
(** Storing related cells in related places. *)
Lemma mirrors_wr : forall W h r a c c0 c', mirrors W h r -> cells h a = Some c0 -> crel W c c' ->
  mirrors W (set_cell h a (Some c)) (R.set_cell r (place W a) (Some c')).
Proof.
  intros W h r a c c0 c' M E C. destruct (m_cells _ _ _ M _ _ E) as [LA [c1 [E1 _]]].
  assert (AL : forall b, cells (set_cell h a (Some c)) b <> None -> cells h b <> None).
  { intros b. cbn. destruct (N.eqb_spec b a) as [->|]; [congruence|auto]. }
  constructor; try apply M.
  - intros b d. cbn. destruct (N.eqb_spec b a) as [->|N0].
    + intros [= <-]. split; auto. exists c'. rewrite N.eqb_refl. auto.
    + intro Eb. destruct (m_cells _ _ _ M _ _ Eb) as [LB [d' [Ed D]]]. split; auto. exists d'.
      destruct (N.eqb_spec (place W b) (place W a)) as [X|]; auto. exfalso. apply N0. apply (m_inj _ _ _ M); congruence.
  - intros x y X Y. apply (m_inj _ _ _ M); auto.
  - cbn. intros b I. destruct (N.eqb_spec b (place W a)) as [->|]; [|apply M; auto]. apply (m_free _ _ _ M) in I. congruence.
  - cbn. intro b. rewrite (m_used _ _ _ M b). destruct (N.eqb_spec b (place W a)) as [->|]; [|tauto].
    split; intros _; right; congruence.
  - intros b X. apply AL in X. apply (m_cache _ _ _ M) in X. exact X.
  - cbn. intros Z b. destruct (N.eqb_spec b (place W a)) as [->|N0]; intro X.
    + exists a. rewrite N.eqb_refl. split; [discriminate|auto].
    + destruct (m_onto _ _ _ M Z b X) as [x [Y P]]. exists x. split; auto. destruct (N.eqb x a); [discriminate|auto].
Qed.
Lemma t_wr : forall W a b c c', pt W a b -> crel W c c' -> tracks same (wr a c) (R.wr b c') W.
Proof.
  intros W a b c c' P C W0 h r L M. apply (pt_le _ _ _ _ L) in P. apply (crel_le _ _ _ _ L) in C. destruct P as [H ->].
  unfold wr, R.wr. destruct (cells h a) as [c0|] eqn:E; auto.
  destruct (m_cells _ _ _ M _ _ E) as [_ [c1 [E1 _]]]. rewrite E1.
  exists W0. split; [apply wle_refl|]. split; [|reflexivity]. eapply mirrors_wr; eauto.
Qed.
Lemma t_release : forall W a b, pt W a b -> tracks same (release a) (R.release b) W.
Proof.
  intros W a b P W0 h r L M. apply (pt_le _ _ _ _ L) in P. destruct P as [H ->].
  unfold release, R.release. destruct (cells h a) as [c0|] eqn:E; auto.
  destruct (m_cells _ _ _ M _ _ E) as [_ [c1 [E1 _]]]. rewrite E1.
  exists W0. split; [apply wle_refl|]. split; [|reflexivity].
  assert (AL : forall b, cells (set_cell h a None) b <> None -> b <> a /\ cells h b <> None).
  { intros b. cbn. destruct (N.eqb_spec b a) as [->|]; [congruence|auto]. }
  constructor; try apply M.
  - intros b d. cbn. destruct (N.eqb_spec b a) as [->|N0]; [discriminate|].
    intro Eb. destruct (m_cells _ _ _ M _ _ Eb) as [LB [d' [Ed D]]]. split; auto. exists d'.
    destruct (N.eqb_spec (place W0 b) (place W0 a)) as [X|]; auto. exfalso. apply N0. apply (m_inj _ _ _ M); congruence.
  - intros x y X Y. apply AL in X, Y. apply (m_inj _ _ _ M); tauto.
  - cbn. constructor; [|apply M]. intro I. apply (m_free _ _ _ M) in I. congruence.
  - cbn. intros b [<-|I]; [rewrite N.eqb_refl; auto|]. destruct (N.eqb_spec b (place W0 a)); auto. apply M; auto.
  - cbn. intro b. rewrite (m_used _ _ _ M b). destruct (N.eqb_spec b (place W0 a)) as [->|N0]; [|intuition congruence].
    split; intros _; [left; auto|right; congruence].
  - intros b X. apply AL in X. apply (m_cache _ _ _ M). tauto.
  - cbn. intros Z b. destruct (N.eqb_spec b (place W0 a)) as [->|N0]; intro X; [congruence|].
    destruct (m_onto _ _ _ M Z b X) as [x [Y P]]. exists x. split; auto. destruct (N.eqb_spec x a); [congruence|auto].
Qed.

(** ** Making cells *)
Lemma assq_filter : forall (a b : N) (l : list (N * N)), a <> b ->
  HEval.assq (N.eqb a) (filter (fun q => negb (N.eqb b (fst q))) l) = HEval.assq (N.eqb a) l.
Proof.
  intros a b l N0. induction l as [|[k v] l IH]; [reflexivity|]. cbn [filter fst HEval.assq].
  destruct (N.eqb_spec b k) as [->|]; cbn [negb HEval.assq]; rewrite IH; auto.
  destruct (N.eqb_spec a k); congruence.
Qed.
Lemma assq_gone : forall (b : N) (l : list (N * N)), HEval.assq (N.eqb b) (filter (fun q => negb (N.eqb b (fst q))) l) = None.
Proof.
  intros b l. induction l as [|[k v] l IH]; [reflexivity|]. cbn [filter fst].
  destruct (N.eqb_spec b k) as [->|]; cbn [negb HEval.assq]; auto. destruct (N.eqb_spec b k); congruence.
Qed.
Lemma assq_out : forall (b : N) (l : list (N * N)), (forall k e, In (k, e) l -> k <> b) -> HEval.assq (N.eqb b) l = None.
Proof.
  intros b l. induction l as [|[k v] l IH]; intro H; [reflexivity|]. cbn [HEval.assq].
  destruct (N.eqb_spec b k) as [->|]; [exfalso; eapply H; [left; reflexivity|auto]|]. apply IH. intros; eapply H; right; eauto.
Qed.
Definition moved (W : world) (b : N) : world := mkw (fun x => if N.eqb x (lim W) then b else place W x) (N.succ (lim W)) (open W).
Lemma moved_le : forall W b, wle W (moved W b).
Proof. intros W b. split; [cbn; lia|]. split; auto. intros a H. cbn. destruct (N.eqb_spec a (lim W)); [lia|auto]. Qed.
Lemma take_ok : forall W h r b b' a l p, mirrors W h r -> brel W b b' -> NoDup (a :: l) ->
  (forall x, In x (a :: l) -> R.cells r x = None) -> (forall x, x < R.count p <-> In x (a :: l) \/ R.cells r x <> None) ->
  (exists k, p = 16 * 2 ^ k) -> p * Slab.PAGE_SIZE <= Slab.SLAB_SIZE ->
  exists r', R.take b' a l p r = R.Done a r' /\
    mirrors (moved W a) (mkheap (fun x => if N.eqb x (nxt h) then Some (mkcell 1 false false b) else cells h x) (N.succ (nxt h)) (aux h)) r'.
Proof.
  intros W h r b b' a l p M B ND FR US PG SM. eexists. split; [reflexivity|].
  pose proof (moved_le W a) as L. assert (FA : R.cells r a = None) by (apply FR; left; auto).
  assert (OLD : forall x, cells h x <> None -> x <> nxt h /\ place (moved W a) x = place W x /\ place W x <> a).
  { intros x X. destruct (cells h x) as [c|] eqn:E; [|congruence]. destruct (m_cells _ _ _ M _ _ E) as [LX [c' [E' _]]].
    pose proof (m_lim _ _ _ M). split; [lia|]. split; [|congruence]. cbn. destruct (N.eqb_spec x (lim W)); [lia|auto]. }
  assert (LN : lim W = nxt h) by apply M.
  assert (NEW : place (moved W a) (nxt h) = a) by (cbn; rewrite LN, N.eqb_refl; auto).
  constructor; cbn [cells nxt aux R.cells R.served R.free R.pages R.aux].
  - cbn. lia.
  - rewrite (m_served _ _ _ M). auto.
  - intros x c. destruct (N.eqb_spec x (nxt h)) as [->|N0].
    + intros [= <-]. split; [cbn; lia|]. exists (mkcell 1 false false b'). rewrite NEW, N.eqb_refl. split; auto.
      constructor; auto. eapply brel_le; eauto.
    + intro E. destruct (m_cells _ _ _ M _ _ E) as [LX [c' [E' C]]]. destruct (OLD x) as [_ [P1 P2]]; [congruence|].
      split; [cbn; lia|]. exists c'. rewrite P1. destruct (N.eqb_spec (place W x) a); [congruence|]. split; auto. eapply crel_le; eauto.
  - intros x y X Y P. destruct (N.eqb_spec x (nxt h)) as [->|N0]; destruct (N.eqb_spec y (nxt h)) as [->|N1]; auto.
    + destruct (OLD y Y) as [_ [P1 P2]]. congruence.
    + destruct (OLD x X) as [_ [P1 P2]]. congruence.
    + destruct (OLD x X) as [_ [P1 _]]. destruct (OLD y Y) as [_ [P2 _]]. apply (m_inj _ _ _ M); congruence.
  - inversion ND; auto.
  - intros x I. inversion ND as [|? ? N1 _]; subst. destruct (N.eqb_spec x a) as [->|]; [contradiction|]. apply FR. right. auto.
  - intro x. rewrite US. cbn [In]. destruct (N.eqb_spec x a) as [->|]; [|intuition congruence].
    split; intros _; [right; discriminate|auto].
  - exact PG.
  - exact SM.
  - intros x e I. apply (m_keys _ _ _ M) in I. cbn. lia.
  - cbn [caches]. intros x. destruct (N.eqb_spec x (nxt h)) as [E|N0]; intro X; [subst x|].
    + rewrite NEW, assq_gone, assq_out; [exact I|]. intros k e I. apply (m_keys _ _ _ M) in I. lia.
    + destruct (OLD x X) as [_ [P1 P2]]. rewrite P1, assq_filter by auto. eapply orel_le; [exact L|]. apply (m_cache _ _ _ M); auto.
  - intros Z x. destruct (N.eqb_spec x a) as [->|N0]; intro X.
    + exists (nxt h). rewrite N.eqb_refl. split; [discriminate|auto].
    + destruct (m_onto _ _ _ M Z x X) as [y [Y P]]. destruct (OLD y Y) as [N1 [P1 _]]. exists y.
      destruct (N.eqb_spec y (nxt h)); [contradiction|]. split; auto. congruence.
  - assert (A : arel (moved W a) (aux h) (R.aux r)) by (eapply arel_le; [exact L|reflexivity|apply M]).
    destruct A as [A1 A2 A3 A4 A5]. constructor; auto.
Qed.
Lemma range_in : forall k lo x, In x (R.range lo k) <-> lo <= x < lo + N.of_nat k.
Proof.
  induction k as [|k IH]; intros lo x; cbn [R.range In]; [lia|]. rewrite IH. lia.
Qed.
Lemma range_nodup : forall k lo, NoDup (R.range lo k).
Proof. induction k as [|k IH]; intro lo; cbn [R.range]; constructor; auto. rewrite range_in. lia. Qed.
Lemma count_is : forall p, R.count p = 128 * p.
Proof.
  intro p. unfold R.count, Slab.cell_count, Slab.PAGE_SIZE, Slab.ATOM_SIZE.
  replace (p * 4096) with (128 * p * 32) by lia. apply N.div_mul. discriminate.
Qed.
Lemma t_alloc : forall W b b', brel W b b' -> tracks pt (alloc b) (R.alloc b') W.
Proof.
  intros W b b' B W0 h r L M. apply (brel_le _ _ _ _ L) in B. unfold alloc. unfold R.alloc.
  assert (G : forall a, pt (moved W0 a) (nxt h) a).
  { intro a. split; cbn; rewrite (m_lim _ _ _ M); [lia|rewrite N.eqb_refl; auto]. }
  destruct (R.free r) as [|a l] eqn:F; cbv beta iota zeta.
  - destruct (m_pages _ _ _ M) as [k K].
    destruct (N.ltb_spec Slab.SLAB_SIZE (2 * R.pages r * Slab.PAGE_SIZE)) as [X|X].
    + intros x H.
      assert (C : x < R.count (R.pages r)).
      { rewrite count_is. unfold Slab.SLAB_SIZE, Slab.PAGE_SIZE, Slab.ATOM_SIZE in *.
        change (64 * 1024 * 1024 / 32) with 2097152 in H.
        assert (10 <= k); [|assert (2 ^ 10 <= 2 ^ k) by (apply N.pow_le_mono_r; lia); change (2 ^ 10) with 1024 in *; lia].
        destruct (N.lt_ge_cases k 10) as [Z|Z]; auto. exfalso.
        assert (2 ^ k <= 2 ^ 9) by (apply N.pow_le_mono_r; lia). change (2 ^ 9) with 512 in *. lia. }
      apply (m_used _ _ _ M) in C. rewrite F in C. destruct C as [[]|C]; auto.
    + rewrite !count_is. assert (PP : 0 < R.pages r) by (rewrite K; assert (0 < 2 ^ k) by (apply N.neq_0_lt_0, N.pow_nonzero; discriminate); lia).
      replace (128 * (2 * R.pages r) - 128 * R.pages r) with (128 * R.pages r) by lia.
      remember (N.to_nat (128 * R.pages r)) as n eqn:En. destruct n as [|n]; [lia|].
      assert (RG : forall x, In x (R.range (128 * R.pages r) (S n)) <-> 128 * R.pages r <= x < 128 * (2 * R.pages r)) by (intro x; rewrite range_in; lia).
      cbn [R.range] in RG |- *.
      destruct (take_ok W0 h r b b' (128 * R.pages r) (R.range (N.succ (128 * R.pages r)) n) (2 * R.pages r) M B) as [r' [E M']].
      * exact (range_nodup (S n) (128 * R.pages r)).
      * intros x I. apply RG in I. destruct (R.cells r x) eqn:E; auto. assert (x < R.count (R.pages r)) by (apply M; right; congruence). rewrite count_is in *. lia.
      * intro x. rewrite count_is, RG. pose proof (m_used _ _ _ M x) as U. rewrite F, count_is in U.
        destruct (N.lt_ge_cases x (128 * R.pages r)) as [Z|Z]; [|split; [lia|]].
        -- split; [intros _; right; apply U in Z; destruct Z as [[]|Z]; auto|lia].
        -- intros [Y|Y]; [lia|]. assert (x < 128 * R.pages r) by (apply U; auto). lia.
      * exists (N.succ k). rewrite N.pow_succ_r', K. lia.
      * exact X.
      * rewrite E. exists (moved W0 (128 * R.pages r)). split; [apply moved_le|]. split; [exact M'|apply G].
  - destruct (take_ok W0 h r b b' a l (R.pages r) M B) as [r' [E M']]; try rewrite <- F; try apply M.
    rewrite E. exists (moved W0 a). split; [apply moved_le|]. split; [exact M'|apply G].
Qed.
End Strict.
