(** * HeapProofs: dropping references. *)
From Coq Require Import FinFun.
From Verif Require Import Value Heap HeapSpec.
Open Scope nat_scope.

(** ** Counting *)

Lemma cnt_app : forall a l r, cnt a (l ++ r) = cnt a l + cnt a r.
Proof. induction l as [|x l IH]; intro r; cbn; auto. rewrite IH. lia. Qed.
Lemma cnt_in : forall a l, In a l <-> 0 < cnt a l.
Proof.
  induction l as [|x l IH]; cbn; [split; [tauto|lia]|].
  unfold is. destruct (N.eqb_spec x a) as [E|E]; split; intro H; try lia; auto.
  - destruct H as [H|H]; [congruence|apply IH in H; lia].
  - right. apply IH. lia.
Qed.
Lemma is_same : forall a, is a a = 1.
Proof. intro a. unfold is. rewrite N.eqb_refl. auto. Qed.
Lemma is_other : forall a b, a <> b -> is a b = 0.
Proof. intros a b H. unfold is. apply N.eqb_neq in H. rewrite H. auto. Qed.

(** ** Edges under updates; cells of the list [Z] hold nothing *)

Definition fieldsZ (Z : list N) (h : heap) (a : N) : list N :=
  if existsb (N.eqb a) Z then [] else fields_at h a.
Definition edgesZ (Z : list N) (h : heap) : list N := flat_map (fieldsZ Z h) (addresses h).

Lemma edgesZ_nil : forall h, edgesZ [] h = edges h.
Proof. intro h. reflexivity. Qed.

Lemma addresses_in : forall h a, In a (addresses h) <-> (a < nxt h)%N.
Proof.
  intros h a. unfold addresses. rewrite in_map_iff. split.
  - intros [n [E I]]. apply in_seq in I. lia.
  - intro L. exists (N.to_nat a). split; [lia|]. apply in_seq. lia.
Qed.
Lemma addresses_nodup : forall h, NoDup (addresses h).
Proof.
  intro h. unfold addresses. apply FinFun.Injective_map_NoDup; [intros x y E; lia|apply seq_NoDup].
Qed.

Lemma flat_cnt_out : forall (f g : N -> list N) b l a,
  ~ In a l -> (forall x, x <> a -> f x = g x) ->
  cnt b (flat_map f l) = cnt b (flat_map g l).
Proof.
  intros f g b l a N H. induction l as [|x l IH]; cbn; auto.
  rewrite !cnt_app, H, IH; auto; cbn in N; intuition.
Qed.
Lemma flat_cnt : forall (f g : N -> list N) b l a,
  NoDup l -> In a l -> (forall x, x <> a -> f x = g x) ->
  cnt b (flat_map f l) + cnt b (g a) = cnt b (flat_map g l) + cnt b (f a).
Proof.
  intros f g b l a D. induction D as [|x l N D IH]; intros I H; cbn in *; [tauto|].
  rewrite !cnt_app. destruct (N.eq_dec x a) as [E|E].
  - subst x. rewrite (flat_cnt_out f g b l a); auto. lia.
  - rewrite (H x E). assert (In a l) as I' by (destruct I; congruence).
    specialize (IH I' H). lia.
Qed.

(** One cell changes. *)
Lemma edgesZ_upd : forall Z Z' h h' a b,
  addresses h' = addresses h -> (a < nxt h)%N ->
  (forall x, x <> a -> fieldsZ Z' h' x = fieldsZ Z h x) ->
  cnt b (edgesZ Z' h') + cnt b (fieldsZ Z h a) = cnt b (edgesZ Z h) + cnt b (fieldsZ Z' h' a).
Proof.
  intros Z Z' h h' a b A L H. unfold edgesZ. rewrite A. apply flat_cnt; auto.
  - apply addresses_nodup.
  - apply addresses_in; auto.
Qed.

Lemma existsb_in : forall a l, existsb (N.eqb a) l = true <-> In a l.
Proof.
  intros a l. rewrite existsb_exists. split.
  - intros [x [I E]]. apply N.eqb_eq in E. subst; auto.
  - intro I. exists a. rewrite N.eqb_refl. auto.
Qed.
Lemma fieldsZ_in : forall Z h a, In a Z -> fieldsZ Z h a = [].
Proof. intros Z h a I. unfold fieldsZ. apply existsb_in in I. rewrite I. auto. Qed.
Lemma fieldsZ_out : forall Z h a, ~ In a Z -> fieldsZ Z h a = fields_at h a.
Proof.
  intros Z h a I. unfold fieldsZ. destruct (existsb (N.eqb a) Z) eqn:E; auto.
  apply existsb_in in E. tauto.
Qed.
Lemma fieldsZ_same : forall Z h h' a, cells h' a = cells h a -> fieldsZ Z h' a = fieldsZ Z h a.
Proof. intros Z h h' a E. unfold fieldsZ, fields_at. rewrite E. auto. Qed.
Lemma edgesZ_in : forall Z h a b, ~ In a Z -> (a < nxt h)%N -> In b (fields_at h a) -> In b (edgesZ Z h).
Proof.
  intros Z h a b N L I. unfold edgesZ. apply in_flat_map. exists a. split; [apply addresses_in; auto|].
  rewrite fieldsZ_out; auto.
Qed.

(** ** The invariant inside [drop]: the cells of [Z] are being deallocated, their
    count is zero and what they held belongs to the running code. *)
Record inv (Z : list N) (h : heap) (R : list N) : Prop := mkinv {
  i_bounded : forall a, alive h a -> (a < nxt h)%N;
  i_counted : forall a c, cells h a = Some c -> refs c = cnt a (edgesZ Z h) + cnt a R /\ (refs c = 0 <-> In a Z);
  i_present : forall a, 0 < cnt a (edgesZ Z h) + cnt a R \/ In a Z -> alive h a
}.

Lemma correct_inv : forall h R, correct h R <-> inv [] h R.
Proof.
  intros h R. split; intro C.
  - constructor.
    + apply (bounded _ _ C).
    + intros a c E. destruct (counted _ _ C a c E) as [H P]. rewrite edgesZ_nil. split; auto.
      split; intro; [lia|contradiction].
    + intros a [H|[]]. apply (present _ _ C). rewrite edgesZ_nil in H. auto.
  - constructor.
    + apply (i_bounded _ _ _ C).
    + intros a c E. destruct (i_counted _ _ _ C a c E) as [H P]. rewrite edgesZ_nil in H. split; auto.
      destruct (refs c); [exfalso; apply (proj1 P); auto|lia].
    + intros a H. apply (i_present _ _ _ C). rewrite edgesZ_nil. auto.
Qed.

Lemma inv_perm : forall Z h R R', inv Z h R -> (forall a, cnt a R = cnt a R') -> inv Z h R'.
Proof.
  intros Z h R R' C P. destruct C as [B C Q]. constructor; auto.
  - intros a c E. rewrite <- P. auto.
  - intros a H. rewrite <- P in H. auto.
Qed.
Lemma correct_perm : forall h R R', correct h R -> (forall a, cnt a R = cnt a R') -> correct h R'.
Proof. intros h R R' C P. apply correct_inv. apply correct_inv in C. eapply inv_perm; eauto. Qed.

(** What [drop] leaves: only cells disappear, what is stored does not change. *)
Definition shrinks (h h' : heap) : Prop :=
  nxt h' = nxt h /\ aux h' = aux h /\
  forall a c', cells h' a = Some c' -> exists c, cells h a = Some c /\ stored c' = stored c.
Lemma shrinks_refl : forall h, shrinks h h.
Proof. intro h. split; auto. split; eauto. Qed.
Lemma shrinks_trans : forall h1 h2 h3, shrinks h1 h2 -> shrinks h2 h3 -> shrinks h1 h3.
Proof.
  intros h1 h2 h3 [A1 [B1 C1]] [A2 [B2 C2]]. split; [congruence|]. split; [congruence|].
  intros a c E. destruct (C2 _ _ E) as [c2 [E2 S2]]. destruct (C1 _ _ E2) as [c1 [E1 S1]].
  exists c1. split; congruence.
Qed.

Lemma set_same : forall h a c, cells (set_cell h a c) a = c.
Proof. intros. cbn. rewrite N.eqb_refl. auto. Qed.
Lemma set_other : forall h a c b, b <> a -> cells (set_cell h a c) b = cells h b.
Proof. intros h a c b H. cbn. apply N.eqb_neq in H. rewrite H. auto. Qed.

(** Cells that can still be released. *)
Definition loose (Z : list N) (h : heap) (a : N) : bool :=
  match cells h a with Some _ => negb (existsb (N.eqb a) Z) | None => false end.
Definition room (Z : list N) (h : heap) : nat := length (filter (loose Z h) (addresses h)).

Lemma filter_le : forall {A} (f g : A -> bool) l, (forall x, f x = true -> g x = true) ->
  length (filter f l) <= length (filter g l).
Proof.
  intros A f g l H. induction l as [|x l IH]; cbn; auto.
  destruct (f x) eqn:F; [rewrite (H x F); cbn; lia|]. destruct (g x); cbn; lia.
Qed.
Lemma filter_lt : forall {A} (f g : A -> bool) l a, (forall x, f x = true -> g x = true) ->
  In a l -> f a = false -> g a = true -> length (filter f l) < length (filter g l).
Proof.
  intros A f g l a H. induction l as [|x l IH]; cbn; [tauto|]. intros I Fa Ga.
  pose proof (filter_le f g l H) as L. destruct I as [I|I].
  - subst x. rewrite Fa, Ga. cbn. lia.
  - specialize (IH I Fa Ga). destruct (f x) eqn:F; [rewrite (H x F); cbn; lia|]. destruct (g x); cbn; lia.
Qed.
Lemma room_shrinks : forall Z h h', shrinks h h' -> room Z h' <= room Z h.
Proof.
  intros Z h h' [A [_ S]]. unfold room, addresses. rewrite A. apply filter_le. intros x H.
  unfold loose in *. destruct (cells h' x) as [c|] eqn:E; [|discriminate].
  destruct (S _ _ E) as [c0 [E0 _]]. rewrite E0. auto.
Qed.
Lemma room_bound : forall Z h, room Z h <= N.to_nat (nxt h).
Proof.
  intros Z h. unfold room. pose proof (filter_le (loose Z h) (fun _ => true) (addresses h) (fun _ _ => eq_refl)) as H.
  assert (T : forall l : list N, filter (fun _ => true) l = l) by (induction l; cbn; congruence).
  rewrite T in H. unfold addresses in H at 2. rewrite map_length, seq_length in H. lia.
Qed.

(** The count of a cell goes down. *)
Lemma inv_down : forall Z h a c r R,
  inv Z h (a :: R) -> cells h a = Some c -> refs c = S (S r) ->
  inv Z (set_cell h a (Some (with_refs c (S r)))) R.
Proof.
  intros Z h a c r R C E F. pose proof (i_bounded _ _ _ C) as B.
  assert (EE : forall b, cnt b (edgesZ Z (set_cell h a (Some (with_refs c (S r))))) = cnt b (edgesZ Z h)).
  { intro b. unfold edgesZ. f_equal. apply flat_map_ext. intro x.
    destruct (N.eq_dec x a) as [X|X]; [|apply fieldsZ_same, set_other; auto].
    subst x. unfold fieldsZ, fields_at. rewrite set_same, E. reflexivity. }
  constructor.
  - intros b H. apply B. intro N0. apply H. destruct (N.eq_dec b a) as [X|X]; [subst; congruence|].
    rewrite set_other; auto.
  - intros b cb Eb. rewrite EE. destruct (N.eq_dec b a) as [X|X].
    + subst b. rewrite set_same in Eb. injection Eb as <-. cbn.
      destruct (i_counted _ _ _ C a c E) as [H1 H2]. cbn in H1. rewrite is_same in H1.
      split; [lia|]. rewrite <- H2. split; intro; lia.
    + rewrite set_other in Eb; auto. destruct (i_counted _ _ _ C b cb Eb) as [H1 H2]. cbn in H1.
      rewrite is_other in H1; auto.
  - intros b H. unfold alive. destruct (N.eq_dec b a) as [X|X].
    + subst b. rewrite set_same. discriminate.
    + rewrite set_other; auto. apply (i_present _ _ _ C b). destruct H as [H|H]; auto. left.
      rewrite EE in H. cbn. rewrite is_other; auto.
Qed.

(** The last reference goes: the cell starts to be deallocated. *)
Lemma inv_zero : forall Z h a c R,
  inv Z h (a :: R) -> cells h a = Some c -> refs c = 1 ->
  inv (a :: Z) (set_cell h a (Some (with_refs c 0))) (fields c ++ R).
Proof.
  intros Z h a c R C E F. pose proof (i_bounded _ _ _ C) as B.
  assert (L : (a < nxt h)%N) by (apply B; unfold alive; congruence).
  assert (NZ : ~ In a Z). { destruct (i_counted _ _ _ C a c E) as [_ H]. rewrite <- H. lia. }
  assert (EE : forall b, cnt b (edgesZ (a :: Z) (set_cell h a (Some (with_refs c 0)))) + cnt b (fields c) = cnt b (edgesZ Z h)).
  { intro b. pose proof (edgesZ_upd Z (a :: Z) h (set_cell h a (Some (with_refs c 0))) a b) as U.
    rewrite (fieldsZ_in (a :: Z)) in U by (cbn; auto). rewrite (fieldsZ_out Z) in U; auto.
    unfold fields_at in U at 1. rewrite E in U. cbn [cnt] in U. rewrite Nat.add_0_r in U. apply U; auto.
    intros x Hx. unfold fieldsZ. cbn [existsb]. apply N.eqb_neq in Hx. rewrite Hx. cbn [orb].
    apply N.eqb_neq in Hx. unfold fields_at. rewrite set_other; auto. }
  constructor.
  - intros b H. apply B. intro N0. apply H. destruct (N.eq_dec b a) as [X|X]; [subst; congruence|].
    rewrite set_other; auto.
  - intros b cb Eb. rewrite cnt_app. specialize (EE b). destruct (N.eq_dec b a) as [X|X].
    + subst b. rewrite set_same in Eb. injection Eb as <-. cbn [refs with_refs].
      destruct (i_counted _ _ _ C a c E) as [H1 H2]. cbn in H1. rewrite is_same in H1.
      split; [lia|]. split; cbn; auto.
    + rewrite set_other in Eb; auto. destruct (i_counted _ _ _ C b cb Eb) as [H1 H2]. cbn in H1.
      rewrite is_other in H1; auto. split; [lia|]. rewrite H2. cbn. intuition congruence.
  - intros b H. unfold alive. destruct (N.eq_dec b a) as [X|X].
    + subst b. rewrite set_same. discriminate.
    + rewrite set_other; auto. apply (i_present _ _ _ C b). specialize (EE b). rewrite cnt_app in H.
      cbn. rewrite is_other; auto. destruct H as [H|H]; [left; lia|cbn in H; destruct H; [congruence|auto]].
Qed.

(** The cell is given back. *)
Lemma inv_release : forall Z h a R,
  inv (a :: Z) h R -> ~ In a Z -> inv Z (set_cell h a None) R.
Proof.
  intros Z h a R C NZ. pose proof (i_bounded _ _ _ C) as B.
  assert (A : alive h a) by (apply (i_present _ _ _ C); cbn; auto).
  unfold alive in A. destruct (cells h a) as [c|] eqn:E; [|congruence].
  assert (L : (a < nxt h)%N) by (apply B; unfold alive; congruence).
  assert (EE : forall b, cnt b (edgesZ Z (set_cell h a None)) = cnt b (edgesZ (a :: Z) h)).
  { intro b. pose proof (edgesZ_upd (a :: Z) Z h (set_cell h a None) a b) as U.
    rewrite (fieldsZ_in (a :: Z)) in U by (cbn; auto). rewrite (fieldsZ_out Z) in U; auto.
    unfold fields_at in U at 1. rewrite set_same in U. cbn [cnt] in U. rewrite !Nat.add_0_r in U. apply U; auto.
    intros x Hx. unfold fieldsZ. cbn [existsb]. apply N.eqb_neq in Hx. rewrite Hx. cbn [orb].
    apply N.eqb_neq in Hx. unfold fields_at. rewrite set_other; auto. }
  destruct (i_counted _ _ _ C a c E) as [H1 H2].
  assert (Z0 : cnt a (edgesZ (a :: Z) h) + cnt a R = 0). { assert (refs c = 0) by (apply H2; cbn; auto). lia. }
  constructor.
  - intros b H. apply B. intro N0. apply H. destruct (N.eq_dec b a) as [X|X]; [subst; congruence|].
    rewrite set_other; auto.
  - intros b cb Eb. rewrite EE. destruct (N.eq_dec b a) as [X|X]; [subst; rewrite set_same in Eb; discriminate|].
    rewrite set_other in Eb; auto. destruct (i_counted _ _ _ C b cb Eb) as [H3 H4]. split; auto.
    rewrite H4. cbn. intuition congruence.
  - intros b H. rewrite EE in H. unfold alive. destruct (N.eq_dec b a) as [X|X].
    + subst b. exfalso. destruct H; [lia|tauto].
    + rewrite set_other; auto. apply (i_present _ _ _ C b). cbn. tauto.
Qed.

(** ** Dropping *)

(** The spec of [drop] with enough budget. *)
Lemma drop_spec : forall n Z h a R,
  inv Z h (a :: R) -> room Z h < n ->
  exists h', drop n a h = Done tt h' /\ inv Z h' R /\ shrinks h h' /\ (forall z, In z Z -> cells h' z = cells h z).
Proof.
  induction n as [|n IH]; intros Z h a R C L; [lia|].
  assert (A : alive h a) by (apply (i_present _ _ _ C); cbn; rewrite is_same; lia).
  unfold alive in A. destruct (cells h a) as [c|] eqn:E; [|congruence]. clear A.
  destruct (i_counted _ _ _ C a c E) as [H1 H2]. cbn [cnt] in H1. rewrite is_same in H1.
  assert (NZ : ~ In a Z) by (rewrite <- H2; lia).
  cbn [drop]. unfold hbind_ at 1, rd at 1. rewrite E.
  destruct (refs c) as [|r] eqn:F; [lia|]. clear H1 H2.
  unfold hbind_ at 1, wr at 1. rewrite E.
  destruct r as [|r].
  - (* last reference *)
    pose proof (inv_zero Z h a c R C E F) as C1.
    set (h1 := set_cell h a (Some (with_refs c 0))) in *.
    assert (E1 : cells h1 a = Some (with_refs c 0)) by apply set_same.
    assert (S1 : shrinks h h1).
    { split; auto. split; auto. intros b cb Eb. destruct (N.eq_dec b a) as [X|X].
      - subst b. rewrite E1 in Eb. injection Eb as <-. exists c. auto.
      - exists cb. unfold h1 in Eb. rewrite set_other in Eb; auto. }
    assert (L1 : room (a :: Z) h1 < n).
    { assert (room (a :: Z) h1 < room Z h); [|lia]. unfold room. change (addresses h1) with (addresses h).
      apply filter_lt with (a := a).
      - intros x H. unfold loose in *. destruct (cells h1 x) as [cx|] eqn:Ex; [|discriminate].
        cbn [existsb] in H. destruct (N.eqb_spec x a) as [X|X]; [discriminate|].
        unfold h1 in Ex. rewrite set_other in Ex; auto. rewrite Ex. auto.
      - apply addresses_in. apply (i_bounded _ _ _ C). unfold alive; congruence.
      - unfold loose. rewrite E1. cbn [existsb]. rewrite N.eqb_refl. auto.
      - unfold loose. rewrite E. destruct (existsb (N.eqb a) Z) eqn:X; auto. apply existsb_in in X. tauto. }
    assert (END : forall h2, inv (a :: Z) h2 R -> shrinks h1 h2 -> (forall z, In z (a :: Z) -> cells h2 z = cells h1 z) ->
              exists h', release a h2 = Done tt h' /\ inv Z h' R /\ shrinks h h' /\ (forall z, In z Z -> cells h' z = cells h z)).
    { intros h2 C2 S2 K2. unfold release. rewrite (K2 a) by (cbn; auto). rewrite E1.
      eexists. split; [reflexivity|]. split; [apply inv_release; auto|]. split.
      - eapply shrinks_trans; [exact S1|]. eapply shrinks_trans; [exact S2|].
        split; auto. split; auto. intros b cb Eb. destruct (N.eq_dec b a) as [X|X].
        + subst b. rewrite set_same in Eb. discriminate.
        + rewrite set_other in Eb; eauto.
      - intros z I. rewrite set_other by congruence. rewrite K2 by (cbn; auto). unfold h1.
        apply set_other. congruence. }
    unfold fields in C1. destruct (body c) as [| | | | | |x y] eqn:Bc; try (apply END; auto using shrinks_refl).
    assert (STEP : exists h2, (if weak c then done tt else drop n x) h1 = Done tt h2 /\ inv (a :: Z) h2 (y :: R) /\
                   shrinks h1 h2 /\ (forall z, In z (a :: Z) -> cells h2 z = cells h1 z)).
    { destruct (weak c).
      - exists h1. split; [reflexivity|]. auto using shrinks_refl.
      - apply (IH (a :: Z) h1 x (y :: R)); auto. }
    destruct STEP as [h2 [D2 [C2 [S2 K2]]]].
    unfold hbind_ at 1. rewrite D2. unfold hbind_ at 1, rd. rewrite (K2 a) by (cbn; auto). rewrite E1.
    cbn [body with_refs]. rewrite Bc.
    destruct (IH (a :: Z) h2 y R C2) as [h3 [D3 [C3 [S3 K3]]]].
    { pose proof (room_shrinks (a :: Z) h1 h2 S2). lia. }
    unfold hbind_ at 1. rewrite D3. apply END; eauto using shrinks_trans.
    intros z I. rewrite K3, K2; auto.
  - (* others remain *)
    eexists. split; [reflexivity|]. split; [apply inv_down; auto|]. split.
    + split; auto. split; auto. intros b cb Eb. destruct (N.eq_dec b a) as [X|X].
      * subst b. rewrite set_same in Eb. injection Eb as <-. exists c. auto.
      * exists cb. rewrite set_other in Eb; auto.
    + intros z I. apply set_other. congruence.
Qed.

Theorem X_spec : forall h a R, correct h (a :: R) ->
  exists h', X a h = Done tt h' /\ correct h' R /\ shrinks h h'.
Proof.
  intros h a R C. apply correct_inv in C.
  destruct (drop_spec (S (N.to_nat (nxt h))) [] h a R C) as [h' [D [C' [S _]]]].
  - pose proof (room_bound [] h). lia.
  - exists h'. split; auto. split; auto. apply correct_inv; auto.
Qed.

(** ** Consequences *)

Lemma correct_alive : forall h R a, correct h R -> In a R -> alive h a.
Proof. intros h R a C I. apply (present _ _ C). apply cnt_in in I. lia. Qed.
Lemma fields_alive : forall h R a b, correct h R -> In b (fields_at h a) -> alive h b.
Proof.
  intros h R a b C I. apply (present _ _ C). enough (0 < cnt b (edges h)) by lia. apply cnt_in.
  rewrite <- edgesZ_nil. eapply edgesZ_in; eauto. apply (bounded _ _ C).
  unfold fields_at in I. unfold alive. destruct (cells h a); [discriminate|destruct I].
Qed.
Lemma reach_alive : forall h R S a, correct h R -> (forall x, In x S -> In x R) -> reach h S a -> alive h a.
Proof.
  intros h R S a C I H. induction H as [a H|a b H IH Hb].
  - eapply correct_alive; eauto.
  - eapply fields_alive; eauto.
Qed.

(** What is still reachable is untouched. *)
Theorem X_keeps : forall h h' R, correct h' R -> shrinks h h' ->
  forall a, reach h R a -> exists c c', cells h a = Some c /\ cells h' a = Some c' /\ stored c' = stored c.
Proof.
  intros h h' R C' [_ [_ S]] a H.
  assert (alive h' a) as A.
  { induction H as [a H|a b H IH Hb].
    - eapply correct_alive; eauto.
    - apply (fields_alive h' R a); auto. unfold alive in IH.
      destruct (cells h' a) as [c'|] eqn:E'; [|congruence]. destruct (S _ _ E') as [c [E T]].
      unfold fields_at in *. rewrite E in Hb. rewrite E'. unfold fields, stored in *.
      injection T as T1 T2 T3. rewrite T1, T3. auto. }
  unfold alive in A. destruct (cells h' a) as [c'|] eqn:E'; [|congruence].
  destruct (S _ _ E') as [c [E T]]. eauto.
Qed.

(** Without references and without cycles nothing remains. *)
Theorem empty_acyclic : forall h, correct h [] -> acyclic h -> forall a, cells h a = None.
Proof.
  intros h C [rank A] a. destruct (cells h a) as [c|] eqn:E; auto. exfalso.
  assert (U : forall k b, alive h b -> exists b', alive h b' /\ k <= rank b').
  { induction k as [|k IH]; intros b H; [exists b; split; auto; lia|].
    destruct (IH b H) as [b1 [H1 L1]]. unfold alive in H1. destruct (cells h b1) as [c1|] eqn:E1; [|congruence].
    destruct (counted _ _ C b1 c1 E1) as [P Q]. cbn in P. rewrite Nat.add_0_r in P.
    assert (I : In b1 (edges h)) by (apply cnt_in; lia). unfold edges in I. apply in_flat_map in I.
    destruct I as [b2 [_ I]]. pose proof (A _ _ I). exists b2. split; [|lia].
    unfold fields_at in I. unfold alive. destruct (cells h b2); [discriminate|destruct I]. }
  pose (m := list_max (map rank (addresses h))).
  assert (B : forall b, alive h b -> rank b <= m).
  { intros b H. apply (bounded _ _ C) in H. apply addresses_in in H.
    pose proof (proj1 (list_max_le (map rank (addresses h)) m) (le_n _)) as F.
    rewrite Forall_forall in F. apply F, in_map, H. }
  destruct (U (S m) a) as [b [H L]]; [unfold alive; congruence|]. pose proof (B b H). lia.
Qed.
