(** * HTreeCount: the references held by a tree in memory. *)
From Verif Require Import Value Heap HeapSpec HEval HTree.
From Verif Require Import HeapProofs HeapOps HTreeSim.
From Verif Require Tree TreeProofs.
Import Tree(mem, NilC, NodeC, upN).
Import TreeProofs(tr(..), tid, ids, nodes, rt, ctx(..), plug, pid, cids).
From Coq Require Import Permutation.
Open Scope nat_scope.

(** ** Replacing and adding one cell, weak or not *)
Lemma correct_set : forall h a c c' R R', correct h R -> cells h a = Some c -> refs c' = refs c ->
  (forall b, cnt b (fields c') + cnt b R' = cnt b (fields c) + cnt b R) ->
  correct (set_cell h a (Some c')) R'.
Proof.
  intros h a c c' R R' C E P H.
  assert (L : (a < nxt h)%N) by (apply (bounded _ _ C); unfold alive; congruence).
  constructor.
  - intros b A. apply (bounded _ _ C). intro N0. apply A.
    destruct (N.eq_dec b a) as [X|X]; [subst; congruence|]. rewrite set_other; auto.
  - intros b cb Eb. pose proof (edges_set h a c c' b E L) as U. specialize (H b).
    destruct (N.eq_dec b a) as [X|X].
    + subst b. rewrite set_same in Eb. injection Eb as <-.
      destruct (counted _ _ C a c E) as [H1 H2]. split; lia.
    + rewrite set_other in Eb; auto. destruct (counted _ _ C b cb Eb) as [H1 H2]. split; [lia|auto].
  - intros b A. pose proof (edges_set h a c c' b E L) as U. specialize (H b).
    destruct (N.eq_dec b a) as [X|X].
    + subst b. unfold alive. rewrite set_same. discriminate.
    + unfold alive. rewrite set_other; auto. apply (present _ _ C). lia.
Qed.
Lemma correct_fresh : forall b h R, correct h (kids b ++ R) -> correct (fresh_heap h b) (nxt h :: R).
Proof.
  intros b h R C. constructor.
  - intros x A. cbn. unfold alive in A. cbn in A. destruct (N.eqb_spec x (nxt h)); [lia|].
    apply (bounded _ _ C) in A. lia.
  - intros x c E. rewrite edges_fresh. cbn [cells fresh_heap] in E. cbn [cnt].
    destruct (N.eqb_spec x (nxt h)) as [X|X].
    + injection E as <-. subst x. cbn [refs]. rewrite is_same. split; [|lia].
      destruct (Nat.eq_dec (cnt (nxt h) (edges h) + cnt (nxt h) (kids b ++ R)) 0) as [Z|Z].
      * rewrite cnt_app in Z. lia.
      * exfalso. assert (alive h (nxt h)) as A by (apply (present _ _ C); lia). apply (bounded _ _ C) in A. lia.
    + destruct (counted _ _ C x c E) as [H1 H2]. rewrite cnt_app in H1. rewrite is_other by auto. split; [lia|auto].
  - intros x A. unfold alive. cbn [cells fresh_heap]. destruct (N.eqb_spec x (nxt h)) as [X|X]; [discriminate|].
    apply (present _ _ C). rewrite edges_fresh in A. cbn [cnt] in A. rewrite is_other in A by auto. rewrite cnt_app. lia.
Qed.
Lemma correct_ext : forall h h' R, correct h R -> nxt h' = nxt h -> (forall a, cells h' a = cells h a) -> correct h' R.
Proof.
  intros h h' R C En E. assert (Ee : edges h' = edges h).
  { unfold edges, addresses. rewrite En. apply flat_map_ext. intros a. unfold fields_at. rewrite E; auto. }
  constructor.
  - intros a A. rewrite En. apply (bounded _ _ C). unfold alive in *. rewrite <- E; auto.
  - intros a c Ec. rewrite E in Ec. rewrite Ee. apply (counted _ _ C); auto.
  - intros a A. unfold alive. rewrite E. apply (present _ _ C). rewrite <- Ee; auto.
Qed.

(** ** Replacing many cells *)
Lemma cnt_perm : forall l l' b, Permutation l l' -> cnt b l = cnt b l'.
Proof. intros l l' b P. induction P; cbn [cnt]; lia. Qed.
Lemma flat_perm : forall (f : N -> list N) l l' b, Permutation l l' -> cnt b (flat_map f l) = cnt b (flat_map f l').
Proof. intros f l l' b P. apply cnt_perm. induction P; cbn [flat_map]; auto.
  - apply Permutation_app_head; auto.
  - rewrite !app_assoc. apply Permutation_app_tail, Permutation_app_comm.
  - etransitivity; eauto.
Qed.
Lemma cells_diff : forall (f : N -> list N) b C (g : N -> list N) l, NoDup l -> NoDup C -> incl C l ->
  (forall a, ~ In a C -> g a = f a) ->
  cnt b (flat_map g l) + cnt b (flat_map f C) = cnt b (flat_map f l) + cnt b (flat_map g C).
Proof.
  intros f b C. induction C as [|a C IH]; intros g l Nl NC I H.
  - cbn. rewrite (flat_map_ext g f); auto.
  - inversion NC as [|? ? Na NC']; subst.
    set (g' := fun x => if N.eqb x a then f x else g x).
    assert (IH' := IH g' l Nl NC').
    assert (E : cnt b (flat_map g l) + cnt b (g' a) = cnt b (flat_map g' l) + cnt b (g a)).
    { apply flat_cnt; auto; [apply I; left; auto|]. intros x Hx. unfold g'. apply N.eqb_neq in Hx. rewrite Hx; auto. }
    assert (Eg : forall m, ~ In a m -> flat_map g m = flat_map g' m).
    { induction m as [|y m IHm]; intros Hm; cbn [flat_map]; auto. rewrite IHm by (cbn in Hm; tauto). f_equal.
      unfold g'. destruct (N.eqb_spec y a); auto. subst. cbn in Hm; tauto. }
    cbn [flat_map]. rewrite !cnt_app. rewrite (Eg C) by auto.
    assert (Ea : g' a = f a) by (unfold g'; rewrite N.eqb_refl; auto). rewrite Ea in E.
    assert (I' : incl C l) by (intros y Hy; apply I; right; auto).
    assert (Hg : forall x, ~ In x C -> g' x = f x).
    { intros x Hx. unfold g'. destruct (N.eqb_spec x a); auto. apply H. intros [?|?]; auto. }
    specialize (IH' I' Hg). lia.
Qed.
Lemma edges_diff : forall h h' C b, nxt h' = nxt h -> NoDup C -> (forall a, In a C -> (a < nxt h)%N) ->
  (forall a, ~ In a C -> fields_at h' a = fields_at h a) ->
  cnt b (edges h') + cnt b (flat_map (fields_at h) C) = cnt b (edges h) + cnt b (flat_map (fields_at h') C).
Proof.
  intros h h' C b En ND L H. unfold edges. replace (addresses h') with (addresses h) by (unfold addresses; rewrite En; auto).
  apply cells_diff; auto; [apply addresses_nodup|]. intros a Ia. apply addresses_in; auto.
Qed.

(** ** The references of a tree *)
Definition tri (bb cc : N -> N) (i : N) : list N := [i; bb i; cc i].
Definition inner (s : mem) (i : N) : list N := [Tree.lf s i; Tree.rf s i].
Definition outer (s : mem) (bb cc : N -> N) (i : N) : list N := [Tree.dat s i; bb i; cc i].

Lemma tri_nodup : forall bb cc s ns, NoDup ns -> apart ns bb cc s -> NoDup (flat_map (tri bb cc) ns).
Proof.
  intros bb cc s ns ND A.
  assert (G : forall l, NoDup l -> incl l ns -> NoDup (flat_map (tri bb cc) l)).
  { induction l as [|i l IH]; intros Nl Il; cbn [flat_map]; [constructor|]. inversion Nl as [|? ? Ni Nl']; subst.
    assert (Ii : In i ns) by (apply Il; left; auto). assert (Il' : incl l ns) by (intros j Hj; apply Il; right; auto).
    assert (NI : forall x, In x (flat_map (tri bb cc) l) -> x <> i /\ x <> bb i /\ x <> cc i).
    { intros x Hx. apply in_flat_map in Hx. destruct Hx as [j [Hj Hx]]. assert (Ij := Il' j Hj).
      assert (Nij : j <> i) by (intros ->; auto). unfold tri in Hx. destruct Hx as [<-|[<-|[<-|[]]]].
      - split; [auto|]. split; intros E; [apply (ap_bi _ _ _ _ A i j)|apply (ap_ci _ _ _ _ A i j)]; auto.
      - split; [apply (ap_bi _ _ _ _ A); auto|]. split; [intros E; apply Nij, (ap_b _ _ _ _ A); auto|apply (ap_bc _ _ _ _ A); auto].
      - split; [apply (ap_ci _ _ _ _ A); auto|]. split; [intros E; apply (ap_bc _ _ _ _ A i j); auto|intros E; apply Nij, (ap_c _ _ _ _ A); auto]. }
    cbn [tri app]. constructor; [|constructor; [|constructor; [|apply IH; auto]]].
    - intros [E|[E|H]]; [apply (ap_bi _ _ _ _ A i i); auto|apply (ap_ci _ _ _ _ A i i); auto|]. apply NI in H. tauto.
    - intros [E|H]; [apply (ap_bc _ _ _ _ A i i); auto|]. apply NI in H. tauto.
    - intros H. apply NI in H. tauto. }
  apply G; auto. intros x; auto.
Qed.

Lemma tri_fields : forall D ns bb cc wk cl h s, sees D ns bb cc wk cl h s -> (forall i, In i ns -> wk i = true) ->
  forall b l, incl l ns -> cnt b (flat_map (fields_at h) (flat_map (tri bb cc) l)) = cnt b (flat_map (outer s bb cc) l) + cnt b (flat_map (inner s) l).
Proof.
  intros D ns bb cc wk cl h s S W b l. induction l as [|i l IH]; intros I; [auto|].
  assert (Ii : In i ns) by (apply I; left; auto).
  destruct (se_node _ _ _ _ _ _ _ _ S i Ii) as [[c1 [E1 [B1 W1]]] [c2 [E2 [B2 W2]]] [c3 [E3 [B3 W3]]] _].
  cbn [flat_map]. rewrite flat_map_app, !cnt_app, IH by (intros j Hj; apply I; right; auto).
  cbn [tri flat_map]. unfold fields_at at 1 2 3. rewrite E1, E2, E3. unfold fields. rewrite B1, W1, B2, W2, B3, W3, (W i Ii).
  unfold outer at 2, inner at 2. rewrite !cnt_app. cbn [cnt]. lia.
Qed.
Lemma inner_tree : forall t s par b, rt s par t -> cnt b (flat_map (inner s) (nodes t)) + is (tid t) b = cnt b (ids t).
Proof.
  induction t as [i|i l IHl r IHr]; intros s par b H; cbn [rt nodes ids tid flat_map cnt] in *; [lia|].
  destruct H as [H1 [H2 [H3 [H4 [H5 H6]]]]]. specialize (IHl s i b H5). specialize (IHr s i b H6).
  rewrite flat_map_app, !cnt_app. cbn [flat_map]. rewrite cnt_app. unfold inner at 2. rewrite H3, H4. cbn [cnt]. lia.
Qed.
Lemma outer_same : forall s s' bb cc b l, Tree.dat s' = Tree.dat s -> cnt b (flat_map (outer s' bb cc) l) = cnt b (flat_map (outer s bb cc) l).
Proof. intros s s' bb cc b l E. unfold outer. rewrite E; auto. Qed.

(** ** A leaf dropped *)
Definition dropped (h h' : heap) (i : N) : Prop :=
  nxt h' = nxt h /\ aux h' = aux h /\ (forall a, a <> i -> cells h' a = cells h a) /\
  exists c r, cells h i = Some c /\ refs c = S r /\ is_pair_c c = false /\
    cells h' i = match r with O => None | S _ => Some (with_refs c r) end.
Lemma X_drops : forall h i c r, cells h i = Some c -> refs c = S r -> is_pair_c c = false ->
  exists h', X i h = Done tt h' /\ dropped h h' i.
Proof.
  intros h i c r E Er B. unfold X. cbn [drop]. unfold hbind_ at 1, rd. rewrite E, Er.
  unfold hbind_, wr. rewrite E. destruct r as [|r].
  - exists (set_cell (set_cell h i (Some (with_refs c 0))) i None).
    assert (R : release i (set_cell h i (Some (with_refs c 0))) = Done tt (set_cell (set_cell h i (Some (with_refs c 0))) i None)).
    { unfold release. rewrite set_same; auto. }
    split; [destruct (body c) eqn:Eb; auto; unfold is_pair_c in B; rewrite Eb in B; discriminate|].
    split; [auto|]. split; [auto|]. split; [intros a Ha; rewrite !set_other; auto|]. exists c, 0. rewrite set_same. auto.
  - exists (set_cell h i (Some (with_refs c (S r)))). split; [auto|]. split; [auto|]. split; [auto|].
    split; [intros a Ha; rewrite set_other; auto|]. exists c, (S r). rewrite set_same. auto.
Qed.

(** What happened to the heap while a node was linked in place of the leaf [i] and
    the tree was rebalanced. *)
Definition relinked (ns : list N) (bb cc : N -> N) (i : N) (h h' : heap) : Prop :=
  nxt h' = nxt h /\ aux h' = aux h /\
  (forall a, a <> i -> cells h' a = cells h a \/
    ((exists j, In j ns /\ (a = bb j \/ a = cc j)) /\
     exists c c', cells h a = Some c /\ cells h' a = Some c' /\ refs c' = refs c /\ tail c' = tail c /\ weak c' = weak c)) /\
  exists c r, cells h i = Some c /\ refs c = S r /\ is_pair_c c = false /\
    cells h' i = match r with O => None | S _ => Some (with_refs c r) end.

Lemma relinked_correct : forall ns bb cc D i h h' s s' cl cl' t t' node a b R sent,
  correct h (node :: tid t :: R) -> relinked ns bb cc i h h' ->
  sees D ns bb cc (fun _ => true) cl h s -> sees D ns bb cc (fun _ => true) cl' h' s' ->
  Tree.dat s' = Tree.dat s -> NoDup ns -> Permutation ns (node :: nodes t) -> Permutation ns (nodes t') ->
  rt s sent t -> rt s' sent t' -> Tree.lf s node = a -> Tree.rf s node = b ->
  Permutation (i :: ids t') (node :: a :: b :: ids t) ->
  correct h' (tid t' :: R).
Proof.
  intros ns bb cc D i h h' s s' cl cl' t t' node a b R sent C [En [Ea [Hc [c0 [r0 [E0 [Er [Ep0 Ei]]]]]]]] S S' Ed ND P P' Rt Rt' La Rb Pi.
  assert (Ni : ~ In i (flat_map (tri bb cc) ns)).
  { intros H. apply in_flat_map in H. destruct H as [j [Hj Hx]].
    destruct (se_node _ _ _ _ _ _ _ _ S j Hj) as [[c1 [E1 [B1 W1]]] [c2 [E2 [B2 W2]]] [c3 [E3 [B3 W3]]] _].
    unfold is_pair_c in Ep0. destruct Hx as [<-|[<-|[<-|[]]]]; [rewrite E0 in E1|rewrite E0 in E2|rewrite E0 in E3];
      [injection E1 as <-|injection E2 as <-|injection E3 as <-]; [rewrite B1 in Ep0|rewrite B2 in Ep0|rewrite B3 in Ep0]; discriminate. }
  assert (Out : forall x, ~ In x (flat_map (tri bb cc) ns) -> fields_at h' x = fields_at h x).
  { intros x Hx. destruct (N.eq_dec x i) as [Exi|Nx].
    - subst x. unfold fields_at. rewrite E0, Ei. unfold is_pair_c in Ep0.
      destruct r0; unfold fields; cbn [body with_refs]; destruct (body c0); auto; discriminate.
    - destruct (Hc x Nx) as [E|[[j [Hj Ej]] _]]; [unfold fields_at; rewrite E; auto|]. exfalso. apply Hx.
      apply in_flat_map. exists j. split; auto. unfold tri. destruct Ej as [->| ->]; cbn; auto. }
  assert (Lt : forall x, In x (flat_map (tri bb cc) ns) -> (x < nxt h)%N).
  { intros x Hx. apply (bounded _ _ C). apply in_flat_map in Hx. destruct Hx as [j [Hj Hx]].
    destruct (se_node _ _ _ _ _ _ _ _ S j Hj) as [[c1 [E1 _]] [c2 [E2 _]] [c3 [E3 _]] _]. unfold alive.
    destruct Hx as [<-|[<-|[<-|[]]]]; congruence. }
  assert (Bal : forall z, cnt z (edges h') + is (tid t') z + is i z = cnt z (edges h) + is (tid t) z + is node z).
  { intros z. pose proof (edges_diff h h' (flat_map (tri bb cc) ns) z En (tri_nodup bb cc s ns ND (se_apart _ _ _ _ _ _ _ _ S)) Lt Out) as H.
    rewrite (tri_fields _ _ _ _ _ _ _ _ S (fun _ _ => eq_refl) z ns (incl_refl _)) in H.
    rewrite (tri_fields _ _ _ _ _ _ _ _ S' (fun _ _ => eq_refl) z ns (incl_refl _)) in H.
    rewrite (outer_same s s' bb cc z ns Ed) in H.
    rewrite (flat_perm (inner s) _ _ z P), (flat_perm (inner s') _ _ z P') in H. cbn [flat_map] in H.
    rewrite cnt_app in H. unfold inner at 1 in H. rewrite La, Rb in H.
    pose proof (inner_tree t s sent z Rt). pose proof (inner_tree t' s' sent z Rt').
    pose proof (cnt_perm _ _ z Pi) as Hp. cbn [cnt] in *. lia. }
  constructor.
  - intros x A. rewrite En. apply (bounded _ _ C). intros N0. apply A. destruct (N.eq_dec x i) as [->|Nx]; [congruence|].
    destruct (Hc x Nx) as [E|[_ [c [c' [E _]]]]]; congruence.
  - intros x cx Ex. specialize (Bal x). destruct (N.eq_dec x i) as [->|Nx].
    + destruct (counted _ _ C i c0 E0) as [H1 H2]. rewrite is_same in Bal. cbn [cnt] in *.
      rewrite Ei in Ex. destruct r0; [discriminate|]. injection Ex as <-. cbn [refs with_refs]. lia.
    + rewrite (is_other i x) in Bal by auto. destruct (Hc x Nx) as [E|[_ [c [c' [E1 [E2 [E3 _]]]]]]].
      * rewrite E in Ex. destruct (counted _ _ C x cx Ex) as [H1 H2]. cbn [cnt] in *. lia.
      * rewrite E2 in Ex. injection Ex as <-. destruct (counted _ _ C x c E1) as [H1 H2]. cbn [cnt] in *. lia.
  - intros x A. specialize (Bal x). destruct (N.eq_dec x i) as [->|Nx].
    + destruct (counted _ _ C i c0 E0) as [H1 H2]. rewrite is_same in Bal. cbn [cnt] in *. unfold alive. rewrite Ei.
      destruct r0; [lia|discriminate].
    + rewrite (is_other i x) in Bal by auto. assert (Al : alive h x) by (apply (present _ _ C); cbn [cnt] in *; lia).
      unfold alive in *. destruct (Hc x Nx) as [E|[_ [c [c' [E1 [E2 _]]]]]]; congruence.
Qed.
