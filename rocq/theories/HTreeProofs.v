(** * HTreeProofs: definitions and lookups on the tree of globals in memory. *)
From Verif Require Import Value ValueSpec ValueProofs Heap HeapSpec HEval HTree.
From Verif Require Import HeapProofs HeapOps HTreeSim HTreeCount.
From Verif Require Tree TreeProofs.
Import Tree(mem, Ok, NilC, NodeC, upN).
Import TreeProofs(tr(..), tid, ids, nodes, height, rt, ctx(..), plug, pid, cids, cbefore, cafter, depth, okt, is_nd, key).
From Coq Require Import Permutation Sorting.Sorted.
Open Scope nat_scope.
Notation ssorted := (StronglySorted sym_lt).

(** ** Flags *)
Definition pairs_at (h : heap) (root d b2 l b1 p r : N) : Prop :=
  cell_of h root (KPair d b2) false /\ cell_of h b2 (KPair l b1) false /\ exists w, cell_of h b1 (KPair p r) w.

Lemma null_cell : forall h a c, cells h a = Some c -> NULL a h = Done (is_nil_c c) h.
Proof. intros h a c E. unfold NULL, test, hbind_, rd, done. rewrite E; auto. Qed.
Lemma null_pair : forall h a x y w, cell_of h a (KPair x y) w -> NULL a h = Done false h.
Proof. intros h a x y w [c [E [B _]]]. rewrite (null_cell h a c E). unfold is_nil_c. rewrite B; auto. Qed.
Lemma weak_done : forall h a c b, cells h a = Some c -> set_weak a b h = Done tt (set_cell h a (Some (with_weak c b))).
Proof. intros h a c b E. unfold set_weak, hbind_, rd, wr. rewrite E, E; auto. Qed.
Lemma to_weak_done : forall h root d b2 l b1 c b w, cell_of h root (KPair d b2) w -> (exists w, cell_of h b2 (KPair l b1) w) ->
  cells h b1 = Some c -> to_weak b root h = Done tt (set_cell h b1 (Some (with_weak c b))).
Proof.
  intros h root d b2 l b1 c b w A [w' B] C. unfold to_weak. rewrite (hbind_done _ _ _ _ _ (null_pair _ _ _ _ _ A)).
  rewrite (hbind_done _ _ _ _ _ (cdr_of_cell _ _ _ _ _ A)), (hbind_done _ _ _ _ _ (cdr_of_cell _ _ _ _ _ B)).
  apply weak_done; auto.
Qed.

Lemma sees_weak : forall D ns bb cc wk wk' cl h s r c b, sees D ns bb cc wk cl h s -> In r ns -> cells h (cc r) = Some c ->
  wk' r = b -> (forall i, In i ns -> i <> r -> wk' i = wk i) ->
  sees D ns bb cc wk' cl (set_cell h (cc r) (Some (with_weak c b))) s.
Proof.
  intros D ns bb cc wk wk' cl h s r c b [A1 A2 A3 A4 A5 A6 A7] I E W Wo.
  destruct (A2 r I) as [_ _ [c' [E' [B' W']]] _]. rewrite E in E'. injection E' as <-.
  assert (K : forall x k w, cell_of h x k w -> x <> cc r -> cell_of (set_cell h (cc r) (Some (with_weak c b))) x k w).
  { intros x k w H Ne. apply (cell_keep h); auto. apply set_other; auto. }
  constructor; auto.
  - intros i Di Ki. destruct (A1 i Di Ki) as [ci [B1 B2]]. exists ci. split; auto. rewrite set_other; auto. intros ->. congruence.
  - intros i Hi. destruct (A2 i Hi) as [B1 B2 B3 [kc [v [B4 [ck [B5 B6]]]]]]. constructor.
    + apply K; auto. intros Ei. apply (ap_ci _ _ _ _ A7 r i); auto.
    + apply K; auto. intros Ei. apply (ap_bc _ _ _ _ A7 i r); auto.
    + destruct (N.eq_dec i r) as [->|Ne].
      * exists (with_weak c b). rewrite set_same. auto.
      * rewrite (Wo i Hi Ne). apply K; auto. intros Ei. apply Ne, (ap_c _ _ _ _ A7); auto.
    + exists kc, v. split; [apply K; auto; intros Ei; apply (ap_cd _ _ _ _ A7 r i); auto|].
      exists ck. split; auto. rewrite set_other; auto. intros ->. congruence.
Qed.

(** ** A new node *)
Definition root_parent (h : heap) (root p : N) : Prop :=
  (p = root /\ exists c, cells h root = Some c /\ body c = KNil) \/
  (exists d b2 l b1 r, pairs_at h root d b2 l b1 p r).
Record new_node (h h' : heap) (p kv : N) : Prop := mknew {
  nn_nxt : nxt h' = (nxt h + 5)%N;
  nn_aux : aux h' = aux h;
  nn_old : forall a, (a < nxt h)%N -> cells h' a = cells h a;
  nn_l : cells h' (nxt h) = Some (mkcell 1 false false KNil);
  nn_r : cells h' (nxt h + 1)%N = Some (mkcell 1 false false KNil);
  nn_1 : cells h' (nxt h + 2)%N = Some (mkcell 1 false true (KPair p (nxt h + 1)));
  nn_2 : cells h' (nxt h + 3)%N = Some (mkcell 1 false false (KPair (nxt h) (nxt h + 2)));
  nn_3 : cells h' (nxt h + 4)%N = Some (mkcell 1 false false (KPair kv (nxt h + 3)))
}.
Lemma alloc_fresh : forall b h, alloc b h = Done (nxt h) (fresh_heap h b).
Proof. reflexivity. Qed.
Lemma fresh_old : forall h b x, x <> nxt h -> cells (fresh_heap h b) x = cells h x.
Proof. intros h b x H. cbn. apply N.eqb_neq in H. rewrite H; auto. Qed.
Lemma fresh_new : forall h b, cells (fresh_heap h b) (nxt h) = Some (mkcell 1 false false b).
Proof. intros. cbn. rewrite N.eqb_refl; auto. Qed.

Lemma hnew_ok : forall h cl root kv p R, correct h (p :: kv :: R) -> alive h root -> root_parent h root p ->
  exists h', hnew cl root kv h = Done ((nxt h + 4)%N, paint (paint (paint cl (nxt h) false) (nxt h + 1) false) (nxt h + 4) false) h' /\
    correct h' (p :: (nxt h + 4)%N :: R) /\ new_node h h' p kv.
Proof.
  intros h cl root kv p R C Al RP.
  assert (Bd : forall a, alive h a -> (a < nxt h)%N) by apply (bounded _ _ C).
  set (h1 := fresh_heap h KNil). set (h2 := fresh_heap h1 KNil).
  set (h3 := fresh_heap h2 (KPair p (nxt h1))). set (h4 := fresh_heap h3 (KPair (nxt h) (nxt h2))).
  set (h5 := fresh_heap h4 (KPair kv (nxt h3))).
  assert (N1 : nxt h1 = (nxt h + 1)%N) by (cbn; lia). assert (N2 : nxt h2 = (nxt h + 2)%N) by (cbn; lia).
  assert (N3 : nxt h3 = (nxt h + 3)%N) by (cbn; lia). assert (N4 : nxt h4 = (nxt h + 4)%N) by (cbn; lia).
  assert (N5 : nxt h5 = (nxt h + 5)%N) by (cbn; lia).
  assert (C1 : correct h1 (nxt h :: p :: kv :: R)) by (apply (correct_fresh KNil); auto).
  assert (C2 : correct h2 (nxt h1 :: nxt h :: p :: kv :: R)) by (apply (correct_fresh KNil); auto).
  assert (C3 : correct h3 (nxt h2 :: nxt h :: kv :: R)).
  { apply correct_fresh. cbn [kids app]. eapply correct_perm; [exact C2|]. intros a. cbn [cnt]. lia. }
  assert (C4 : correct h4 (nxt h3 :: kv :: R)).
  { apply correct_fresh. cbn [kids app]. eapply correct_perm; [exact C3|]. intros a. cbn [cnt]. lia. }
  assert (C5 : correct h5 (nxt h4 :: R)).
  { apply correct_fresh. cbn [kids app]. eapply correct_perm; [exact C4|]. intros a. cbn [cnt]. lia. }
  assert (Old : forall a, (a < nxt h)%N -> cells h5 a = cells h a).
  { intros a L. unfold h5. rewrite fresh_old by lia. unfold h4. rewrite fresh_old by lia. unfold h3. rewrite fresh_old by lia.
    unfold h2. rewrite fresh_old by lia. unfold h1. rewrite fresh_old by lia. auto. }
  assert (Old1 : forall a, (a < nxt h)%N -> cells h1 a = cells h a) by (intros a L; unfold h1; rewrite fresh_old by lia; auto).
  assert (E2 : cells h5 (nxt h2) = Some (mkcell 1 false false (KPair p (nxt h1)))).
  { unfold h5. rewrite fresh_old by lia. unfold h4. rewrite fresh_old by lia. unfold h3. apply fresh_new. }
  exists (set_cell h5 (nxt h2) (Some (with_weak (mkcell 1 false false (KPair p (nxt h1))) true))).
  split.
  { unfold hnew. rewrite (hbind_done make_nil _ h (nxt h) h1) by reflexivity.
    assert (P : exists z, NULL root h1 = Done z h1 /\ (if z then done root else PARENT root) h1 = Done p h1).
    { destruct RP as [[-> [c [E B]]]|[d [b2 [l [b1 [r [A [B [w C0]]]]]]]]].
      - exists true. rewrite (null_cell h1 root c) by (rewrite Old1; auto). unfold is_nil_c. rewrite B. auto.
      - assert (Keep : forall x k w, cell_of h x k w -> cell_of h1 x k w).
        { intros x k w0 H. apply (cell_keep h); auto. apply Old1, Bd. destruct H as [c [H _]]. unfold alive; congruence. }
        exists false. split; [eapply null_pair, Keep, A|]. unfold PARENT.
        rewrite (hbind_done _ _ _ _ _ (cdr_of_cell _ _ _ _ _ (Keep _ _ _ A))), (hbind_done _ _ _ _ _ (cdr_of_cell _ _ _ _ _ (Keep _ _ _ B))).
        apply (car_of_cell _ _ _ _ _ (Keep _ _ _ C0)). }
    destruct P as [z [P1 P2]]. rewrite (hbind_done _ _ _ _ _ P1), (hbind_done _ _ _ _ _ P2).
    rewrite (hbind_done make_nil _ h1 (nxt h1) h2) by reflexivity.
    rewrite (hbind_done (hcons p (nxt h1)) _ h2 (nxt h2) h3) by reflexivity.
    rewrite (hbind_done (hcons (nxt h) (nxt h2)) _ h3 (nxt h3) h4) by reflexivity.
    rewrite (hbind_done (hcons kv (nxt h3)) _ h4 (nxt h4) h5) by reflexivity.
    rewrite (hbind_done _ _ _ _ _ (weak_done h5 (nxt h2) _ true E2)). rewrite N1, N4. reflexivity. }
  split.
  - rewrite <- N4. eapply correct_set; [exact C5|exact E2|auto|]. intros b. cbn [fields body weak with_weak cnt]. lia.
  - constructor.
    + cbn [nxt set_cell]. auto.
    + reflexivity.
    + intros a L. rewrite set_other by lia. auto.
    + rewrite set_other by lia. unfold h5. rewrite fresh_old by lia. unfold h4. rewrite fresh_old by lia. unfold h3. rewrite fresh_old by lia.
      unfold h2. rewrite fresh_old by lia. unfold h1. apply fresh_new.
    + rewrite set_other by lia. unfold h5. rewrite fresh_old by lia. unfold h4. rewrite fresh_old by lia. unfold h3. rewrite fresh_old by lia.
      unfold h2. rewrite <- N1. apply fresh_new.
    + rewrite <- N2. rewrite set_same. unfold with_weak. cbn [refs tail body]. rewrite N1. auto.
    + rewrite set_other by lia. unfold h5. rewrite fresh_old by lia. unfold h4. rewrite <- N3, <- N2. apply fresh_new.
    + rewrite set_other by lia. unfold h5. rewrite <- N4, <- N3. apply fresh_new.
Qed.

Definition new_mem (s : mem) (b p kv : N) (k : symbol) : mem :=
  Tree.mkmem (upN (upN (upN (Tree.kind s) b NilC) (b + 1) NilC) (b + 4) NodeC)
    (upN (Tree.lf s) (b + 4) b) (upN (Tree.pf s) (b + 4) p) (upN (Tree.rf s) (b + 4) (b + 1))%N
    (upN (upN (upN (upN (Tree.col s) b false) (b + 1) false) (b + 4) false) (b + 4) true)
    (upN (Tree.dat s) (b + 4) kv) (upN (Tree.dkey s) kv k) (Tree.dval s) (Tree.nxt s).
Definition new_colours (cl : colours) (b : N) : colours :=
  paint (paint (paint (paint cl b false) (b + 1) false) (b + 4) false) (b + 4) true.
Definition with_new (D : N -> Prop) (b : N) : N -> Prop := fun a => a = b \/ a = (b + 1)%N \/ a = (b + 4)%N \/ D a.

Definition pair_kv (h : heap) (kv : N) (k : symbol) (v : N) : Prop :=
  exists kc, cell_of h kv (KPair kc v) false /\ exists c, cells h kc = Some c /\ body c = KSym k.

Lemma sees_new : forall D ns bb cc cl h h' s p kv k v, sees D ns bb cc (fun _ => true) cl h s ->
  new_node h h' p kv -> pair_kv h kv k v -> (forall a, alive h a -> (a < nxt h)%N) -> (forall a, D a -> (a < nxt h)%N) ->
  (forall a, D a -> Tree.kind s a <> Tree.Free) -> D p ->
  sees (with_new D (nxt h)) ((nxt h + 4)%N :: ns) (upN bb (nxt h + 4) (nxt h + 3))%N (upN cc (nxt h + 4) (nxt h + 2))%N (fun _ => true)
    (new_colours cl (nxt h)) h' (new_mem s (nxt h) p kv k).
Proof.
  intros D ns bb cc cl h h' s p kv k v S NN [kc [Ckv [ck [Ek Bk]]]] Bd LD LF Dp.
  pose proof S as [A1 A2 A3 A4 A5 A6 A7]. destruct NN as [M1 M2 M3 M4 M5 M6 M7 M8].
  set (b := nxt h) in *. set (n := (b + 4)%N) in *.
  assert (Lns : forall i, In i ns -> (i < b)%N) by (intros i Hi; apply LD, A4; auto).
  assert (Nn : ~ In n ns) by (intros H; apply Lns in H; unfold n in H; lia).
  assert (LC : forall x k w, cell_of h x k w -> (x < b)%N).
  { intros x k0 w [c [H _]]. apply Bd. unfold alive; congruence. }
  assert (Keep : forall x k w, cell_of h x k w -> cell_of h' x k w).
  { intros x k0 w H. apply (cell_keep h); auto. apply M3. eapply LC; eauto. }
  assert (Leaf : forall x, D x -> exists c, cells h x = Some c /\ forall q, body c <> KSym q).
  { intros x Dx. destruct (Tree.kind s x) eqn:Kx; [exfalso; apply (LF x); auto| |].
    - destruct (A1 x Dx Kx) as [c [E B]]. exists c. split; auto. intros q; congruence.
    - destruct (A2 x (A3 x Dx Kx)) as [[c [E [B _]]] _ _ _]. exists c. split; auto. intros q; congruence. }
  assert (Kv_i : forall i, In i ns -> i <> kv).
  { intros i Hi ->. destruct (A2 kv Hi) as [[c [E [B _]]] _ _ [kk [vv [[c2 [E2 [B2 _]]] _]]]].
    destruct Ckv as [c' [E' [B' _]]]. rewrite E in E'. injection E' as <-. rewrite B in B'. injection B' as B' _. congruence. }
  assert (Kv_b : forall i, In i ns -> bb i <> kv).
  { intros i Hi Ei. destruct (A2 i Hi) as [_ [c [E [B _]]] _ _]. destruct Ckv as [c' [E' [B' _]]]. rewrite Ei, E' in E.
    injection E as <-. rewrite B in B'. injection B' as B' _. destruct (Leaf (Tree.lf s i)) as [cl0 [E0 F0]]; [apply A6; auto|].
    rewrite B' in E0. rewrite Ek in E0. injection E0 as <-. apply (F0 k); auto. }
  assert (Kv_c : forall i, In i ns -> cc i <> kv).
  { intros i Hi Ei. destruct (A2 i Hi) as [_ _ [c [E [B _]]] _]. destruct Ckv as [c' [E' [B' _]]]. rewrite Ei, E' in E.
    injection E as <-. rewrite B in B'. injection B' as B' _. destruct (Leaf (Tree.pf s i)) as [cl0 [E0 F0]]; [apply A6; auto|].
    rewrite B' in E0. rewrite Ek in E0. injection E0 as <-. apply (F0 k); auto. }
  assert (Lkv := LC _ _ _ Ckv).
  assert (U : forall (f : N -> N) x i, In i ns -> upN f n x i = f i).
  { intros f x i Hi. apply TreeProofs.upN_other. intros ->. auto. }
  assert (Un : forall (f : N -> N) x, upN f n x n = x) by (intros; apply TreeProofs.upN_same).
  assert (Lb : forall i, In i ns -> (bb i < b)%N /\ (cc i < b)%N /\ (Tree.dat s i < b)%N).
  { intros i Hi. destruct (A2 i Hi) as [B1 B2 B3 [kk [vv [B4 _]]]]. split; [eapply LC; eauto|]. split; eapply LC; eauto. }
  assert (Kd : forall i, D i -> Tree.kind (new_mem s b p kv k) i = Tree.kind s i).
  { intros i Di. apply LD in Di. cbn [Tree.kind new_mem]. rewrite !TreeProofs.upN_other by (unfold n; lia). auto. }
  assert (Kn : Tree.kind (new_mem s b p kv k) n = NodeC) by (cbn [Tree.kind new_mem]; apply TreeProofs.upN_same).
  constructor.
  - intros i Di Ki. destruct Di as [->|[->|[->|Di]]].
    + rewrite M4. eexists; split; [reflexivity|auto].
    + rewrite M5. eexists; split; [reflexivity|auto].
    + fold n in Ki. congruence.
    + rewrite Kd in Ki by auto. destruct (A1 i Di Ki) as [c [E B]]. exists c. rewrite M3; auto.
  - intros i [<-|Hi].
    + constructor; cbn [Tree.lf Tree.pf Tree.rf Tree.dat Tree.dkey new_mem]; rewrite ?Un.
      * exists (mkcell 1 false false (KPair kv (b + 3))). auto.
      * exists (mkcell 1 false false (KPair b (b + 2))). auto.
      * exists (mkcell 1 false true (KPair p (b + 1))). auto.
      * exists kc, v. split; [apply Keep; auto|]. exists ck. rewrite TreeProofs.upN_same. split; auto.
        rewrite M3; auto. apply Bd. unfold alive; congruence.
    + destruct (A2 i Hi) as [B1 B2 B3 [kk [vv [B4 [ck' [B5 B6]]]]]].
      constructor; cbn [Tree.lf Tree.pf Tree.rf Tree.dat Tree.dkey new_mem]; fold n; rewrite ?U by auto; auto.
      exists kk, vv. split; [apply Keep; auto|]. exists ck'. split; [rewrite M3; auto; apply Bd; unfold alive; congruence|].
      unfold upN. destruct (N.eqb_spec (Tree.dat s i) kv) as [E|E]; auto.
      rewrite E in B4. destruct B4 as [c4 [E4 [B4 _]]], Ckv as [c' [E' [B' _]]]. congruence.
  - intros i Di Ki. destruct Di as [->|[->|[->|Di]]].
    + exfalso. cbn [Tree.kind new_mem] in Ki. rewrite !TreeProofs.upN_other in Ki by (unfold n; lia).
      rewrite TreeProofs.upN_same in Ki. discriminate.
    + exfalso. cbn [Tree.kind new_mem] in Ki. rewrite TreeProofs.upN_other in Ki by (unfold n; lia).
      rewrite TreeProofs.upN_same in Ki. discriminate.
    + left; auto.
    + right. rewrite Kd in Ki by auto. auto.
  - intros i [<-|Hi]; [split; auto; right; right; left; auto|]. destruct (A4 i Hi) as [Di Ki]. split; [right; right; right; auto|].
    rewrite Kd; auto.
  - intros i Di. unfold new_colours, paint. cbn [Tree.col new_mem]. unfold upN.
    destruct (N.eqb i (b + 4)) eqn:X1; auto. destruct (N.eqb i (b + 1)) eqn:X2; auto. destruct (N.eqb i b) eqn:X3; auto.
    apply A5. destruct Di as [->|[->|[->|Di]]]; auto; rewrite N.eqb_refl in *; discriminate.
  - intros i [<-|Hi]; cbn [Tree.lf Tree.pf Tree.rf new_mem]; fold n.
    + rewrite !Un. unfold with_new. tauto.
    + rewrite !U by auto. destruct (A6 i Hi) as [P1 [P2 P3]]. unfold with_new. tauto.
  - constructor; cbn [Tree.dat new_mem]; fold n.
    + intros i j [<-|Hi] [<-|Hj]; rewrite ?Un, ?U by auto; auto; [destruct (Lb j Hj)|destruct (Lb i Hi)|apply (ap_b _ _ _ _ A7); auto]; lia.
    + intros i j [<-|Hi] [<-|Hj]; rewrite ?Un, ?U by auto; auto; [destruct (Lb j Hj)|destruct (Lb i Hi)|apply (ap_c _ _ _ _ A7); auto]; lia.
    + intros i j [<-|Hi] [<-|Hj]; rewrite ?Un, ?U by auto; [lia|destruct (Lb j Hj)|destruct (Lb i Hi)|apply (ap_bc _ _ _ _ A7); auto]; lia.
    + intros i j [<-|Hi] [<-|Hj]; rewrite ?Un, ?U by auto; [unfold n; lia|pose proof (Lns j Hj)|destruct (Lb i Hi); unfold n|apply (ap_bi _ _ _ _ A7); auto]; lia.
    + intros i j [<-|Hi] [<-|Hj]; rewrite ?Un, ?U by auto; [unfold n; lia|pose proof (Lns j Hj)|destruct (Lb i Hi); unfold n|apply (ap_ci _ _ _ _ A7); auto]; lia.
    + intros i j [<-|Hi] [<-|Hj]; rewrite ?Un, ?U by auto; [lia|destruct (Lb j Hj); lia|apply Kv_b; auto|apply (ap_bd _ _ _ _ A7); auto].
    + intros i j [<-|Hi] [<-|Hj]; rewrite ?Un, ?U by auto; [lia|destruct (Lb j Hj); lia|apply Kv_c; auto|apply (ap_cd _ _ _ _ A7); auto].
    + intros i j [<-|Hi] [<-|Hj]; rewrite ?Un, ?U by auto; [unfold n; lia|destruct (Lb j Hj); unfold n; lia|apply Kv_i; auto|apply (ap_id _ _ _ _ A7); auto].
Qed.

(** The part of a tree in memory that is still the tree. *)
Lemma sees_part : forall (D D' : N -> Prop) ns ns' bb cc wk cl h s, sees D ns bb cc wk cl h s ->
  (forall a, D' a -> D a) -> incl ns' ns -> (forall i, D' i -> In i ns -> In i ns') -> (forall i, In i ns' -> D' i) ->
  (forall i, In i ns' -> D' (Tree.lf s i) /\ D' (Tree.pf s i) /\ D' (Tree.rf s i)) ->
  sees D' ns' bb cc wk cl h s.
Proof.
  intros D D' ns ns' bb cc wk cl h s [A1 A2 A3 A4 A5 A6 A7] HD Hn Hm Hi Hc. constructor; auto.
  - intros i I. split; auto. apply A4; auto.
  - destruct A7 as [P1 P2 P3 P4 P5 P6 P7 P8].
    constructor; intros i j I J; [apply P1|apply P2|apply P3|apply P4|apply P5|apply P6|apply P7|apply P8]; auto.
Qed.
Lemma rt_closed : forall t s par (D : N -> Prop), rt s par t -> D par -> (forall a, In a (ids t) -> D a) ->
  forall i, In i (nodes t) -> D (Tree.lf s i) /\ D (Tree.pf s i) /\ D (Tree.rf s i).
Proof.
  induction t as [j|j l IHl r IHr]; intros s par D H Dp Hd i Hi; cbn [nodes] in Hi; [destruct Hi|].
  cbn [rt] in H. destruct H as [H1 [H2 [H3 [H4 [H5 H6]]]]].
  assert (Dl : forall a, In a (ids l) -> D a) by (intros a Ha; apply Hd; cbn [ids]; right; apply in_or_app; auto).
  assert (Dr : forall a, In a (ids r) -> D a) by (intros a Ha; apply Hd; cbn [ids]; right; apply in_or_app; auto).
  assert (Dj : D j) by (apply Hd; left; auto).
  apply in_app_iff in Hi. destruct Hi as [Hi|[<-|Hi]].
  - eapply IHl; eauto.
  - rewrite H2, H3, H4. split; [apply Dl, TreeProofs.tid_in_ids|]. split; auto. apply Dr, TreeProofs.tid_in_ids.
  - eapply IHr; eauto.
Qed.

(** ** What an operation leaves alone *)
(** [x] was a symbol and is one as long as it is there. *)
Definition symish (h : heap) (x : N) : Prop := (x < nxt h)%N /\ forall c, cells h x = Some c -> exists k, body c = KSym k.
(** Pairs at [b] and above refer only to cells at [b] and above, but for the values of symbols. *)
Definition high (b : N) (h : heap) : Prop :=
  forall a c x y, (b <= a)%N -> cells h a = Some c -> body c = KPair x y -> (b <= x)%N /\ ((b <= y)%N \/ symish h x).
Record evolves (b : N) (h h' : heap) : Prop := mkevolves {
  ev_nxt : (nxt h <= nxt h')%N;
  ev_aux : aux h' = aux h;
  ev_leaf : forall a c', (a < nxt h)%N -> cells h' a = Some c' ->
    exists c, cells h a = Some c /\ ((a < b)%N \/ is_pair_c c = false -> stored c' = stored c)
}.
Lemma evolves_refl : forall b h, evolves b h h.
Proof. intros b h. constructor; auto; [lia|]. intros a c' _ E. eauto. Qed.
Lemma evolves_trans : forall b h1 h2 h3, evolves b h1 h2 -> evolves b h2 h3 -> evolves b h1 h3.
Proof.
  intros b h1 h2 h3 [A1 A2 A4] [B1 B2 B4]. constructor; [lia|congruence|].
  intros a c3 L E. destruct (B4 a c3) as [c2 [E2 F2]]; [lia|auto|]. destruct (A4 a c2 L E2) as [c1 [E1 F1]].
  exists c1. split; auto. intros P. specialize (F1 P). rewrite F2; auto. destruct P as [P|P]; [auto|right].
  unfold stored in F1. injection F1 as Eb _ _. unfold is_pair_c in *. rewrite Eb; auto.
Qed.
Lemma evolves_set : forall b h a c c', cells h a = Some c -> (b <= a)%N -> is_pair_c c = true -> evolves b h (set_cell h a (Some c')).
Proof.
  intros b h a c c' E L P. constructor; cbn [nxt aux set_cell]; auto; [lia|].
  intros x cx _ Ex. destruct (N.eq_dec x a) as [->|Ne].
  - exists c. split; auto. intros [Q|Q]; [lia|congruence].
  - rewrite set_other in Ex by auto. eauto.
Qed.
Lemma symish_evolves : forall b h h' x, evolves b h h' -> symish h x -> symish h' x.
Proof.
  intros b h h' x [A1 _ A3] [L S]. split; [lia|]. intros c' E'. destruct (A3 x c' L E') as [c [E F]].
  destruct (S c E) as [k Bk]. exists k. assert (P : is_pair_c c = false) by (unfold is_pair_c; rewrite Bk; auto).
  specialize (F (or_intror P)). unfold stored in F. injection F as Eb _ _. congruence.
Qed.
Lemma symish_at : forall h x k, (exists c, cells h x = Some c /\ body c = KSym k) -> (x < nxt h)%N -> symish h x.
Proof. intros h x k [c [E B]] L. split; auto. intros c' E'. rewrite E in E'. injection E' as <-. eauto. Qed.
Lemma high_set : forall b h a c c', high b h -> cells h a = Some c -> (b <= a)%N -> is_pair_c c = true ->
  (forall x y, body c' = KPair x y -> (b <= x)%N /\ ((b <= y)%N \/ symish h x)) -> high b (set_cell h a (Some c')).
Proof.
  intros b h a c c' H Ea La P F z cz x y L E B. pose proof (evolves_set b h a c c' Ea La P) as Ev. destruct (N.eq_dec z a) as [->|Ne].
  - rewrite set_same in E. injection E as <-. destruct (F x y B) as [Q1 Q2]. split; auto. destruct Q2; auto. right. eapply symish_evolves; eauto.
  - rewrite set_other in E by auto. destruct (H z cz x y L E B) as [Q1 Q2]. split; auto. destruct Q2; auto. right. eapply symish_evolves; eauto.
Qed.
Lemma evolves_fresh : forall b h k, (b <= nxt h)%N -> (forall a, alive h a -> (a < nxt h)%N) -> evolves b h (fresh_heap h k).
Proof.
  intros b h k L Bd. constructor; [cbn; lia|auto|].
  intros a c' La E. rewrite fresh_old in E by lia. eauto.
Qed.
Lemma high_fresh : forall b h k, high b h -> (forall x y, k = KPair x y -> (b <= x)%N /\ ((b <= y)%N \/ symish h x)) -> high b (fresh_heap h k).
Proof.
  intros b h k H F z c x y L E B.
  assert (Sy : symish h x -> symish (fresh_heap h k) x).
  { intros [Lx Sx]. split; [cbn; lia|]. intros cx Ex. rewrite fresh_old in Ex by lia. auto. }
  assert (Q : (b <= x)%N /\ ((b <= y)%N \/ symish h x)).
  { destruct (N.eq_dec z (nxt h)) as [->|Ne].
    - rewrite fresh_new in E. injection E as <-. cbn in B. auto.
    - rewrite fresh_old in E by auto. eauto. }
  destruct Q as [Q1 [Q2|Q2]]; auto.
Qed.
Lemma new_node_evolves : forall b h h' p kv, new_node h h' p kv -> (b <= nxt h)%N -> (forall a, alive h' a -> (a < nxt h')%N) ->
  high b h -> (b <= p)%N -> (b <= kv)%N -> evolves b h h' /\ high b h'.
Proof.
  intros b h h' p kv [M1 M2 M3 M4 M5 M6 M7 M8] L Bd H Lp Lk.
  assert (Ev : evolves b h h') by (constructor; [lia|auto|]; intros a c' La E; rewrite M3 in E by auto; eauto).
  split; auto.
  intros a c x y La E B. destruct (N.ltb_spec a (nxt h)) as [Lt|Ge].
  { rewrite M3 in E by auto. destruct (H a c x y La E B) as [Q1 Q2]. split; auto. destruct Q2; auto. right. eapply symish_evolves; eauto. }
  assert (a < nxt h')%N by (apply Bd; unfold alive; congruence). rewrite M1 in *.
  assert (Ca : a = nxt h \/ a = (nxt h + 1)%N \/ a = (nxt h + 2)%N \/ a = (nxt h + 3)%N \/ a = (nxt h + 4)%N) by lia.
  destruct Ca as [->|[->|[->|[->| ->]]]]; [rewrite M4 in E|rewrite M5 in E|rewrite M6 in E|rewrite M7 in E|rewrite M8 in E];
    injection E as <-; cbn [body] in B; try discriminate; injection B as <- <-; split; try left; lia.
Qed.

(** Dropping a cell alters no cell that stays. *)
Lemma drop_shrinks : forall n a h h', drop n a h = Done tt h' -> shrinks h h'.
Proof.
  induction n as [|n IH]; intros a h h' E; [discriminate|]. cbn [drop] in E.
  unfold hbind_ at 1, rd at 1 in E. destruct (cells h a) as [c|] eqn:Ea; [|discriminate].
  destruct (refs c) as [|r]; [discriminate|].
  unfold hbind_ at 1, wr in E. rewrite Ea in E.
  set (h1 := set_cell h a (Some (with_refs c r))) in *.
  assert (E1 : shrinks h h1).
  { split; [auto|split; [auto|]]. intros x cx Ex. unfold h1 in Ex. destruct (N.eq_dec x a) as [->|Ne].
    - rewrite set_same in Ex. injection Ex as <-. exists c. auto.
    - rewrite set_other in Ex by auto. eauto. }
  assert (Rel : forall g g', release a g = Done tt g' -> shrinks g g').
  { intros g g' Eg. unfold release in Eg. destruct (cells g a) as [cg|] eqn:Ecg; [|discriminate]. injection Eg as <-.
    split; [auto|split; [auto|]]. intros x cx Ex. destruct (N.eq_dec x a) as [->|Ne]; [rewrite set_same in Ex; discriminate|].
    rewrite set_other in Ex by auto. eauto. }
  destruct r as [|r]; [|injection E as <-; auto].
  destruct (body c) as [| | | | | |x y] eqn:Bc; try (apply (shrinks_trans _ _ _ E1), Rel; auto; fail).
  assert (K : exists h2, (if weak c then done tt else drop n x) h1 = Done tt h2 /\ 
    hbind_ (rd a) (fun c' => match body c' with KPair _ y => hbind_ (drop n y) (fun _ => release a) | _ => wild end) h2 = Done tt h').
  { unfold hbind_ at 1 in E. destruct ((if weak c then done tt else drop n x) h1) as [[] h2| | | | |] eqn:E2; try discriminate. eauto. }
  destruct K as [h2 [K1 K2]].
  assert (E2 : shrinks h1 h2) by (destruct (weak c); [injection K1 as <-; apply shrinks_refl|eapply IH; eauto]).
  unfold hbind_ at 1, rd in K2. destruct (cells h2 a) as [c2|] eqn:Ea2; [|discriminate].
  destruct (body c2) as [| | | | | |x2 y2] eqn:Bc2; try discriminate.
  unfold hbind_ in K2. destruct (drop n y2 h2) as [[] h3| | | | |] eqn:E3; try discriminate.
  apply (shrinks_trans _ _ _ E1), (shrinks_trans _ _ _ E2), (shrinks_trans h2 h3); [eapply IH; eauto|apply Rel; auto].
Qed.
Lemma shrinks_evolves : forall b h h', shrinks h h' -> evolves b h h'.
Proof. intros b h h' [A [B C]]. constructor; auto; [lia|]. intros a c' _ E. destruct (C a c' E) as [c [Ec St]]. exists c. auto. Qed.
Lemma shrinks_high : forall b h h', shrinks h h' -> high b h -> high b h'.
Proof.
  intros b h h' Sh H a c' x y L E B. pose proof (shrinks_evolves b h h' Sh) as Ev. destruct Sh as [_ [_ Sc]].
  destruct (Sc a c' E) as [c [Ec St]]. unfold stored in St. injection St as Sb _ _.
  destruct (H a c x y L Ec) as [Q1 Q2]; [congruence|]. split; auto. destruct Q2; auto. right. eapply symish_evolves; eauto.
Qed.
Lemma X_high : forall b a h h', X a h = Done tt h' -> high b h -> evolves b h h' /\ high b h'.
Proof. intros b a h h' E H. unfold X in E. apply drop_shrinks in E. split; [apply shrinks_evolves|eapply shrinks_high]; eauto. Qed.
