(** * HTreeSim: the pairs of a tree in memory follow the nodes of [Tree.v]. *)
From Verif Require Import Value Heap HeapSpec HEval HTree.
From Verif Require Import HeapProofs.
From Verif Require Tree TreeProofs.
Import Tree(mem, Ok, Ub, NoFuel, NilC, NodeC, upN).
Open Scope heap_scope.

Lemma rbind_ok : forall {A B} (e : Tree.res A) (k : A -> Tree.res B) r, Tree.rbind e k = Ok r ->
  exists a, e = Ok a /\ k a = Ok r.
Proof. intros A B [a| |] k r E; cbn in E; try discriminate; eauto. Qed.

Lemma hbind_done : forall {A B} (m : HM A) (k : A -> HM B) h a h' , m h = Done a h' -> hbind_ m k h = k a h'.
Proof. intros A B m k h a h' E. unfold hbind_. rewrite E; auto. Qed.

Section Sim.
(** The cells of the tree: the addresses [D] of nodes and leaves, the nodes [ns] among
    them, and the second and third pair of each node. *)
Variable D : N -> Prop.
Variable ns : list N.
Variables bb cc : N -> N.
Variable wk : N -> bool.

Definition cell_of (h : heap) (a : N) (k : content) (w : bool) : Prop :=
  exists c, cells h a = Some c /\ body c = k /\ weak c = w.
Record node_at (h : heap) (s : mem) (i : N) : Prop := mknode_at {
  na_1 : cell_of h i (KPair (Tree.dat s i) (bb i)) false;
  na_2 : cell_of h (bb i) (KPair (Tree.lf s i) (cc i)) false;
  na_3 : cell_of h (cc i) (KPair (Tree.pf s i) (Tree.rf s i)) (wk i);
  na_d : exists k v, cell_of h (Tree.dat s i) (KPair k v) false /\ exists c, cells h k = Some c /\ body c = KSym (Tree.dkey s (Tree.dat s i))
}.
Record apart (s : mem) : Prop := mkapart {
  ap_b : forall i j, In i ns -> In j ns -> bb i = bb j -> i = j;
  ap_c : forall i j, In i ns -> In j ns -> cc i = cc j -> i = j;
  ap_bc : forall i j, In i ns -> In j ns -> bb i <> cc j;
  ap_bi : forall i j, In i ns -> In j ns -> bb i <> j;
  ap_ci : forall i j, In i ns -> In j ns -> cc i <> j;
  ap_bd : forall i j, In i ns -> In j ns -> bb i <> Tree.dat s j;
  ap_cd : forall i j, In i ns -> In j ns -> cc i <> Tree.dat s j;
  ap_id : forall i j, In i ns -> In j ns -> i <> Tree.dat s j
}.
Record sees (cl : colours) (h : heap) (s : mem) : Prop := mksees {
  se_nil : forall i, D i -> Tree.kind s i = NilC -> exists c, cells h i = Some c /\ body c = KNil;
  se_node : forall i, In i ns -> node_at h s i;
  se_ns : forall i, D i -> Tree.kind s i = NodeC -> In i ns;
  se_D : forall i, In i ns -> D i /\ Tree.kind s i = NodeC;
  se_col : forall i, D i -> cl i = Tree.col s i;
  se_close : forall i, In i ns -> D (Tree.lf s i) /\ D (Tree.pf s i) /\ D (Tree.rf s i);
  se_apart : apart s
}.

(** Only the second and third pairs change, and only their contents. *)
Definition links (h h' : heap) : Prop :=
  nxt h' = nxt h /\ aux h' = aux h /\
  forall a, cells h' a = cells h a \/
    ((exists i, In i ns /\ (a = bb i \/ a = cc i)) /\
     exists c c', cells h a = Some c /\ cells h' a = Some c' /\ refs c' = refs c /\ tail c' = tail c /\ weak c' = weak c).
Lemma links_refl : forall h, links h h.
Proof. intros h. split; [auto|split; [auto|]]. intros a; auto. Qed.
Lemma links_trans : forall h1 h2 h3, links h1 h2 -> links h2 h3 -> links h1 h3.
Proof.
  intros h1 h2 h3 [A [B C]] [A' [B' C']]. split; [congruence|]. split; [congruence|]. intros a.
  destruct (C a) as [E|[I [c [c' [E1 [E2 [E3 [E4 E5]]]]]]]], (C' a) as [E'|[I' [d [d' [F1 [F2 [F3 [F4 F5]]]]]]]].
  - left; congruence.
  - right. split; auto. exists d, d'. rewrite <- E. auto.
  - right. split; auto. exists c, c'. rewrite E'. auto.
  - right. split; auto. exists c, d'. rewrite E2 in F1. injection F1 as <-. repeat split; congruence.
Qed.

Lemma cell_keep : forall h h' a k w, cells h' a = cells h a -> cell_of h a k w -> cell_of h' a k w.
Proof. intros h h' a k w E [c H]. exists c. rewrite E; auto. Qed.

(** ** Reading *)
Section Read.
Variables (cl : colours) (h : heap) (s : mem).
Hypothesis S0 : sees cl h s.

Lemma l_null : forall x b, D x -> Tree.isnull s x = Ok b -> NULL x h = Done b h.
Proof.
  intros x b Dx E. unfold Tree.isnull in E. unfold NULL, test, hbind_, rd, done, is_nil_c.
  destruct (Tree.kind s x) eqn:K; try discriminate; injection E as <-.
  - destruct (se_nil _ _ _ S0 x Dx K) as [c [E1 E2]]. rewrite E1, E2; auto.
  - destruct (se_node _ _ _ S0 x (se_ns _ _ _ S0 x Dx K)) as [[c [E1 [E2 _]]] _ _ _]. rewrite E1, E2; auto.
Qed.
Lemma l_on : forall {A} x (v : A) r, Tree.on_node s x v = Ok r -> D x -> In x ns /\ v = r.
Proof.
  intros A x v r E Dx. unfold Tree.on_node in E. destruct (Tree.kind s x) eqn:K; try discriminate.
  injection E as <-. split; auto. apply (se_ns _ _ _ S0); auto.
Qed.
Lemma cdr_of_cell : forall a x y w, cell_of h a (KPair x y) w -> CDR a h = Done y h.
Proof. intros a x y w [c [E1 [E2 _]]]. unfold CDR, hbind_, rd, done. rewrite E1, E2; auto. Qed.
Lemma car_of_cell : forall a x y w, cell_of h a (KPair x y) w -> CAR a h = Done x h.
Proof. intros a x y w [c [E1 [E2 _]]]. unfold CAR, hbind_, rd, done. rewrite E1, E2; auto. Qed.
Lemma n_left : forall x, In x ns -> LEFT x h = Done (Tree.lf s x) h.
Proof.
  intros x I. destruct (se_node _ _ _ S0 x I) as [A B _ _]. unfold LEFT.
  rewrite (hbind_done _ _ _ _ _ (cdr_of_cell _ _ _ _ A)). apply (car_of_cell _ _ _ _ B).
Qed.
Lemma n_right : forall x, In x ns -> RIGHT x h = Done (Tree.rf s x) h.
Proof.
  intros x I. destruct (se_node _ _ _ S0 x I) as [A B C _]. unfold RIGHT.
  rewrite (hbind_done _ _ _ _ _ (cdr_of_cell _ _ _ _ A)), (hbind_done _ _ _ _ _ (cdr_of_cell _ _ _ _ B)).
  apply (cdr_of_cell _ _ _ _ C).
Qed.
Lemma n_parent : forall x, In x ns -> PARENT x h = Done (Tree.pf s x) h.
Proof.
  intros x I. destruct (se_node _ _ _ S0 x I) as [A B C _]. unfold PARENT.
  rewrite (hbind_done _ _ _ _ _ (cdr_of_cell _ _ _ _ A)), (hbind_done _ _ _ _ _ (cdr_of_cell _ _ _ _ B)).
  apply (car_of_cell _ _ _ _ C).
Qed.
Lemma n_data : forall x, In x ns -> DATA x h = Done (Tree.dat s x) h.
Proof. intros x I. destruct (se_node _ _ _ S0 x I) as [A _ _ _]. apply (car_of_cell _ _ _ _ A). Qed.
Lemma n_key : forall x, In x ns -> KEY x h = Done (Tree.dkey s (Tree.dat s x)) h.
Proof.
  intros x I. unfold KEY. rewrite (hbind_done _ _ _ _ _ (n_data x I)).
  destruct (se_node _ _ _ S0 x I) as [_ _ _ [k [v [A [c [E1 E2]]]]]].
  rewrite (hbind_done _ _ _ _ _ (car_of_cell _ _ _ _ A)).
  unfold symbol_of, hbind_, rd, done. rewrite E1, E2; auto.
Qed.
Lemma l_left : forall x y, D x -> Tree.left s x = Ok y -> LEFT x h = Done y h /\ D y.
Proof.
  intros x y Dx E. apply l_on in E; auto. destruct E as [I <-]. split; [apply n_left; auto|].
  destruct (se_close _ _ _ S0 x I) as [A [B C]]; auto.
Qed.
Lemma l_right : forall x y, D x -> Tree.right s x = Ok y -> RIGHT x h = Done y h /\ D y.
Proof.
  intros x y Dx E. apply l_on in E; auto. destruct E as [I <-]. split; [apply n_right; auto|].
  destruct (se_close _ _ _ S0 x I) as [A [B C]]; auto.
Qed.
Lemma l_parent : forall x y, D x -> Tree.parent s x = Ok y -> PARENT x h = Done y h /\ D y.
Proof.
  intros x y Dx E. apply l_on in E; auto. destruct E as [I <-]. split; [apply n_parent; auto|].
  destruct (se_close _ _ _ S0 x I) as [A [B C]]; auto.
Qed.
Lemma l_key : forall x y, D x -> Tree.nkey s x = Ok y -> KEY x h = Done y h.
Proof. intros x y Dx E. apply l_on in E; auto. destruct E as [I <-]. apply n_key; auto. Qed.
Lemma l_alive : forall x, D x -> Tree.kind s x <> Tree.Free -> exists c, cells h x = Some c.
Proof.
  intros x Dx K. destruct (Tree.kind s x) eqn:E; [congruence| |].
  - destruct (se_nil _ _ _ S0 x Dx E) as [c [H _]]; eauto.
  - destruct (se_node _ _ _ S0 x (se_ns _ _ _ S0 x Dx E)) as [[c [H _]] _ _ _]; eauto.
Qed.
Lemma l_colored : forall x b, D x -> Tree.colored s x = Ok b -> COLORED cl x h = Done b h.
Proof.
  intros x b Dx E. unfold Tree.colored in E. assert (K : Tree.kind s x <> Tree.Free) by (intros K; rewrite K in E; discriminate).
  destruct (l_alive x Dx K) as [c H]. unfold COLORED, hbind_, rd, done. rewrite H.
  rewrite (se_col _ _ _ S0 x Dx). destruct (Tree.kind s x); congruence.
Qed.
Lemma l_color : forall x b s', D x -> Tree.set_color s x b = Ok s' ->
  COLOR cl x b h = Done (paint cl x b) h /\ sees (paint cl x b) h s'.
Proof.
  intros x b s' Dx E. unfold Tree.set_color in E. assert (K : Tree.kind s x <> Tree.Free) by (intros K; rewrite K in E; discriminate).
  destruct (l_alive x Dx K) as [c H]. split; [unfold COLOR, hbind_, rd, done; rewrite H; auto|].
  assert (Es : s' = Tree.mkmem (Tree.kind s) (Tree.lf s) (Tree.pf s) (Tree.rf s) (upN (Tree.col s) x b)
    (Tree.dat s) (Tree.dkey s) (Tree.dval s) (Tree.nxt s)) by (destruct (Tree.kind s x); congruence).
  subst s'. destruct S0 as [A1 A2 A3 A4 A5 A6 A7]. constructor; auto.
  - intros i I. destruct (A2 i I) as [B1 B2 B3 B4]. constructor; auto.
  - intros i Di. cbn [Tree.col]. unfold paint, upN. destruct (N.eqb i x); auto.
  - destruct A7. constructor; auto.
Qed.
End Read.

(** ** Writing *)
Lemma set_car_done : forall h a c x y v, cells h a = Some c -> body c = KPair x y ->
  set_car a v h = Done tt (set_cell h a (Some (with_body c (KPair v y)))).
Proof. intros h a c x y v E1 E2. unfold set_car, hbind_, rd, wr. rewrite E1, E2, E1; auto. Qed.
Lemma set_cdr_done : forall h a c x y v, cells h a = Some c -> body c = KPair x y ->
  set_cdr a v h = Done tt (set_cell h a (Some (with_body c (KPair x v)))).
Proof. intros h a c x y v E1 E2. unfold set_cdr, hbind_, rd, wr. rewrite E1, E2, E1; auto. Qed.

Lemma links_set : forall h a c k, cells h a = Some c -> (exists i, In i ns /\ (a = bb i \/ a = cc i)) ->
  links h (set_cell h a (Some (with_body c k))).
Proof.
  intros h a c k E I. split; [auto|split; [auto|]]. intros z. destruct (N.eqb_spec z a) as [->|Ne].
  - right. split; auto. exists c, (with_body c k). rewrite set_same. auto.
  - left. apply set_other; auto.
Qed.

Lemma keep_other : forall h a c k x b w, cell_of h x b w -> x <> a -> cell_of (set_cell h a (Some (with_body c k))) x b w.
Proof. intros h a c k x b w H Ne. apply (cell_keep h); auto. apply set_other; auto. Qed.

Definition kept (s s' : mem) : Prop :=
  Tree.kind s' = Tree.kind s /\ Tree.col s' = Tree.col s /\ Tree.dat s' = Tree.dat s /\ Tree.dkey s' = Tree.dkey s.
Lemma sees_set : forall cl h s s' a c x y k, sees cl h s -> kept s s' ->
  cells h a = Some c -> body c = KPair x y -> 
  (exists i, In i ns /\ (a = bb i \/ a = cc i)) ->
  (forall i, In i ns -> cell_of (set_cell h a (Some (with_body c k))) (bb i) (KPair (Tree.lf s' i) (cc i)) false) ->
  (forall i, In i ns -> cell_of (set_cell h a (Some (with_body c k))) (cc i) (KPair (Tree.pf s' i) (Tree.rf s' i)) (wk i)) ->
  (forall i, In i ns -> D (Tree.lf s' i) /\ D (Tree.pf s' i) /\ D (Tree.rf s' i)) ->
  sees cl (set_cell h a (Some (with_body c k))) s'.
Proof.
  intros cl h s s' a c x y k [A1 A2 A3 A4 A5 A6 A7] [K1 [K2 [K3 K4]]] E1 E2 [j [J Ja]] Hb Hc Hd.
  assert (NI : forall i, In i ns -> i <> a).
  { intros i I ->. destruct Ja as [Ja|Ja]; [apply (ap_bi _ A7 j a J I)|apply (ap_ci _ A7 j a J I)]; auto. }
  assert (ND : forall i, In i ns -> Tree.dat s i <> a).
  { intros i I E. destruct Ja as [Ja|Ja]; [apply (ap_bd _ A7 j i J I)|apply (ap_cd _ A7 j i J I)]; congruence. }
  constructor.
  - intros i Di Ki. rewrite K1 in Ki. destruct (A1 i Di Ki) as [ci [B1 B2]]. exists ci. split; auto.
    rewrite set_other; auto. intros ->. congruence.
  - intros i I. destruct (A2 i I) as [B1 B2 B3 [kc [v [B4 [ck [B5 B6]]]]]]. constructor; auto.
    + rewrite K3. apply keep_other; auto.
    + exists kc, v. rewrite K3, K4. split; [apply keep_other; auto|]. exists ck. split; auto.
      rewrite set_other; auto. intros ->. congruence.
  - intros i Di Ki. rewrite K1 in Ki. auto.
  - intros i I. rewrite K1. auto.
  - intros i Di. rewrite K2. auto.
  - auto.
  - destruct A7. constructor; rewrite ?K3; auto.
Qed.

Lemma up_at : forall (f : N -> N) x v i (P : N -> Prop), (i = x -> P v) -> (i <> x -> P (f i)) -> P (upN f x v i).
Proof. intros f x v i P H1 H2. unfold upN. destruct (N.eqb_spec i x); auto. Qed.

Lemma l_set_left : forall cl h s x v s', sees cl h s -> D x -> D v -> Tree.set_left s x v = Ok s' ->
  exists h', SET_LEFT x v h = Done tt h' /\ sees cl h' s' /\ links h h'.
Proof.
  intros cl h s x v s' S0 Dx Dv E. apply (l_on cl h s S0) in E; auto. destruct E as [I <-].
  pose proof S0 as [A1 A2 A3 A4 A5 A6 A7]. destruct (A2 x I) as [B1 [c [E1 [E2 E3]]] _ _].
  eexists. unfold SET_LEFT. rewrite (hbind_done _ _ _ _ _ (cdr_of_cell _ _ _ _ _ B1)).
  rewrite (set_car_done h (bb x) c _ _ v E1 E2). split; [reflexivity|]. split; [|apply links_set; eauto].
  eapply sees_set; [exact S0|repeat split|exact E1|exact E2|exists x; auto| | |].
  - intros i Hi. cbn [Tree.lf]. destruct (N.eqb_spec i x) as [->|Ne].
    + rewrite TreeProofs.upN_same. exists (with_body c (KPair v (cc x))). rewrite set_same. auto.
    + rewrite TreeProofs.upN_other by auto. apply keep_other; [apply (na_2 _ _ _ (A2 i Hi))|].
      intros Eb. apply Ne, (ap_b _ A7); auto.
  - intros i Hi. cbn [Tree.pf Tree.rf]. apply keep_other; [apply (na_3 _ _ _ (A2 i Hi))|].
    intros Eb. apply (ap_bc _ A7 x i); auto.
  - intros i Hi. cbn [Tree.lf Tree.pf Tree.rf]. destruct (A6 i Hi) as [P1 [P2 P3]]. split; [|auto]. apply up_at; auto.
Qed.
Lemma l_set_parent : forall cl h s x v s', sees cl h s -> D x -> D v -> Tree.set_parent s x v = Ok s' ->
  exists h', SET_PARENT x v h = Done tt h' /\ sees cl h' s' /\ links h h'.
Proof.
  intros cl h s x v s' S0 Dx Dv E. apply (l_on cl h s S0) in E; auto. destruct E as [I <-].
  pose proof S0 as [A1 A2 A3 A4 A5 A6 A7]. destruct (A2 x I) as [B1 B2 [c [E1 [E2 E3]]] _].
  eexists. unfold SET_PARENT. rewrite (hbind_done _ _ _ _ _ (cdr_of_cell _ _ _ _ _ B1)), (hbind_done _ _ _ _ _ (cdr_of_cell _ _ _ _ _ B2)).
  rewrite (set_car_done h (cc x) c _ _ v E1 E2). split; [reflexivity|]. split; [|apply links_set; eauto].
  eapply sees_set; [exact S0|repeat split|exact E1|exact E2|exists x; auto| | |].
  - intros i Hi. cbn [Tree.lf]. apply keep_other; [apply (na_2 _ _ _ (A2 i Hi))|].
    intros Eb. apply (ap_bc _ A7 i x); auto.
  - intros i Hi. cbn [Tree.pf Tree.rf]. destruct (N.eqb_spec i x) as [->|Ne].
    + rewrite TreeProofs.upN_same. exists (with_body c (KPair v (Tree.rf s x))). rewrite set_same. auto.
    + rewrite TreeProofs.upN_other by auto. apply keep_other; [apply (na_3 _ _ _ (A2 i Hi))|].
      intros Eb. apply Ne, (ap_c _ A7); auto.
  - intros i Hi. cbn [Tree.lf Tree.pf Tree.rf]. destruct (A6 i Hi) as [P1 [P2 P3]]. split; [auto|split; [|auto]]. apply up_at; auto.
Qed.
Lemma l_set_right : forall cl h s x v s', sees cl h s -> D x -> D v -> Tree.set_right s x v = Ok s' ->
  exists h', SET_RIGHT x v h = Done tt h' /\ sees cl h' s' /\ links h h'.
Proof.
  intros cl h s x v s' S0 Dx Dv E. apply (l_on cl h s S0) in E; auto. destruct E as [I <-].
  pose proof S0 as [A1 A2 A3 A4 A5 A6 A7]. destruct (A2 x I) as [B1 B2 [c [E1 [E2 E3]]] _].
  eexists. unfold SET_RIGHT. rewrite (hbind_done _ _ _ _ _ (cdr_of_cell _ _ _ _ _ B1)), (hbind_done _ _ _ _ _ (cdr_of_cell _ _ _ _ _ B2)).
  rewrite (set_cdr_done h (cc x) c _ _ v E1 E2). split; [reflexivity|]. split; [|apply links_set; eauto].
  eapply sees_set; [exact S0|repeat split|exact E1|exact E2|exists x; auto| | |].
  - intros i Hi. cbn [Tree.lf]. apply keep_other; [apply (na_2 _ _ _ (A2 i Hi))|].
    intros Eb. apply (ap_bc _ A7 i x); auto.
  - intros i Hi. cbn [Tree.pf Tree.rf]. destruct (N.eqb_spec i x) as [->|Ne].
    + rewrite TreeProofs.upN_same. exists (with_body c (KPair (Tree.pf s x) v)). rewrite set_same. auto.
    + rewrite TreeProofs.upN_other by auto. apply keep_other; [apply (na_3 _ _ _ (A2 i Hi))|].
      intros Eb. apply Ne, (ap_c _ A7); auto.
  - intros i Hi. cbn [Tree.lf Tree.pf Tree.rf]. destruct (A6 i Hi) as [P1 [P2 P3]]. split; [auto|split; [auto|]]. apply up_at; auto.
Qed.

(** ** The operations *)
Definition follows {A} (cl : colours) (h : heap) (m : HM A) (a : A) (s' : mem) : Prop :=
  exists h', m h = Done a h' /\ sees cl h' s' /\ links h h'.
Lemma f_bind : forall {A B} cl cl' h (m : HM A) (k : A -> HM B) a s s' b, follows cl h m a s ->
  (forall h1, sees cl h1 s -> links h h1 -> follows cl' h1 (k a) b s') -> follows cl' h (hbind_ m k) b s'.
Proof.
  intros A B cl cl' h m k a s s' b [h1 [E [S1 L1]]] H. destruct (H h1 S1 L1) as [h2 [E2 [S2 L2]]].
  exists h2. rewrite (hbind_done _ _ _ _ _ E). split; auto. split; auto. eapply links_trans; eauto.
Qed.
Lemma f_read : forall {A B} cl h (m : HM A) (k : A -> HM B) a s' b, m h = Done a h ->
  follows cl h (k a) b s' -> follows cl h (hbind_ m k) b s'.
Proof. intros A B cl h m k a s' b E [h' H]. exists h'. rewrite (hbind_done _ _ _ _ _ E). auto. Qed.
Lemma f_done : forall {A} cl h (a : A) s, sees cl h s -> follows cl h (done a) a s.
Proof. intros A cl h a s S0. exists h. split; [auto|]. split; auto. apply links_refl. Qed.

Ltac inv E x F := apply rbind_ok in E; destruct E as [x [F E]].

Lemma f_lrot : forall cl h s root x r s', sees cl h s -> D x -> D root -> Tree.tree_lrot s root x = Ok (r, s') ->
  follows cl h (hlrot root x) r s' /\ D r.
Proof.
  intros cl h s root x r s' S0 Dx Dr E. unfold Tree.tree_lrot in E. unfold hlrot.
  inv E z Ez. pose proof (l_null cl h s S0 x z Dx Ez) as Hz.
  destruct z; [injection E as <- <-; split; auto; eapply f_read; [exact Hz|apply f_done; auto]|].
  inv E y Ey. destruct (l_right cl h s S0 x y Dx Ey) as [Hy Dy].
  inv E z2 Ez2. pose proof (l_null cl h s S0 y z2 Dy Ez2) as Hz2.
  destruct z2; [injection E as <- <-; split; auto; eapply f_read; [exact Hz|]; eapply f_read; [exact Hy|]; eapply f_read; [exact Hz2|]; apply f_done; auto|].
  inv E ly Ely. destruct (l_left cl h s S0 y ly Dy Ely) as [Hly Dly].
  inv E s1 E1. inv E z3 Ez3. inv E s2 E2. inv E px Epx. inv E s3 E3. inv E z4 Ez4. inv E ns4 E4.
  destruct ns4 as [next s4]. inv E s5 E5. inv E s6 E6. injection E as <- <-.
  assert (Dpx : D px).
  { apply (l_on cl h s S0) in Ey; auto. 
    destruct (l_set_right cl h s x ly s1 S0 Dx Dly E1) as [h1 [_ [S1 _]]].
    assert (exists h2, sees cl h2 s2) as [h2 S2].
    { destruct z3; [injection E2 as <-; eauto|].
      destruct (l_set_parent cl h1 s1 ly x s2 S1 Dly Dx E2) as [h2 [_ [S2 _]]]; eauto. }
    destruct (l_parent cl h2 s2 S2 x px Dx Epx); auto. }
  split.
  2:{ destruct z4; [injection E4 as <- _; auto|]. inv E4 lp Elp. inv E4 s4' Es4. injection E4 as <- _; auto. }
  eapply f_read; [exact Hz|]. eapply f_read; [exact Hy|]. eapply f_read; [exact Hz2|]. eapply f_read; [exact Hly|].
  eapply f_bind; [apply (l_set_right cl h s x ly s1 S0 Dx Dly E1)|]. intros h1 S1 _.
  eapply f_read; [apply (l_null cl h1 s1 S1 ly z3 Dly Ez3)|].
  eapply (f_bind cl cl h1 _ _ tt s2).
  { destruct z3; [injection E2 as <-; apply f_done; auto|]. apply (l_set_parent cl h1 s1 ly x s2 S1 Dly Dx E2). }
  intros h2 S2 _. eapply f_read; [apply (l_parent cl h2 s2 S2 x px Dx Epx)|].
  eapply f_bind; [apply (l_set_parent cl h2 s2 y px s3 S2 Dy Dpx E3)|]. intros h3 S3 _.
  eapply f_read; [apply (l_null cl h3 s3 S3 px z4 Dpx Ez4)|].
  eapply (f_bind cl cl h3 _ _ next s4).
  { destruct z4; [injection E4 as <- <-; apply f_done; auto|].
    inv E4 lp Elp. inv E4 s4' Es4. injection E4 as <- <-.
    eapply f_read; [apply (l_left cl h3 s3 S3 px lp Dpx Elp)|].
    eapply (f_bind cl cl h3 _ _ tt s4'); [|intros h4 S4 _; apply f_done; auto].
    destruct (N.eqb x lp).
    - apply (l_set_left cl h3 s3 px y s4' S3 Dpx Dy Es4).
    - apply (l_set_right cl h3 s3 px y s4' S3 Dpx Dy Es4). }
  intros h4 S4 _. eapply f_bind; [apply (l_set_left cl h4 s4 y x s5 S4 Dy Dx E5)|]. intros h5 S5 _.
  eapply f_bind; [apply (l_set_parent cl h5 s5 x y s6 S5 Dx Dy E6)|]. intros h6 S6 _. apply f_done; auto.
Qed.
Lemma f_rrot : forall cl h s root x r s', sees cl h s -> D x -> D root -> Tree.tree_rrot s root x = Ok (r, s') ->
  follows cl h (hrrot root x) r s' /\ D r.
Proof.
  intros cl h s root x r s' S0 Dx Dr E. unfold Tree.tree_rrot in E. unfold hrrot.
  inv E z Ez. pose proof (l_null cl h s S0 x z Dx Ez) as Hz.
  destruct z; [injection E as <- <-; split; auto; eapply f_read; [exact Hz|apply f_done; auto]|].
  inv E y Ey. destruct (l_left cl h s S0 x y Dx Ey) as [Hy Dy].
  inv E z2 Ez2. pose proof (l_null cl h s S0 y z2 Dy Ez2) as Hz2.
  destruct z2; [injection E as <- <-; split; auto; eapply f_read; [exact Hz|]; eapply f_read; [exact Hy|]; eapply f_read; [exact Hz2|]; apply f_done; auto|].
  inv E ly Ely. destruct (l_right cl h s S0 y ly Dy Ely) as [Hly Dly].
  inv E s1 E1. inv E z3 Ez3. inv E s2 E2. inv E px Epx. inv E s3 E3. inv E z4 Ez4. inv E ns4 E4.
  destruct ns4 as [next s4]. inv E s5 E5. inv E s6 E6. injection E as <- <-.
  assert (Dpx : D px).
  { destruct (l_set_left cl h s x ly s1 S0 Dx Dly E1) as [h1 [_ [S1 _]]].
    assert (exists h2, sees cl h2 s2) as [h2 S2].
    { destruct z3; [injection E2 as <-; eauto|].
      destruct (l_set_parent cl h1 s1 ly x s2 S1 Dly Dx E2) as [h2 [_ [S2 _]]]; eauto. }
    destruct (l_parent cl h2 s2 S2 x px Dx Epx); auto. }
  split.
  2:{ destruct z4; [injection E4 as <- _; auto|]. inv E4 lp Elp. inv E4 s4' Es4. injection E4 as <- _; auto. }
  eapply f_read; [exact Hz|]. eapply f_read; [exact Hy|]. eapply f_read; [exact Hz2|]. eapply f_read; [exact Hly|].
  eapply f_bind; [apply (l_set_left cl h s x ly s1 S0 Dx Dly E1)|]. intros h1 S1 _.
  eapply f_read; [apply (l_null cl h1 s1 S1 ly z3 Dly Ez3)|].
  eapply (f_bind cl cl h1 _ _ tt s2).
  { destruct z3; [injection E2 as <-; apply f_done; auto|]. apply (l_set_parent cl h1 s1 ly x s2 S1 Dly Dx E2). }
  intros h2 S2 _. eapply f_read; [apply (l_parent cl h2 s2 S2 x px Dx Epx)|].
  eapply f_bind; [apply (l_set_parent cl h2 s2 y px s3 S2 Dy Dpx E3)|]. intros h3 S3 _.
  eapply f_read; [apply (l_null cl h3 s3 S3 px z4 Dpx Ez4)|].
  eapply (f_bind cl cl h3 _ _ next s4).
  { destruct z4; [injection E4 as <- <-; apply f_done; auto|].
    inv E4 lp Elp. inv E4 s4' Es4. injection E4 as <- <-.
    eapply f_read; [apply (l_right cl h3 s3 S3 px lp Dpx Elp)|].
    eapply (f_bind cl cl h3 _ _ tt s4'); [|intros h4 S4 _; apply f_done; auto].
    destruct (N.eqb x lp).
    - apply (l_set_right cl h3 s3 px y s4' S3 Dpx Dy Es4).
    - apply (l_set_left cl h3 s3 px y s4' S3 Dpx Dy Es4). }
  intros h4 S4 _. eapply f_bind; [apply (l_set_right cl h4 s4 y x s5 S4 Dy Dx E5)|]. intros h5 S5 _.
  eapply f_bind; [apply (l_set_parent cl h5 s5 x y s6 S5 Dx Dy E6)|]. intros h6 S6 _. apply f_done; auto.
Qed.

Lemma f_descend : forall n cl h s k y x d, sees cl h s -> D x -> Tree.descend n s k y x = Ok d ->
  hdescend n k y x h = Done d h.
Proof.
  induction n as [|n IH]; intros cl h s k y x d S0 Dx E; [discriminate|]. cbn [Tree.descend hdescend] in *.
  inv E z Ez. rewrite (hbind_done _ _ _ _ _ (l_null cl h s S0 x z Dx Ez)).
  destruct z; [injection E as <-; auto|].
  inv E kx Ek. rewrite (hbind_done _ _ _ _ _ (l_key cl h s S0 x kx Dx Ek)).
  destruct (sym_compare k kx).
  - injection E as <-; auto.
  - inv E l El. destruct (l_left cl h s S0 x l Dx El) as [Hl Dl]. rewrite (hbind_done _ _ _ _ _ Hl). eapply IH; eauto.
  - inv E l El. destruct (l_right cl h s S0 x l Dx El) as [Hl Dl]. rewrite (hbind_done _ _ _ _ _ Hl). eapply IH; eauto.
Qed.
Lemma f_search : forall n cl h s k x d, sees cl h s -> D x -> Tree.search n s k x = Ok d ->
  hsearch n k x h = Done d h.
Proof.
  induction n as [|n IH]; intros cl h s k x d S0 Dx E; [discriminate|]. cbn [Tree.search hsearch] in *.
  inv E z Ez. rewrite (hbind_done _ _ _ _ _ (l_null cl h s S0 x z Dx Ez)).
  destruct z; [injection E as <-; auto|].
  inv E kx Ek. rewrite (hbind_done _ _ _ _ _ (l_key cl h s S0 x kx Dx Ek)).
  destruct (sym_match kx k); [injection E as <-; auto|].
  destruct (sym_compare kx k).
  - inv E l El. destruct (l_left cl h s S0 x l Dx El) as [Hl Dl]. rewrite (hbind_done _ _ _ _ _ Hl). eapply IH; eauto.
  - inv E l El. destruct (l_right cl h s S0 x l Dx El) as [Hl Dl]. rewrite (hbind_done _ _ _ _ _ Hl). eapply IH; eauto.
  - inv E l El. destruct (l_left cl h s S0 x l Dx El) as [Hl Dl]. rewrite (hbind_done _ _ _ _ _ Hl). eapply IH; eauto.
Qed.

Definition loops (h : heap) (m : HM (N * colours)) (r : N) (s' : mem) : Prop :=
  exists cl', follows cl' h m (r, cl') s' /\ D r.
Lemma lo_read : forall {A} h (m : HM A) (k : A -> HM (N * colours)) a r s', m h = Done a h ->
  loops h (k a) r s' -> loops h (hbind_ m k) r s'.
Proof. intros A h m k a r s' E [cl' [F Dr]]. exists cl'. split; auto. eapply f_read; eauto. Qed.
Lemma lo_bind : forall {A} cl h (m : HM A) (k : A -> HM (N * colours)) a s r s', follows cl h m a s ->
  (forall h1, sees cl h1 s -> loops h1 (k a) r s') -> loops h (hbind_ m k) r s'.
Proof.
  intros A cl h m k a s r s' [h1 [E [S1 L1]]] H. destruct (H h1 S1) as [cl' [[h2 [E2 [S2 L2]]] Dr]].
  exists cl'. split; auto. exists h2. rewrite (hbind_done _ _ _ _ _ E). split; auto. split; auto. eapply links_trans; eauto.
Qed.
Lemma f_loop : forall n cl h s next x node r s', sees cl h s -> D next -> D x -> D node ->
  Tree.add_check_loop n s next x node = Ok (r, s') -> loops h (hcheck_loop n cl next x node) r s'.
Proof.
  induction n as [|n IH]; intros cl h s next x node r s' S0 Dn Dx Dd E; [discriminate|].
  cbn [Tree.add_check_loop hcheck_loop] in *.
  destruct (N.eqb x next); [injection E as <- <-; exists cl; split; auto; apply f_done; auto|].
  inv E p Ep. destruct (l_parent cl h s S0 x p Dx Ep) as [Hp Dp]. eapply lo_read; [exact Hp|].
  inv E c Ec. eapply lo_read; [apply (l_colored cl h s S0 p c Dp Ec)|].
  destruct (negb c); [injection E as <- <-; exists cl; split; auto; apply f_done; auto|].
  inv E g Eg. destruct (l_parent cl h s S0 p g Dp Eg) as [Hg Dg]. eapply lo_read; [exact Hg|].
  inv E lg Elg. destruct (l_left cl h s S0 g lg Dg Elg) as [Hlg Dlg]. eapply lo_read; [exact Hlg|].
  destruct (N.eqb p lg).
  - inv E y Ey. destruct (l_right cl h s S0 g y Dg Ey) as [Hy Dy]. eapply lo_read; [exact Hy|].
    inv E cy Ecy. eapply lo_read; [apply (l_colored cl h s S0 y cy Dy Ecy)|]. destruct cy.
    + inv E s1 E1. destruct (l_color cl h s S0 p false s1 Dp E1) as [H1 S1]. eapply lo_read; [exact H1|].
      inv E s2 E2. destruct (l_color _ h s1 S1 y false s2 Dy E2) as [H2 S2]. eapply lo_read; [exact H2|].
      inv E s3 E3. destruct (l_color _ h s2 S2 g true s3 Dg E3) as [H3 S3]. eapply lo_read; [exact H3|].
      eapply IH; eauto.
    + inv E rp Erp. destruct (l_right cl h s S0 p rp Dp Erp) as [Hrp _]. eapply lo_read; [exact Hrp|].
      inv E t Et. destruct t as [[x1 next1] s1].
      assert (F : follows cl h (if N.eqb x rp then hbind_ (hlrot next node) (fun n => done (p, n)) else done (x, next)) (x1, next1) s1 /\ D x1 /\ D next1).
      { destruct (N.eqb x rp).
        - inv Et q Er. destruct q as [n1 s1']. injection Et as <- <- <-.
          destruct (f_lrot cl h s next node n1 s1' S0 Dd Dn Er) as [F Dn1]. split; [|auto].
          eapply f_bind; [exact F|]. intros h1 S1 _. apply f_done; auto.
        - injection Et as <- <- <-. split; [apply f_done; auto|auto]. }
      destruct F as [F [Dx1 Dn1]]. eapply lo_bind; [exact F|]. intros h1 S1. cbn [fst snd].
      inv E p1 Ep1. destruct (l_parent cl h1 s1 S1 x1 p1 Dx1 Ep1) as [Hp1 Dp1]. eapply lo_read; [exact Hp1|].
      inv E s2 E2. destruct (l_color cl h1 s1 S1 p1 false s2 Dp1 E2) as [H2 S2]. eapply lo_read; [exact H2|].
      inv E g1 Eg1. destruct (l_parent _ h1 s2 S2 p1 g1 Dp1 Eg1) as [Hg1 Dg1]. eapply lo_read; [exact Hg1|].
      inv E s3 E3. destruct (l_color _ h1 s2 S2 g1 true s3 Dg1 E3) as [H3 S3]. eapply lo_read; [exact H3|].
      inv E q Er. destruct q as [n2 s4]. destruct (f_rrot _ h1 s3 next1 g1 n2 s4 S3 Dg1 Dn1 Er) as [F4 Dn2].
      eapply lo_bind; [exact F4|]. intros h4 S4. eapply IH; eauto.
  - inv E y Ey. destruct (l_left cl h s S0 g y Dg Ey) as [Hy Dy]. eapply lo_read; [exact Hy|].
    inv E cy Ecy. eapply lo_read; [apply (l_colored cl h s S0 y cy Dy Ecy)|]. destruct cy.
    + inv E s1 E1. destruct (l_color cl h s S0 p false s1 Dp E1) as [H1 S1]. eapply lo_read; [exact H1|].
      inv E s2 E2. destruct (l_color _ h s1 S1 y false s2 Dy E2) as [H2 S2]. eapply lo_read; [exact H2|].
      inv E s3 E3. destruct (l_color _ h s2 S2 g true s3 Dg E3) as [H3 S3]. eapply lo_read; [exact H3|].
      eapply IH; eauto.
    + inv E rp Erp. destruct (l_left cl h s S0 p rp Dp Erp) as [Hrp _]. eapply lo_read; [exact Hrp|].
      inv E t Et. destruct t as [[x1 next1] s1].
      assert (F : follows cl h (if N.eqb x rp then hbind_ (hrrot next node) (fun n => done (p, n)) else done (x, next)) (x1, next1) s1 /\ D x1 /\ D next1).
      { destruct (N.eqb x rp).
        - inv Et q Er. destruct q as [n1 s1']. injection Et as <- <- <-.
          destruct (f_rrot cl h s next node n1 s1' S0 Dd Dn Er) as [F Dn1]. split; [|auto].
          eapply f_bind; [exact F|]. intros h1 S1 _. apply f_done; auto.
        - injection Et as <- <- <-. split; [apply f_done; auto|auto]. }
      destruct F as [F [Dx1 Dn1]]. eapply lo_bind; [exact F|]. intros h1 S1. cbn [fst snd].
      inv E p1 Ep1. destruct (l_parent cl h1 s1 S1 x1 p1 Dx1 Ep1) as [Hp1 Dp1]. eapply lo_read; [exact Hp1|].
      inv E s2 E2. destruct (l_color cl h1 s1 S1 p1 false s2 Dp1 E2) as [H2 S2]. eapply lo_read; [exact H2|].
      inv E g1 Eg1. destruct (l_parent _ h1 s2 S2 p1 g1 Dp1 Eg1) as [Hg1 Dg1]. eapply lo_read; [exact Hg1|].
      inv E s3 E3. destruct (l_color _ h1 s2 S2 g1 true s3 Dg1 E3) as [H3 S3]. eapply lo_read; [exact H3|].
      inv E q Er. destruct q as [n2 s4]. destruct (f_lrot _ h1 s3 next1 g1 n2 s4 S3 Dg1 Dn1 Er) as [F4 Dn2].
      eapply lo_bind; [exact F4|]. intros h4 S4. eapply IH; eauto.
Qed.
Lemma f_check : forall n cl h s root node r s', sees cl h s -> D root -> D node ->
  Tree.tree_add_check n s root node = Ok (r, s') -> loops h (hcheck n cl root node) r s'.
Proof.
  intros n cl h s root node r s' S0 Dr Dn E. unfold Tree.tree_add_check in E. inv E q Er. destruct q as [r1 s1].
  inv E s2 E2. injection E as <- <-. unfold hcheck.
  destruct (f_loop n cl h s root node node r1 s1 S0 Dr Dn Dn Er) as [cl1 [F D1]].
  eapply lo_bind; [exact F|]. intros h1 S1. cbn [fst snd].
  destruct (l_color cl1 h1 s1 S1 r1 false s2 D1 E2) as [H2 S2]. eapply lo_read; [exact H2|].
  exists (paint cl1 r1 false). split; auto. apply f_done; auto.
Qed.
End Sim.
