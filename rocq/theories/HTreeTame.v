(** * HTreeTame: no cycles of counted references above a given address. *)
From Verif Require Import Value Heap HeapSpec HEval HTree.
From Verif Require Import HeapProofs HeapOps HTreeSim HTreeCount HTreeProofs HTreeOps.
From Verif Require Tree TreeProofs.
Import Tree(mem, Ok, NilC, NodeC, upN).
Import TreeProofs(tr(..), tid, ids, nodes, rt).
From Coq Require Import Permutation Relations Wellfounded.
Open Scope nat_scope.

(** [x], at [b] or above, is held by [a]. *)
Definition held (b : N) (h : heap) (x a : N) : Prop := (b <= x)%N /\ In x (fields_at h a).
Definition tame (b : N) (h : heap) : Prop := forall a, (b <= a)%N -> Acc (held b h) a.
Definition leafy (h : heap) (a : N) : Prop := (a < nxt h)%N /\ fields_at h a = [].

Lemma leaf_acc : forall b h a, fields_at h a = [] -> Acc (held b h) a.
Proof. intros b h a E. constructor. intros x [_ Hx]. rewrite E in Hx. destruct Hx. Qed.
Lemma cell_leaf : forall h a c, cells h a = Some c -> is_pair_c c = false -> fields_at h a = [].
Proof. intros h a c E P. unfold fields_at. rewrite E. unfold fields, is_pair_c in *. destruct (body c); auto; discriminate. Qed.
Lemma dead_leaf : forall h a, cells h a = None -> fields_at h a = [].
Proof. intros h a E. unfold fields_at. rewrite E. auto. Qed.
Lemma leaf_cell : forall h a c, cells h a = Some c -> fields_at h a = [] -> is_pair_c c = false.
Proof. intros h a c E F. unfold fields_at in F. rewrite E in F. unfold fields, is_pair_c in *. destruct (body c); auto. destruct (weak c); discriminate. Qed.
Lemma leafy_evolves : forall b h h' a, evolves b h h' -> leafy h a -> leafy h' a.
Proof.
  intros b h h' a Ev [L F]. pose proof (ev_nxt _ _ _ Ev). split; [lia|]. destruct (cells h' a) as [c'|] eqn:E'; [|apply dead_leaf; auto].
  destruct (ev_leaf _ _ _ Ev a c' L E') as [c [E S]]. apply (cell_leaf h' a c'); auto. pose proof (leaf_cell h a c E F) as P. specialize (S (or_intror P)).
  unfold stored in S. injection S as S _ _. unfold is_pair_c in *. rewrite S. auto.
Qed.

(** Fields replaced by some of the old ones and by leaves. *)
Lemma tame_change : forall b h h', tame b h ->
  (forall a, (b <= a)%N -> (forall x, held b h' x a -> held b h x a \/ fields_at h' x = []) \/ Acc (held b h') a) -> tame b h'.
Proof.
  intros b h h' T C a. pose proof (T a) as A. intros L. specialize (A L). revert L. induction A as [a _ IH]. intros L.
  destruct (C a L) as [F|Q]; auto. constructor. intros x Hx. destruct (F x Hx) as [Hx'|Fx]; [|apply leaf_acc; auto].
  apply IH; auto. destruct Hx; auto.
Qed.
Lemma tame_shrinks : forall b h h', tame b h -> shrinks h h' -> tame b h'.
Proof.
  intros b h h' T [_ [_ S]]. apply (tame_change b h h' T). intros a L. left. intros x [Lx Hx]. left. split; auto. unfold fields_at in *.
  destruct (cells h' a) as [c'|] eqn:E'; [|destruct Hx]. destruct (S a c' E') as [c [E St]]. rewrite E. unfold stored in St. injection St as S1 _ S3.
  unfold fields in *. rewrite <- S1, <- S3. auto.
Qed.
Lemma tame_same : forall b h h', tame b h -> (forall a, fields_at h' a = fields_at h a) -> tame b h'.
Proof. intros b h h' T S. apply (tame_change b h h' T). intros a L. left. intros x Hx. left. unfold held in *. rewrite <- S. auto. Qed.
(** One cell replaced. *)
Lemma tame_set : forall b h a c', tame b h ->
  (forall x, In x (fields c') -> held b h x a \/ fields_at (set_cell h a (Some c')) x = []) -> tame b (set_cell h a (Some c')).
Proof.
  intros b h a c' T F. apply (tame_change b h _ T). intros q L. left. intros x [Lx Hx]. unfold fields_at in Hx.
  destruct (N.eq_dec q a) as [->|Nq]; [rewrite set_same in Hx; auto|]. rewrite set_other in Hx by auto. left. split; auto.
Qed.
(** More cells. *)
Lemma tame_old : forall b h h' R, tame b h -> correct h R -> (forall a, (a < nxt h)%N -> cells h' a = cells h a) ->
  forall a, (b <= a)%N -> (a < nxt h)%N -> Acc (held b h') a.
Proof.
  intros b h h' R T C S a L. pose proof (T a L) as A. revert L. induction A as [a _ IH]. intros L M. constructor. intros x [Lx Hx].
  assert (Hx' : In x (fields_at h a)) by (unfold fields_at in *; rewrite S in Hx by auto; auto).
  apply IH; auto; [split; auto|]. apply (bounded _ _ C). apply (fields_alive h R a x C Hx').
Qed.
Lemma tame_fresh : forall b h k R, tame b h -> correct h R -> (forall x, In x (kids k) -> (x < nxt h)%N) -> tame b (fresh_heap h k).
Proof.
  intros b h k R T C K. 
  assert (O : forall a, (b <= a)%N -> (a < nxt h)%N -> Acc (held b (fresh_heap h k)) a).
  { apply (tame_old b h _ R T C). intros a L. rewrite fresh_old; auto. lia. }
  intros a L. destruct (N.lt_trichotomy a (nxt h)) as [M|[M|M]]; auto.
  - subst a. constructor. intros x [Lx Hx]. unfold fields_at in Hx. rewrite fresh_new in Hx. assert (In x (kids k)).
    { unfold fields in Hx. cbn [body weak] in Hx. destruct k; auto. }
    apply O; auto.
  - apply leaf_acc. apply dead_leaf. rewrite fresh_old by lia. destruct (cells h a) eqn:E; auto.
    assert (a < nxt h)%N by (apply (bounded _ _ C); unfold alive; congruence). lia.
Qed.
Lemma tame_new : forall b h h' p kv R R', tame b h -> correct h R -> correct h' R' -> new_node h h' p kv ->
  (b <= kv)%N -> (kv < nxt h)%N -> tame b h'.
Proof.
  intros b h h' p kv R R' T C C' NN Lk Mk a L.
  assert (O : forall a, (b <= a)%N -> (a < nxt h)%N -> Acc (held b h') a) by (apply (tame_old b h _ R T C); apply (nn_old _ _ _ _ NN)).
  assert (A0 : Acc (held b h') (nxt h)) by (apply leaf_acc, (cell_leaf _ _ _ (nn_l _ _ _ _ NN)); auto).
  assert (A1 : Acc (held b h') (nxt h + 1)%N) by (apply leaf_acc, (cell_leaf _ _ _ (nn_r _ _ _ _ NN)); auto).
  assert (A2 : Acc (held b h') (nxt h + 2)%N).
  { constructor. intros x [_ Hx]. unfold fields_at in Hx. rewrite (nn_1 _ _ _ _ NN) in Hx. cbn in Hx. destruct Hx as [<-|[]]. auto. }
  assert (A3 : Acc (held b h') (nxt h + 3)%N).
  { constructor. intros x [_ Hx]. unfold fields_at in Hx. rewrite (nn_2 _ _ _ _ NN) in Hx. cbn in Hx. destruct Hx as [<-|[<-|[]]]; auto. }
  assert (A4 : Acc (held b h') (nxt h + 4)%N).
  { constructor. intros x [_ Hx]. unfold fields_at in Hx. rewrite (nn_3 _ _ _ _ NN) in Hx. cbn in Hx. destruct Hx as [<-|[<-|[]]]; auto. }
  destruct (N.ltb_spec a (nxt h)) as [M|M]; auto.
  destruct (N.eq_dec a (nxt h)) as [->|N0]; auto. destruct (N.eq_dec a (nxt h + 1)) as [->|N1]; auto.
  destruct (N.eq_dec a (nxt h + 2)) as [->|N2]; auto. destruct (N.eq_dec a (nxt h + 3)) as [->|N3]; auto.
  destruct (N.eq_dec a (nxt h + 4)) as [->|N4]; auto.
  apply leaf_acc, dead_leaf. destruct (cells h' a) eqn:E; auto.
  assert (X : (a < nxt h')%N) by (apply (bounded _ _ C'); unfold alive; congruence). rewrite (nn_nxt _ _ _ _ NN) in X. lia.
Qed.

(** A tree whose data are pairs of leaves or of cells below [b]. *)
Definition flat_data (b : N) (h : heap) (s : mem) (j : N) : Prop :=
  exists kc v, cell_of h (Tree.dat s j) (KPair kc v) false /\ fields_at h kc = [] /\ (v < b)%N.
Lemma cell_of_held : forall b h a x y w q, cell_of h a (KPair x y) w -> held b h q a -> (b <= q)%N /\ (q = y \/ (w = false /\ q = x)).
Proof.
  intros b h a x y w q [c [E [B W]]] [L Hq]. split; auto. unfold fields_at in Hq. rewrite E in Hq. unfold fields in Hq. rewrite B, W in Hq.
  destruct w; cbn in Hq; intuition.
Qed.
Lemma tree_acc : forall b D ns bb cc cl h s, sees D ns bb cc (fun _ => true) cl h s ->
  forall t par, rt s par t -> incl (nodes t) ns -> D (tid t) -> (forall j, In j (nodes t) -> flat_data b h s j) ->
  Acc (held b h) (tid t) /\ forall j, In j (nodes t) -> Acc (held b h) (bb j) /\ Acc (held b h) (cc j).
Proof.
  intros b D ns bb cc cl h s S. induction t as [i|i l IHl r IHr]; intros par Rt I Di F.
  - split; [|intros j []]. cbn [rt] in Rt. destruct (se_nil _ _ _ _ _ _ _ _ S i Di Rt) as [c [E B]].
    apply leaf_acc, (cell_leaf h i c); auto. unfold is_pair_c. rewrite B; auto.
  - cbn [rt] in Rt. destruct Rt as [H1 [H2 [H3 [H4 [H5 H6]]]]]. cbn [nodes] in *.
    assert (Hi : In i ns) by (apply I; apply in_or_app; right; left; auto).
    destruct (se_close _ _ _ _ _ _ _ _ S i Hi) as [D1 [_ D3]]. rewrite H3 in D1. rewrite H4 in D3.
    destruct (IHl i H5) as [Al Bl]; auto; [intros x Hx; apply I; apply in_or_app; auto|intros j Hj; apply F; apply in_or_app; auto|].
    destruct (IHr i H6) as [Ar Br]; auto; [intros x Hx; apply I; apply in_or_app; right; right; auto|intros j Hj; apply F; apply in_or_app; right; right; auto|].
    destruct (se_node _ _ _ _ _ _ _ _ S i Hi) as [N1 N2 N3 _]. rewrite H3 in N2. rewrite H4 in N3.
    assert (Ac : Acc (held b h) (cc i)).
    { constructor. intros q Hq. destruct (cell_of_held _ _ _ _ _ _ _ N3 Hq) as [_ [->|[X _]]]; [auto|discriminate]. }
    assert (Ab : Acc (held b h) (bb i)).
    { constructor. intros q Hq. destruct (cell_of_held _ _ _ _ _ _ _ N2 Hq) as [_ [->|[_ ->]]]; auto. }
    assert (Ad : Acc (held b h) (Tree.dat s i)).
    { destruct (F i) as [kc [v [Cd [Fk Fv]]]]; [apply in_or_app; right; left; auto|].
      constructor. intros q Hq. destruct (cell_of_held _ _ _ _ _ _ _ Cd Hq) as [Lq [->|[_ ->]]]; [lia|apply leaf_acc; auto]. }
    split.
    + cbn [tid]. constructor. intros q Hq. destruct (cell_of_held _ _ _ _ _ _ _ N1 Hq) as [_ [->|[_ ->]]]; auto.
    + intros j Hj. apply in_app_iff in Hj. destruct Hj as [Hj|[<-|Hj]]; auto.
Qed.
Lemma tame_relinked : forall b D ns bb cc i cl h h' s t par, tame b h -> relinked ns bb cc i h h' ->
  sees D ns bb cc (fun _ => true) cl h' s -> rt s par t -> (forall j, In j ns <-> In j (nodes t)) -> D (tid t) ->
  (forall j, In j ns -> flat_data b h' s j) -> tame b h'.
Proof.
  intros b D ns bb cc i cl h h' s t par T [_ [_ [Ro [c0 [r0 [F1 [F2 [F3 F4]]]]]]]] S Rt Ns Dt F.
  destruct (tree_acc b D ns bb cc cl h' s S t par Rt) as [_ Ac]; auto; [intros j Hj; apply Ns; auto|intros j Hj; apply F, Ns; auto|].
  apply (tame_change b h h' T). intros a L. destruct (N.eq_dec a i) as [->|Na].
  - left. intros x Hx. exfalso. destruct Hx as [_ Hx].
    assert (E : fields_at h' i = []).
    { destruct r0; [apply dead_leaf; auto|]. apply (cell_leaf _ _ _ F4). auto. }
    rewrite E in Hx. destruct Hx.
  - destruct (Ro a Na) as [E|[[j [Hj Ej]] _]].
    + left. intros x [Lx Hx]. left. split; auto. unfold fields_at in *. rewrite <- E. auto.
    + right. apply Ns in Hj. destruct (Ac j Hj). destruct Ej; subst a; auto.
Qed.

(** Nothing above [b] is left when the program holds nothing there. *)
Lemma acc_irrefl : forall (A : Type) (R : A -> A -> Prop) x, Acc R x -> ~ R x x.
Proof. intros A R x H. induction H as [x _ IH]. intros Hx. apply (IH x Hx Hx). Qed.
Lemma no_loop : forall b h x, tame b h -> (b <= x)%N -> ~ clos_trans N (held b h) x x.
Proof. intros b h x T L. apply acc_irrefl. apply Acc_clos_trans. auto. Qed.
Inductive chain (b : N) (h : heap) : list N -> Prop :=
| chain_one : forall a, chain b h [a]
| chain_more : forall p a l, held b h a p -> chain b h (a :: l) -> chain b h (p :: a :: l).
Lemma chain_down : forall b h l, chain b h l -> forall a l', l = a :: l' -> forall x, In x l' -> clos_trans N (held b h) x a.
Proof.
  intros b h l C. induction C as [q|p q l0 E C IH]; intros a l' El x Hx; injection El as <- <-; [destruct Hx|].
  destruct Hx as [<-|Hx]; [apply t_step; auto|]. apply (t_trans _ _ x q p); [apply (IH q l0); auto|apply t_step; auto].
Qed.
Lemma edge_owner : forall h x, In x (edges h) -> exists p, (p < nxt h)%N /\ In x (fields_at h p).
Proof.
  intros h x Hx. unfold edges in Hx. apply in_flat_map in Hx. destruct Hx as [p [Hp Hx]]. exists p. split; auto.
  unfold addresses in Hp. apply in_map_iff in Hp. destruct Hp as [n [<- Hn]]. apply in_seq in Hn. lia.
Qed.
Theorem nothing_left : forall b h R, correct h R -> tame b h -> (forall a, In a R -> (a < b)%N) ->
  (forall a x, (a < b)%N -> In x (fields_at h a) -> (x < b)%N) -> forall a, (b <= a)%N -> cells h a = None.
Proof.
  intros b h R C T Hr Hl a La. destruct (cells h a) as [c|] eqn:E; auto. exfalso.
  assert (Par : forall q, (b <= q)%N -> alive h q -> exists p, (b <= p)%N /\ alive h p /\ held b h q p).
  { intros q Lq Aq. unfold alive in Aq. destruct (cells h q) as [cq|] eqn:Eq; [|congruence]. destruct (counted _ _ C q cq Eq) as [K1 K2].
    assert (Z : cnt q R = 0). { destruct (cnt q R) eqn:Z; auto. assert (In q R) by (apply cnt_in; lia). specialize (Hr q H). lia. }
    assert (I : In q (edges h)) by (apply cnt_in; lia). destruct (edge_owner h q I) as [p [_ Hp]].
    exists p. split; [|split; [|split; auto]].
    - destruct (N.ltb_spec p b) as [X|X]; auto. specialize (Hl p q X Hp). lia.
    - intros Ep. rewrite dead_leaf in Hp by auto. destruct Hp. }
  assert (Paths : forall n, exists l, length l = S n /\ NoDup l /\ chain b h l /\ forall x, In x l -> (b <= x)%N /\ alive h x).
  { induction n as [|n [l [Len [ND [Ch Al]]]]].
    - exists [a]. split; auto. split; [constructor; [intros []|constructor]|]. split; [constructor|]. intros x [<-|[]]. split; auto. unfold alive; congruence.
    - destruct l as [|q l]; [discriminate|]. destruct (Al q (or_introl eq_refl)) as [Lq Aq]. destruct (Par q Lq Aq) as [p [Lp [Ap Hp]]].
      exists (p :: q :: l). split; [cbn [length] in *; lia|]. split.
      { constructor; auto. intros Hin. apply (no_loop b h q T Lq). destruct Hin as [->|Hin].
        - apply t_step; auto.
        - apply (t_trans _ _ q p q); [apply t_step; auto|]. apply (chain_down b h (q :: l) Ch q l eq_refl); auto. }
      split; [constructor; auto|]. intros x [<-|Hx]; auto. }
  destruct (Paths (N.to_nat (nxt h))) as [l [Len [ND [_ Al]]]].
  assert (Inc : incl l (addresses h)).
  { intros x Hx. destruct (Al x Hx) as [_ Ax]. apply (bounded _ _ C) in Ax. unfold addresses. apply in_map_iff.
    exists (N.to_nat x). split; [lia|]. apply in_seq. lia. }
  pose proof (NoDup_incl_length ND Inc) as Bound. unfold addresses in Bound. rewrite map_length, seq_length in Bound. lia.
Qed.
