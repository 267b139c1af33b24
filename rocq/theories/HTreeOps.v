(** * HTreeOps: one definition in the tree of globals in memory. *)
From Verif Require Import Value ValueSpec ValueProofs Heap HeapSpec HEval HTree.
From Verif Require Import HeapProofs HeapOps HTreeSim HTreeCount HTreeProofs.
From Verif Require Tree TreeProofs.
Import Tree(mem, Ok, NilC, NodeC, upN).
Import TreeProofs(tr(..), tid, ids, nodes, height, rt, ctx(..), plug, pid, cids, cbefore, cafter, depth, okt, is_nd, key).
From Coq Require Import Permutation Sorting.Sorted.
Open Scope nat_scope.

Definition dom (sent : N) (t : tr) : N -> Prop := fun a => In a (sent :: ids t).
Definition but_root (t : tr) : N -> bool := fun i => negb (N.eqb i (tid t)).
Record tree_inv (h : heap) (cl : colours) (s : mem) (sent : N) (t : tr) (bb cc : N -> N) : Prop := mkti {
  ti_ok : okt s sent t;
  ti_nd : is_nd t;
  ti_col : Tree.col s (tid t) = false;
  ti_sort : ssorted (map (key s) (nodes t));
  ti_sees : sees (dom sent t) (nodes t) bb cc (but_root t) cl h s
}.
(** The values of the nodes [l]. *)
Definition val_of (h : heap) (d v : N) : Prop := exists kc, cell_of h d (KPair kc v) false.
Definition vals (h : heap) (s : mem) : list N -> list (symbol * N) -> Prop :=
  Forall2 (fun i e => fst e = key s i /\ val_of h (Tree.dat s i) (snd e)).

Lemma root_in : forall t, is_nd t -> In (tid t) (nodes t).
Proof. intros [i|i l r] H; [destruct H|]. cbn. apply in_or_app; right; left; auto. Qed.

Lemma tree_nosym : forall D ns bb cc wk cl h s, sees D ns bb cc wk cl h s ->
  (forall a, D a -> Tree.kind s a <> Tree.Free) -> forall x, D x -> exists c, cells h x = Some c /\ forall q, body c <> KSym q.
Proof.
  intros D ns bb cc wk cl h s [A1 A2 A3 A4 A5 A6 A7] LF x Dx. destruct (Tree.kind s x) eqn:Kx; [exfalso; apply (LF x); auto| |].
  - destruct (A1 x Dx Kx) as [c [E B]]. exists c. split; auto. intros q; congruence.
  - destruct (A2 x (A3 x Dx Kx)) as [[c [E [B _]]] _ _ _]. exists c. split; auto. intros q; congruence.
Qed.
Lemma high_pair : forall b h a c x y cx, high b h -> (b <= a)%N -> cells h a = Some c -> body c = KPair x y ->
  cells h x = Some cx -> (forall q, body cx <> KSym q) -> (b <= x)%N /\ (b <= y)%N.
Proof.
  intros b h a c x y cx H L E B Ex Nx. destruct (H a c x y L E B) as [Q1 [Q2|[_ Q2]]]; auto.
  exfalso. destruct (Q2 cx Ex) as [k Bk]. apply (Nx k); auto.
Qed.
Lemma node_high : forall D ns bb cc wk cl h s b i, sees D ns bb cc wk cl h s -> high b h ->
  (forall a, D a -> Tree.kind s a <> Tree.Free) -> In i ns -> (b <= i)%N ->
  (b <= Tree.dat s i)%N /\ (b <= bb i)%N /\ (b <= cc i)%N /\ (b <= Tree.lf s i)%N /\ (b <= Tree.pf s i)%N /\ (b <= Tree.rf s i)%N.
Proof.
  intros D ns bb cc wk cl h s b i S H LF I L.
  destruct (se_node _ _ _ _ _ _ _ _ S i I) as [[c1 [E1 [B1 _]]] [c2 [E2 [B2 _]]] [c3 [E3 [B3 _]]] [kc [v [[c4 [E4 [B4 _]]] _]]]].
  destruct (se_close _ _ _ _ _ _ _ _ S i I) as [D1 [D2 _]].
  destruct (tree_nosym _ _ _ _ _ _ _ _ S LF _ D1) as [cl1 [El Nl]]. destruct (tree_nosym _ _ _ _ _ _ _ _ S LF _ D2) as [cp [Ep Np]].
  destruct (high_pair b h i c1 _ _ c4 H L E1 B1 E4) as [P1 P2]; [intros q; congruence|].
  destruct (high_pair b h (bb i) c2 _ _ cl1 H P2 E2 B2 El Nl) as [P3 P4].
  destruct (high_pair b h (cc i) c3 _ _ cp H P4 E3 B3 Ep Np) as [P5 P6]. tauto.
Qed.
Lemma ids_high : forall D ns bb cc wk cl h s b, sees D ns bb cc wk cl h s -> high b h -> (forall a, D a -> Tree.kind s a <> Tree.Free) ->
  forall t par, rt s par t -> incl (nodes t) ns -> (b <= tid t)%N -> forall a, In a (ids t) -> (b <= a)%N.
Proof.
  intros D ns bb cc wk cl h s b S H LF. induction t as [j|j l IHl r IHr]; intros par Rt I L a Ha.
  - destruct Ha as [<-|[]]. exact L.
  - cbn [rt] in Rt. destruct Rt as [H1 [H2 [H3 [H4 [H5 H6]]]]]. cbn [tid] in L.
    destruct (node_high _ _ _ _ _ _ _ _ b j S H LF) as [_ [_ [_ [P4 [_ P6]]]]]; [apply I; cbn; apply in_or_app; right; left; auto|auto|].
    cbn [ids] in Ha. destruct Ha as [<-|Ha]; auto. apply in_app_iff in Ha. destruct Ha as [Ha|Ha].
    + apply (IHl j H5); auto; [|congruence]. intros x Hx. apply I. cbn. apply in_or_app; auto.
    + apply (IHr j H6); auto; [|congruence]. intros x Hx. apply I. cbn. apply in_or_app; right; right; auto.
Qed.
Lemma dom_live : forall s sent t, okt s sent t -> forall a, dom sent t a -> Tree.kind s a <> Tree.Free.
Proof. intros s sent t O a Ha. eapply TreeProofs.okt_live; eauto. Qed.
Lemma tree_high : forall bb cc wk cl h s b sent t, sees (dom sent t) (nodes t) bb cc wk cl h s -> high b h -> okt s sent t -> is_nd t ->
  (b <= tid t)%N -> forall a, dom sent t a -> (b <= a)%N.
Proof.
  intros bb cc wk cl h s b sent t S H O Nd L a Ha. pose proof (dom_live _ _ _ O) as LF. destruct O as [Rt _ _]. destruct Ha as [<-|Ha].
  - destruct (node_high _ _ _ _ _ _ _ _ b (tid t) S H LF (root_in t Nd) L) as [_ [_ [_ [_ [P _]]]]].
    destruct t as [|i l r]; [destruct Nd|]. cbn [rt] in Rt. cbn [tid] in P. destruct Rt as [_ [E _]]. congruence.
  - eapply ids_high; eauto. intros x; auto.
Qed.

(** The pair of a new definition is no part of the tree. *)
Lemma kv_apart : forall D ns bb cc wk cl h s kv k v, sees D ns bb cc wk cl h s -> pair_kv h kv k v ->
  (forall a, D a -> Tree.kind s a <> Tree.Free) -> forall i, In i ns -> i <> kv /\ bb i <> kv /\ cc i <> kv.
Proof.
  intros D ns bb cc wk cl h s kv k v [A1 A2 A3 A4 A5 A6 A7] [kc [Ckv [ck [Ek Bk]]]] LF i Hi.
  assert (Leaf : forall x, D x -> exists c, cells h x = Some c /\ forall q, body c <> KSym q).
  { intros x Dx. destruct (Tree.kind s x) eqn:Kx; [exfalso; apply (LF x); auto| |].
    - destruct (A1 x Dx Kx) as [c [E B]]. exists c. split; auto. intros q; congruence.
    - destruct (A2 x (A3 x Dx Kx)) as [[c [E [B _]]] _ _ _]. exists c. split; auto. intros q; congruence. }
  destruct (A2 i Hi) as [[c1 [E1 [B1 _]]] [c2 [E2 [B2 _]]] [c3 [E3 [B3 _]]] [kk [vv [[c4 [E4 [B4 _]]] _]]]].
  destruct Ckv as [c' [E' [B' _]]]. destruct (A6 i Hi) as [D1 [D2 _]].
  split; [|split]; intros Ei.
  - subst kv. rewrite E1 in E'. injection E' as <-. rewrite B1 in B'. injection B' as B' _. congruence.
  - rewrite Ei, E' in E2. injection E2 as <-. rewrite B2 in B'. injection B' as B' _. destruct (Leaf _ D1) as [c0 [E0 F0]].
    rewrite B', Ek in E0. injection E0 as <-. apply (F0 k); auto.
  - rewrite Ei, E' in E3. injection E3 as <-. rewrite B3 in B'. injection B' as B' _. destruct (Leaf _ D2) as [c0 [E0 F0]].
    rewrite B', Ek in E0. injection E0 as <-. apply (F0 k); auto.
Qed.

(** ** Linking *)
Lemma relinked_links : forall D ns bb cc wk cl i h h1 h2 s, relinked ns bb cc i h h1 -> sees D ns bb cc wk cl h1 s ->
  links ns bb cc h1 h2 -> relinked ns bb cc i h h2.
Proof.
  intros D ns bb cc wk cl i h h1 h2 s [A [B [C [c [r [E1 [E2 [E3 E4]]]]]]]] S [A' [B' C']].
  split; [congruence|]. split; [congruence|]. split.
  - intros a Na. destruct (C a Na) as [E|[I [d [d' [F1 [F2 [F3 [F4 F5]]]]]]]], (C' a) as [E'|[I' [e [e' [G1 [G2 [G3 [G4 G5]]]]]]]].
    + left; congruence.
    + right. split; auto. exists e, e'. rewrite <- E. auto.
    + right. split; auto. exists d, d'. rewrite E'. auto.
    + right. split; auto. exists d, e'. rewrite F2 in G1. injection G1 as <-. repeat split; congruence.
  - exists c, r. split; [auto|]. split; [auto|]. split; [auto|].
    destruct (C' i) as [E|[[j [Hj Ej]] [d [d' [F1 _]]]]]; [congruence|]. exfalso.
    assert (Pd : is_pair_c d = true).
    { destruct (se_node _ _ _ _ _ _ _ _ S j Hj) as [_ [c2 [X2 [B2 _]]] [c3 [X3 [B3 _]]] _]. unfold is_pair_c.
      destruct Ej as [->| ->]; rewrite F1 in *; [injection X2 as ->; rewrite B2|injection X3 as ->; rewrite B3]; auto. }
    rewrite F1 in E4. destruct r; [discriminate|]. injection E4 as ->. unfold is_pair_c in *. cbn [body with_refs] in Pd. congruence.
Qed.
Lemma links_evolves : forall D ns bb cc wk cl b i h h' s wk' cl' s', relinked ns bb cc i h h' -> sees D ns bb cc wk cl h s ->
  sees D ns bb cc wk' cl' h' s' -> high b h -> (forall a, D a -> Tree.kind s a <> Tree.Free) -> (forall a, D a -> (b <= a)%N) -> (b <= i)%N -> Tree.dat s' = Tree.dat s ->
  evolves b h h' /\ high b h'.
Proof.
  intros D ns bb cc wk cl b i h h' s wk' cl' s' [A [B [C [c [r [E1 [E2 [E3 E4]]]]]]]] S S' H LF HD Li Ed.
  assert (Hn : forall j, In j ns -> (b <= bb j)%N /\ (b <= cc j)%N).
  { intros j Hj. destruct (node_high _ _ _ _ _ _ _ _ b j S H LF Hj) as [_ [P [Q _]]]; auto. apply HD.
    apply (se_D _ _ _ _ _ _ _ _ S); auto. }
  assert (Pr : forall j, In j ns -> forall a d, (a = bb j \/ a = cc j) -> cells h a = Some d -> is_pair_c d = true).
  { intros j Hj a d Ea Ed'. destruct (se_node _ _ _ _ _ _ _ _ S j Hj) as [_ [c2 [X2 [B2 _]]] [c3 [X3 [B3 _]]] _]. unfold is_pair_c.
    destruct Ea as [->| ->]; rewrite Ed' in *; [injection X2 as ->; rewrite B2|injection X3 as ->; rewrite B3]; auto. }
  assert (Ev : evolves b h h').
  { constructor; [rewrite A; lia|auto|].
    intros a c' _ E. destruct (N.eq_dec a i) as [->|Na].
    - rewrite E4 in E. destruct r; [discriminate|]. injection E as <-. exists c. auto.
    - destruct (C a Na) as [Es|[[j [Hj Ej]] [d [d' [F1 [F2 _]]]]]]; [rewrite Es in E; eauto|].
      exists d. split; auto. destruct (Hn j Hj). intros [Lo|Np]; [destruct Ej; subst; lia|]. rewrite (Pr j Hj a d Ej F1) in Np. discriminate. }
  split; auto.
  intros a ca x y La Ea Ba. destruct (N.eq_dec a i) as [->|Na].
  - rewrite E4 in Ea. destruct r; [discriminate|]. injection Ea as <-. cbn in Ba. unfold is_pair_c in E3. rewrite Ba in E3. discriminate.
  - destruct (C a Na) as [Es|[[j [Hj Ej]] _]].
    { rewrite Es in Ea. destruct (H a ca x y La Ea Ba) as [Q1 Q2]. split; auto. destruct Q2; auto. right. eapply symish_evolves; eauto. }
    destruct (se_node _ _ _ _ _ _ _ _ S' j Hj) as [_ [c2 [X2 [B2 _]]] [c3 [X3 [B3 _]]] _].
    destruct (se_close _ _ _ _ _ _ _ _ S' j Hj) as [D1 [D2 D3]]. destruct (Hn j Hj) as [_ Q].
    destruct Ej as [->| ->]; rewrite Ea in *; [injection X2 as ->; rewrite B2 in Ba|injection X3 as ->; rewrite B3 in Ba];
      injection Ba as <- <-; split; auto.
Qed.

Lemma ids_swap : forall c i nn L r, Permutation (i :: ids (plug c (Nd nn (Lf L) (Lf r)))) (nn :: L :: r :: ids (plug c (Lf i))).
Proof.
  intros c i nn L r. rewrite !TreeProofs.ids_plug. cbn [ids app].
  apply (Permutation_middle [nn; L; r] (cids c) i).
Qed.

Section Finish.
Variables (D : N -> Prop) (ns : list N) (bb cc : N -> N).

Lemma finish : forall n cl0 cl h2 h5 s1 s3 sent c nn L r i R,
  correct h2 (sent :: nn :: tid (plug c (Lf i)) :: R) ->
  sees D ns bb cc (fun _ => true) cl0 h2 s1 -> relinked ns bb cc i h2 h5 ->
  sees D ns bb cc (fun _ => true) cl h5 s3 ->
  okt s3 sent (plug c (Nd nn (Lf L) (Lf r))) -> c <> Top -> depth c < n ->
  Tree.col s3 (tid (plug c (Lf i))) = false -> TreeProofs.bare s3 nn ->
  D (tid (plug c (Lf i))) -> D nn -> Tree.dat s3 = Tree.dat s1 -> Tree.dkey s3 = Tree.dkey s1 ->
  NoDup ns -> Permutation ns (nn :: nodes (plug c (Lf i))) -> rt s1 sent (plug c (Lf i)) ->
  Tree.lf s1 nn = L -> Tree.rf s1 nn = r ->
  exists cl' h6 s6 t', hcheck n cl (tid (plug c (Lf i))) nn h5 = Done (tid t', cl') h6 /\ okt s6 sent t' /\
    nodes t' = cbefore c ++ nn :: cafter c /\ Permutation (ids t') (ids (plug c (Nd nn (Lf L) (Lf r)))) /\
    sees D ns bb cc (fun _ => true) cl' h6 s6 /\ relinked ns bb cc i h2 h6 /\
    Tree.dat s6 = Tree.dat s1 /\ Tree.dkey s6 = Tree.dkey s1 /\ Tree.col s6 (tid t') = false /\
    correct h6 (tid t' :: sent :: R).
Proof.
  intros n cl0 cl h2 h5 s1 s3 sent c nn L r i R C S1 RL S3 O3 Ct Dp Hc Bare Dr Dn Ed Ek ND Pn Rt Ln Rn.
  set (T := plug c (Lf i)) in *.
  assert (Et : tid (plug c (Nd nn (Lf L) (Lf r))) = tid T) by (unfold T; apply TreeProofs.tid_plug; auto).
  destruct (TreeProofs.rebalance_loop_ok n s3 sent c nn (Lf L) (Lf r) nn O3 Dp) as [s4 [t' [E4 [[O4 [N4 [I4 [D1 [D2 [D3 [D4 D5]]]]]]] _]]]].
  { left. rewrite Et; auto. }
  { auto. }
  rewrite Et in E4.
  assert (EC : Tree.tree_add_check n s3 (tid T) nn = Ok (tid t', TreeProofs.with_col s4 (upN (Tree.col s4) (tid t') false))).
  { unfold Tree.tree_add_check. rewrite E4. cbn [Tree.rbind].
    rewrite TreeProofs.set_color_ok by (eapply TreeProofs.okt_live; [exact O4|right; apply TreeProofs.tid_in_ids]). reflexivity. }
  destruct (f_check D ns bb cc (fun _ => true) n cl h5 s3 (tid T) nn _ _ S3 Dr Dn EC) as [cl' [[h6 [E6 [S6 L6]]] _]].
  set (s6 := TreeProofs.with_col s4 (upN (Tree.col s4) (tid t') false)) in *.
  assert (O6 : okt s6 sent t') by (apply TreeProofs.okt_with_col; auto).
  assert (RL6 : relinked ns bb cc i h2 h6) by (eapply relinked_links; eauto).
  assert (Ed6 : Tree.dat s6 = Tree.dat s1) by (change (Tree.dat s6) with (Tree.dat s4); congruence).
  exists cl', h6, s6, t'. split; [exact E6|]. split; [exact O6|].
  split; [rewrite N4, TreeProofs.nodes_plug; auto|]. split; [exact I4|]. split; [exact S6|]. split; [exact RL6|].
  split; [exact Ed6|]. split; [change (Tree.dkey s6) with (Tree.dkey s4); congruence|].
  split; [unfold s6; cbn; apply TreeProofs.upN_same|].
  eapply (relinked_correct ns bb cc D i h2 h6 s1 s6 cl0 cl' T t' nn L r (sent :: R) sent); eauto.
  - eapply correct_perm; [exact C|]. intros a. cbn [cnt]. lia.
  - rewrite Pn, N4. unfold T. rewrite !TreeProofs.nodes_plug. cbn [nodes app]. symmetry. rewrite <- Permutation_middle. reflexivity.
  - destruct O6; auto.
  - rewrite I4. apply ids_swap.
Qed.
End Finish.

Lemma dropped_sees : forall D ns bb cc wk cl h h' s i, sees D ns bb cc wk cl h s -> dropped h h' i -> D i -> Tree.kind s i = NilC ->
  sees D ns bb cc wk cl h' (Tree.mkmem (upN (Tree.kind s) i Tree.Free) (Tree.lf s) (Tree.pf s) (Tree.rf s) (Tree.col s) (Tree.dat s) (Tree.dkey s) (Tree.dval s) (Tree.nxt s)).
Proof.
  intros D ns bb cc wk cl h h' s i [A1 A2 A3 A4 A5 A6 A7] [En [Ea [Ho [c [r [E [Er [Ep Ei]]]]]]]] Di Ki.
  destruct (A1 i Di Ki) as [c0 [E0 B0]]. rewrite E in E0. injection E0 as <-.
  assert (Keep : forall x x1 x2 w, cell_of h x (KPair x1 x2) w -> cell_of h' x (KPair x1 x2) w).
  { intros x x1 x2 w H. apply (cell_keep h); auto. apply Ho. intros ->. destruct H as [c' [H [B _]]]. congruence. }
  constructor; cbn [Tree.kind Tree.lf Tree.pf Tree.rf Tree.col Tree.dat Tree.dkey]; auto.
  - intros j Dj Kj. unfold upN in Kj. destruct (N.eqb_spec j i) as [X|X]; [discriminate|]. rewrite Ho by auto. auto.
  - intros j Hj. destruct (A2 j Hj) as [B1 B2 B3 [kc [v [B4 [ck [B5 B6]]]]]]. constructor; cbn [Tree.lf Tree.pf Tree.rf Tree.dat Tree.dkey]; auto.
    exists kc, v. split; [auto|]. exists ck. split; auto. rewrite Ho; auto. intros ->. congruence.
  - intros j Dj Kj. apply A3; auto. unfold upN in Kj. destruct (N.eqb j i); [discriminate|auto].
  - intros j Hj. destruct (A4 j Hj) as [Dj Kj]. split; auto. unfold upN. destruct (N.eqb_spec j i) as [->|]; [congruence|auto].
  - destruct A7. constructor; auto.
Qed.

Lemma plug_nd : forall c x l r i, plug c (Nd x l r) <> Lf i.
Proof.
  intros c x l r i E. assert (H : In x (nodes (plug c (Nd x l r)))).
  { rewrite TreeProofs.nodes_plug. cbn [nodes]. rewrite !in_app_iff. cbn; auto. }
  rewrite E in H. destruct H.
Qed.

Section Link.
Variables (D : N -> Prop) (ns : list N) (bb cc : N -> N).
Variables (cl : colours) (h2 : heap) (s1 : mem) (sent nn L r k : N) (R : list N).
Hypothesis S1 : sees D ns bb cc (fun _ => true) cl h2 s1.
Hypothesis C2 : correct h2 R.

Definition linked_in (n : nat) (c : ctx) (i : N) (m : HM N) : Prop :=
  exists h5 s3, m h2 = Done (tid (plug c (Lf i))) h5 /\ relinked ns bb cc i h2 h5 /\ sees D ns bb cc (fun _ => true) cl h5 s3 /\
    okt s3 sent (plug c (Nd nn (Lf L) (Lf r))) /\ Tree.dat s3 = Tree.dat s1 /\ Tree.dkey s3 = Tree.dkey s1 /\ Tree.col s3 = Tree.col s1 /\
    TreeProofs.bare s3 nn.

Lemma link_step : forall n c i, okt s1 sent (plug c (Lf i)) -> c <> Top ->
  Tree.kind s1 nn = NodeC -> Tree.lf s1 nn = L -> Tree.rf s1 nn = r -> Tree.kind s1 L = NilC -> Tree.kind s1 r = NilC ->
  NoDup (nn :: L :: r :: sent :: ids (plug c (Lf i))) -> (forall a, In a (nn :: L :: r :: sent :: ids (plug c (Lf i))) -> D a) ->
  (forall j, In j (cbefore c) -> sym_lt (key s1 j) (key s1 nn)) ->
  (forall j, In j (cafter c) -> sym_lt (key s1 nn) (key s1 j)) ->
  hdescend n (key s1 nn) (tid (plug c (Lf i))) (tid (plug c (Lf i))) h2 = Done (inl (pid c sent)) h2 ->
  linked_in n c i (hadd_node n (tid (plug c (Lf i))) nn).
Proof.
  intros n c i O1 Ct Kn Ln Rn KL Kr ND HD HB HA HE. set (T := plug c (Lf i)) in *.
  assert (Dn : D nn) by (apply HD; left; auto).
  assert (DT : D (tid T)) by (apply HD; right; right; right; right; apply TreeProofs.tid_in_ids).
  assert (Hin : In nn ns) by (apply (se_ns _ _ _ _ _ _ _ _ S1); auto).
  assert (Di : D i).
  { apply HD. right; right; right; right. apply (TreeProofs.in_plug c). left; auto. }
  assert (Ki : Tree.kind s1 i = NilC) by (pose proof (TreeProofs.plug_parts _ _ _ _ O1) as [_ RT]; exact RT).
  assert (KT : Tree.kind s1 (tid T) = NodeC /\ D (pid c sent) /\ Tree.kind s1 (pid c sent) = NodeC /\ In (pid c sent) (ids T)).
  { destruct c as [|c y rr|c y ll]; [congruence| |].
    - unfold T in *. cbn [plug pid] in *. pose proof (TreeProofs.okt_kind s1 sent c y (Lf i) rr O1) as Ky.
      assert (Iy : In y (ids (plug c (Nd y (Lf i) rr)))) by (apply (TreeProofs.in_plug c); left; auto).
      split; [|split; [apply HD; right; right; right; right; auto|auto]].
      destruct (plug c (Nd y (Lf i) rr)) as [j|j l0 r0] eqn:Ep; [|destruct O1 as [Q _ _]; cbn in Q; tauto].
      exfalso. exact (plug_nd _ _ _ _ _ Ep).
    - unfold T in *. cbn [plug pid] in *. pose proof (TreeProofs.okt_kind s1 sent c y ll (Lf i) O1) as Ky.
      assert (Iy : In y (ids (plug c (Nd y ll (Lf i))))) by (apply (TreeProofs.in_plug c); left; auto).
      split; [|split; [apply HD; right; right; right; right; auto|auto]].
      destruct (plug c (Nd y ll (Lf i))) as [j|j l0 r0] eqn:Ep; [|destruct O1 as [Q _ _]; cbn in Q; tauto].
      exfalso. exact (plug_nd _ _ _ _ _ Ep). }
  destruct KT as [KT [Dy [KY IY]]]. set (y := pid c sent) in *.
  assert (E2 : Tree.set_parent s1 nn y = Ok (Tree.mkmem (Tree.kind s1) (Tree.lf s1) (upN (Tree.pf s1) nn y) (Tree.rf s1) (Tree.col s1) (Tree.dat s1) (Tree.dkey s1) (Tree.dval s1) (Tree.nxt s1))).
  { unfold Tree.set_parent, Tree.on_node. rewrite Kn. auto. }
  destruct (l_set_parent D ns bb cc _ cl h2 s1 nn y _ S1 Dn Dy E2) as [h3 [H3 [S3 L3]]].
  set (s2 := Tree.mkmem (Tree.kind s1) (Tree.lf s1) (upN (Tree.pf s1) nn y) (Tree.rf s1) (Tree.col s1) (Tree.dat s1) (Tree.dkey s1) (Tree.dval s1) (Tree.nxt s1)) in *.
  assert (NnT : ~ In nn (ids T)).
  { inversion ND as [|? ? X _]; subst. intros H. apply X. right; right; right; auto. }
  assert (O2 : okt s2 sent T).
  { destruct O1 as [A B C]. constructor; auto. apply (TreeProofs.rt_ext T s1); auto.
    intros j Hj. unfold TreeProofs.same_at, s2; cbn [Tree.kind Tree.lf Tree.pf Tree.rf]. rewrite TreeProofs.upN_other; auto. intros ->. auto. }
  assert (Iy : In y ns) by (apply (se_ns _ _ _ _ _ _ _ _ S1); auto).
  (* the leaf is dropped *)
  destruct (se_nil _ _ _ _ _ _ _ _ S1 i Di Ki) as [ci [Ei Bi]].
  assert (Ei3 : cells h3 i = Some ci).
  { destruct L3 as [_ [_ L3]]. destruct (L3 i) as [E|[[j [Hj Ej]] _]]; [congruence|]. exfalso.
    destruct (se_node _ _ _ _ _ _ _ _ S1 j Hj) as [_ [c2 [X2 [B2 _]]] [c3 [X3 [B3 _]]] _].
    destruct Ej as [->| ->]; rewrite Ei in *; [injection X2 as ->|injection X3 as ->]; congruence. }
  destruct (counted _ _ C2 i ci Ei) as [_ Pi]. destruct (refs ci) as [|r0] eqn:Er; [lia|].
  assert (Np : is_pair_c ci = false) by (unfold is_pair_c; rewrite Bi; auto).
  destruct (X_drops h3 i ci r0 Ei3 Er Np) as [h4 [HX DR]].
  pose proof (dropped_sees D ns bb cc _ cl h3 h4 s2 i S3 DR Di Ki) as S4.
  set (s2' := Tree.mkmem (upN (Tree.kind s2) i Tree.Free) (Tree.lf s2) (Tree.pf s2) (Tree.rf s2) (Tree.col s2) (Tree.dat s2) (Tree.dkey s2) (Tree.dval s2) (Tree.nxt s2)) in *.
  assert (Nyi : y <> i) by (intros E; rewrite E in KY; congruence).
  assert (KY4 : Tree.kind s2' y = NodeC) by (unfold s2'; cbn [Tree.kind]; rewrite TreeProofs.upN_other by auto; auto).
  assert (RL : relinked ns bb cc i h2 h4).
  { destruct DR as [En [Ea [Ho [c0 [r1 [F1 [F2 [F3 F4]]]]]]]]. destruct L3 as [Ln3 [La3 L3]].
    split; [congruence|]. split; [congruence|]. split.
    - intros a Na. rewrite Ho by auto. destruct (L3 a) as [E|E]; auto.
    - rewrite Ei3 in F1. injection F1 as <-. exists ci, r1. auto. }
  assert (Nin : nn <> i) by (intros E; apply NnT; rewrite E; unfold T; apply (TreeProofs.in_plug c); left; auto).
  assert (NLi : L <> i /\ r <> i).
  { assert (Ii : In i (ids T)) by (unfold T; apply (TreeProofs.in_plug c); left; auto).
    inversion ND as [|? ? X1 ND1]; subst. inversion ND1 as [|? ? X2 ND2]; subst. inversion ND2 as [|? ? X3 ND3]; subst.
    split; intros E; [apply X2|apply X3]; rewrite E; cbn; auto. }
  assert (Nny : nn <> y) by (intros E; apply NnT; rewrite E; auto).
  assert (Nodes : forall q, hadd_node n (tid T) nn h2 = q <->
     (match sym_compare (key s1 nn) (key s1 y) with
      | Lt => hbind_ (LEFT y) (fun l => hbind_ (X l) (fun _ => hbind_ (SET_LEFT y nn) (fun _ => done (tid T))))
      | _ => hbind_ (RIGHT y) (fun l => hbind_ (X l) (fun _ => hbind_ (SET_RIGHT y nn) (fun _ => done (tid T)))) end) h3 = q).
  { intros q. unfold hadd_node. rewrite (hbind_done _ _ _ _ _ (l_null D ns bb cc _ cl h2 s1 S1 (tid T) false DT ltac:(unfold Tree.isnull; rewrite KT; auto))).
    rewrite (hbind_done _ _ _ _ _ (n_key D ns bb cc _ cl h2 s1 S1 nn Hin)). fold (key s1 nn).
    rewrite (hbind_done _ _ _ _ _ HE). rewrite (hbind_done _ _ _ _ _ H3).
    rewrite (hbind_done _ _ _ _ _ (n_key D ns bb cc _ cl h3 s2 S3 y Iy)).
    change (Tree.dkey s2 (Tree.dat s2 y)) with (key s1 y). tauto. }
  unfold linked_in. destruct c as [|c yy rr|c yy ll]; [congruence| |]; cbn [pid] in y.
  - assert (Ec : sym_compare (key s1 nn) (key s1 y) = Lt).
    { apply memcmp_lt. apply (HA y). cbn [cafter]. left; auto. }
    assert (Ly : Tree.lf s2 y = i).
    { destruct (TreeProofs.okt_at s2 sent c y (Lf i) rr O2) as [_ [_ [Q _]]].
      unfold Tree.left, Tree.on_node in Q. change (Tree.kind s2 y) with (Tree.kind s1 y) in Q. rewrite KY in Q. cbn [tid] in Q. congruence. }
    assert (E5 : Tree.set_left s2' y nn = Ok (Tree.mkmem (Tree.kind s2') (upN (Tree.lf s2') y nn) (Tree.pf s2') (Tree.rf s2') (Tree.col s2') (Tree.dat s2') (Tree.dkey s2') (Tree.dval s2') (Tree.nxt s2'))).
    { unfold Tree.set_left, Tree.on_node. rewrite KY4. auto. }
    destruct (l_set_left D ns bb cc _ cl h4 s2' y nn _ S4 Dy Dn E5) as [h5 [H5 [S5 L5]]].
    pose proof (TreeProofs.link_left s2 sent c y rr i nn L r O2 Kn (TreeProofs.upN_same _ _ _ _) Ln Rn KL Kr ND) as O3. cbv zeta in O3.
    eexists h5, _. split.
    { apply Nodes. rewrite Ec. rewrite (hbind_done _ _ _ _ _ (n_left D ns bb cc _ cl h3 s2 S3 y Iy)). rewrite Ly.
      rewrite (hbind_done _ _ _ _ _ HX), (hbind_done _ _ _ _ _ H5). reflexivity. }
    split; [eapply relinked_links; eauto|]. split; [exact S5|]. split; [exact O3|].
    split; [auto|]. split; [auto|]. split; [auto|]. unfold TreeProofs.bare. cbn [Tree.kind Tree.lf Tree.rf].
    unfold s2'. cbn [Tree.kind Tree.lf Tree.rf].
    rewrite (TreeProofs.upN_other _ (Tree.lf s2)) by auto. change (Tree.lf s2 nn) with (Tree.lf s1 nn). change (Tree.rf s2 nn) with (Tree.rf s1 nn).
    rewrite Ln, Rn. destruct NLi. rewrite !TreeProofs.upN_other by auto. split; [auto|]. split; auto.
  - assert (Ec : sym_compare (key s1 nn) (key s1 y) = Gt).
    { apply memcmp_gt. apply (HB y). cbn [cbefore]. apply in_or_app; right; apply in_or_app; right; left; auto. }
    assert (Ly : Tree.rf s2 y = i).
    { destruct (TreeProofs.okt_at s2 sent c y ll (Lf i) O2) as [_ [_ [_ Q]]].
      unfold Tree.right, Tree.on_node in Q. change (Tree.kind s2 y) with (Tree.kind s1 y) in Q. rewrite KY in Q. cbn [tid] in Q. congruence. }
    assert (E5 : Tree.set_right s2' y nn = Ok (Tree.mkmem (Tree.kind s2') (Tree.lf s2') (Tree.pf s2') (upN (Tree.rf s2') y nn) (Tree.col s2') (Tree.dat s2') (Tree.dkey s2') (Tree.dval s2') (Tree.nxt s2'))).
    { unfold Tree.set_right, Tree.on_node. rewrite KY4. auto. }
    destruct (l_set_right D ns bb cc _ cl h4 s2' y nn _ S4 Dy Dn E5) as [h5 [H5 [S5 L5]]].
    pose proof (TreeProofs.link_right s2 sent c y ll i nn L r O2 Kn (TreeProofs.upN_same _ _ _ _) Ln Rn KL Kr ND) as O3. cbv zeta in O3.
    eexists h5, _. split.
    { apply Nodes. rewrite Ec. rewrite (hbind_done _ _ _ _ _ (n_right D ns bb cc _ cl h3 s2 S3 y Iy)). rewrite Ly.
      rewrite (hbind_done _ _ _ _ _ HX), (hbind_done _ _ _ _ _ H5). reflexivity. }
    split; [eapply relinked_links; eauto|]. split; [exact S5|]. split; [exact O3|].
    split; [auto|]. split; [auto|]. split; [auto|]. unfold TreeProofs.bare. cbn [Tree.kind Tree.lf Tree.rf].
    unfold s2'. cbn [Tree.kind Tree.lf Tree.rf].
    rewrite (TreeProofs.upN_other _ (Tree.rf s2)) by auto. change (Tree.lf s2 nn) with (Tree.lf s1 nn). change (Tree.rf s2 nn) with (Tree.rf s1 nn).
    rewrite Ln, Rn. destruct NLi. rewrite !TreeProofs.upN_other by auto. split; [auto|]. split; auto.
Qed.
End Link.
