(** * HTreeRun: histories of definitions, updates and lookups in memory. *)
From Verif Require Import Value ValueSpec ValueProofs Heap HeapSpec HEval HTree HTreeSpec.
From Verif Require Import HeapProofs HeapOps HTreeSim HTreeCount HTreeProofs HTreeOps HTreeTame HTreeAdd.
From Verif Require Tree TreeProofs.
Import Tree(mem, Ok, NilC, NodeC, upN).
Import TreeProofs(tr(..), tid, ids, nodes, height, rt, ctx(..), plug, pid, cids, cbefore, cafter, depth, okt, is_nd, key).
From Coq Require Import Permutation Sorting.Sorted.
Open Scope nat_scope.

(** ** The first definition *)
Definition first_mem (root : N) (cl : colours) : mem :=
  Tree.mkmem (fun a => if N.eqb a root then NilC else Tree.Free) (fun _ => 0%N) (fun _ => 0%N) (fun _ => 0%N) cl
    (fun _ => 0%N) (fun _ => []) (fun _ => Nil) 0%N.
Lemma hadd_first : forall b h cl root kv k v R n,
  correct h (root :: kv :: R) -> (exists c, cells h root = Some c /\ body c = KNil) -> pair_kv h kv k v ->
  high b h -> (b <= root)%N -> (b <= kv)%N -> 0 < n -> tame b h ->
  exists h' cl' s' t' bb' cc', hadd n cl root kv h = Done (tid t', cl') h' /\
    correct h' (tid t' :: R) /\ tree_inv h' cl' s' root t' bb' cc' /\ vals h' s' (nodes t') [(k, v)] /\
    evolves b h h' /\ high b h' /\ (b <= tid t')%N /\ tame b h'.
Proof.
  intros b h cl root kv k v R n C [cr [Er Br]] P H Lr Lk Hn Tm.
  set (s := first_mem root cl). set (D := fun a : N => a = root).
  assert (S0 : sees D [] (fun _ => 0%N) (fun _ => 0%N) (fun _ => true) cl h s).
  { constructor; try (intros i []; fail).
    - intros i -> _. eauto.
    - intros i -> K. unfold s, first_mem in K. cbn [Tree.kind] in K. rewrite N.eqb_refl in K. discriminate.
    - intros i _. reflexivity.
    - constructor; intros i j []. }
  assert (Al : alive h root) by (unfold alive; congruence).
  pose proof (bounded _ _ C) as Bd.
  destruct (hnew_ok h cl root kv root R C Al) as [h2 [HN [C2 NN]]].
  { left. split; eauto. }
  assert (LF : forall a, D a -> Tree.kind s a <> Tree.Free) by (intros a ->; unfold s, first_mem; cbn [Tree.kind]; rewrite N.eqb_refl; discriminate).
  pose proof (sees_new D [] _ _ cl h h2 s root kv k v S0 NN P Bd (fun a E => eq_ind_r (fun a => (a < nxt h)%N) (Bd root Al) E) LF eq_refl) as S2.
  set (nn := (nxt h + 4)%N) in *. set (s1 := new_mem s (nxt h) root kv k) in *.
  set (bb1 := upN (fun _ : N => 0%N) nn (nxt h + 3)%N) in *. set (cc1 := upN (fun _ : N => 0%N) nn (nxt h + 2)%N) in *.
  set (cl1 := new_colours cl (nxt h)) in *. set (t := Nd nn (Lf (nxt h)) (Lf (nxt h + 1)%N)).
  assert (Lrn : (root < nxt h)%N) by (apply Bd; auto).
  assert (Dn : with_new D (nxt h) nn) by (right; right; left; auto).
  assert (Kn : Tree.kind s1 nn = NodeC) by (unfold s1, new_mem, nn; cbn [Tree.kind]; rewrite TreeProofs.upN_same; auto).
  assert (SC : Tree.set_color s1 nn false = Ok (TreeProofs.with_col s1 (upN (Tree.col s1) nn false))) by (apply TreeProofs.set_color_ok; congruence).
  destruct (l_color _ _ _ _ _ cl1 h2 s1 S2 nn false _ Dn SC) as [EC S3].
  set (s3 := TreeProofs.with_col s1 (upN (Tree.col s1) nn false)) in *. set (cl3 := paint cl1 nn false) in *.
  assert (O3 : okt s3 root t).
  { apply TreeProofs.okt_with_col. constructor.
    - unfold t, s1, new_mem, nn. cbn [rt tid Tree.kind Tree.lf Tree.pf Tree.rf]. rewrite !TreeProofs.upN_same.
      rewrite (TreeProofs.upN_other _ _ (nxt h + 4)%N NodeC (nxt h)) by lia. rewrite (TreeProofs.upN_other _ _ (nxt h + 4)%N NodeC (nxt h + 1)%N) by lia.
      rewrite (TreeProofs.upN_other _ _ (nxt h + 1)%N NilC (nxt h)) by lia. rewrite !TreeProofs.upN_same. tauto.
    - unfold s1, new_mem, s, first_mem. cbn [Tree.kind]. rewrite !TreeProofs.upN_other by lia. rewrite N.eqb_refl. auto.
    - unfold t, nn. cbn [ids app]. constructor; [cbn [In]; lia|]. constructor; [cbn [In]; lia|]. constructor; [cbn [In]; lia|]. constructor; [intros []|constructor]. }
  assert (S3' : sees (dom root t) (nodes t) bb1 cc1 (fun _ => true) cl3 h2 s3).
  { apply (sees_part (with_new D (nxt h)) (dom root t) [nn] (nodes t)); auto.
    - intros a [<-|[<-|[<-|[<-|[]]]]]; [right; right; right; reflexivity|auto|left; auto|right; left; auto].
    - intros j Hj; exact Hj.
    - intros j Hj. right. apply TreeProofs.nodes_in_ids; auto.
    - intros j Hj. destruct O3 as [Rt3 _ _]. apply (rt_closed t s3 root); auto; [left; auto|intros a Ha; right; auto]. }
  assert (Ir : In nn (nodes t)) by (left; auto).
  destruct (se_node _ _ _ _ _ _ _ _ S3' nn Ir) as [M1 M2 [c3 [E3 [B3 W3]]] M4].
  assert (Pf : Tree.pf s3 nn = root) by (unfold s3, s1, new_mem; cbn [TreeProofs.with_col Tree.pf]; unfold nn; rewrite TreeProofs.upN_same; auto).
  rewrite Pf in B3.
  set (h3 := set_cell h2 (cc1 nn) (Some (with_weak c3 false))).
  assert (TW : to_weak false nn h2 = Done tt h3) by (eapply (to_weak_done h2 nn); eauto).
  assert (C3 : correct h3 (nn :: R)).
  { apply (correct_set h2 (cc1 nn) c3 (with_weak c3 false) (root :: nn :: R)); auto.
    intros x. unfold fields. cbn [body weak with_weak]. rewrite B3, W3. cbn [cnt]. lia. }
  assert (S4 : sees (dom root t) (nodes t) bb1 cc1 (but_root t) cl3 h3 s3).
  { apply (sees_weak (dom root t) (nodes t) bb1 cc1 (fun _ => true)); auto.
    - unfold but_root. rewrite N.eqb_refl; auto.
    - intros j Hj Nj. unfold but_root. apply N.eqb_neq in Nj. cbn [tid t] in *. rewrite Nj; auto. }
  destruct (new_node_evolves b h h2 root kv NN) as [Ev2 H2]; auto; [lia|intros a Ha; apply (bounded _ _ C2); auto|].
  assert (Ecc : cc1 nn = (nxt h + 2)%N) by (unfold cc1; rewrite TreeProofs.upN_same; auto).
  assert (Ev3 : evolves b h2 h3).
  { apply (evolves_set b h2 (cc1 nn) c3); auto; [rewrite Ecc; lia|]. unfold is_pair_c. rewrite B3; auto. }
  assert (H3 : high b h3).
  { apply (high_set b h2 (cc1 nn) c3); auto; [rewrite Ecc; lia|unfold is_pair_c; rewrite B3; auto|].
    intros x y Bx. cbn [body with_weak] in Bx. apply (H2 (cc1 nn) c3 x y); auto. rewrite Ecc; lia. }
  assert (Dat : Tree.dat s3 nn = kv) by (unfold s3, s1, new_mem, nn; cbn [TreeProofs.with_col Tree.dat]; rewrite TreeProofs.upN_same; auto).
  assert (Key : key s3 nn = k) by (unfold key; rewrite Dat; unfold s3, s1, new_mem; cbn [TreeProofs.with_col Tree.dkey]; rewrite TreeProofs.upN_same; auto).
  exists h3, cl3, s3, t, bb1, cc1. split.
  { unfold hadd.
    assert (NR : NULL root h = Done true h) by (rewrite (null_cell h root cr Er); unfold is_nil_c; rewrite Br; auto).
    assert (TW0 : to_weak true root h = Done tt h) by (unfold to_weak; rewrite (hbind_done _ _ _ _ _ NR); reflexivity).
    rewrite (hbind_done _ _ _ _ _ TW0), (hbind_done _ _ _ _ _ HN). cbn [fst snd].
    pose proof (nn_3 _ _ _ _ NN) as Q3. fold nn in Q3.
    assert (CO : COLOR (paint (paint (paint cl (nxt h) false) (nxt h + 1) false) nn false) nn true h2 = Done cl1 h2).
    { unfold COLOR, hbind_, rd. rewrite Q3. reflexivity. }
    rewrite (hbind_done _ _ _ _ _ CO).
    assert (Er2 : cells h2 root = Some cr) by (rewrite (nn_old _ _ _ _ NN); auto).
    assert (NR2 : NULL root h2 = Done true h2) by (rewrite (null_cell h2 root cr Er2); unfold is_nil_c; rewrite Br; auto).
    assert (HA : hadd_node n root nn h2 = Done nn h2) by (unfold hadd_node; rewrite (hbind_done _ _ _ _ _ NR2); reflexivity).
    rewrite (hbind_done _ _ _ _ _ HA).
    assert (TT : test is_true_c nn h2 = Done false h2) by (unfold test, hbind_, rd; rewrite Q3; reflexivity).
    rewrite (hbind_done _ _ _ _ _ TT).
    assert (HC : hcheck n cl1 nn nn h2 = Done (nn, cl3) h2).
    { unfold hcheck. destruct n as [|n]; [lia|]. cbn [hcheck_loop]. rewrite N.eqb_refl.
      rewrite (hbind_done (done (nn, cl1)) _ h2 _ h2 eq_refl). cbn [fst snd]. rewrite (hbind_done _ _ _ _ _ EC). reflexivity. }
    rewrite (hbind_done _ _ _ _ _ HC). cbn [fst]. rewrite (hbind_done _ _ _ _ _ TW). reflexivity. }
  split; [exact C3|]. split.
  { constructor; auto; [exact I|unfold s3; cbn [TreeProofs.with_col Tree.col tid t]; rewrite TreeProofs.upN_same; auto|].
    cbn. constructor; constructor. }
  split.
  { constructor; [|constructor]. cbn [fst snd]. split; [auto|]. rewrite Dat. destruct P as [kc [[c0 [E0 [B0 W0]]] _]]. exists kc, c0.
    split; auto. unfold h3. rewrite Ecc. assert (kv < nxt h)%N by (apply Bd; unfold alive; congruence). rewrite set_other by lia.
    rewrite (nn_old _ _ _ _ NN); auto. }
  split; [apply (evolves_trans b h h2); auto|]. split; auto. split; [cbn [tid t]; unfold nn; lia|].
  apply (unweak_tame b h2 (dom root t) (nodes t) bb1 cc1 (fun _ => true) cl3 s3 nn c3); auto; [|rewrite Pf; destruct O3; auto].
  apply (tame_new b h h2 root kv _ _ Tm C C2 NN); auto. destruct P as [kc [[c0 [E0 _]] _]]. apply Bd. unfold alive; congruence.
Qed.

(** ** Tables *)
Inductive globe (b : N) (h : heap) (cl : colours) (root : N) (m : list (symbol * N)) : Prop :=
| globe_nil : (exists c, cells h root = Some c /\ body c = KNil) -> m = [] -> globe b h cl root m
| globe_tree : forall s sent t bb cc, tree_inv h cl s sent t bb cc -> tid t = root -> vals h s (nodes t) m ->
    (forall e, In e m -> (snd e < b)%N) -> globe b h cl root m.

Lemma vals_alive : forall h s l e R, vals h s l e -> correct h R -> forall x, In x e -> alive h (snd x).
Proof.
  intros h s l e R V C. induction V as [|i x l e [H1 [kc H2]] V IH]; intros y Hy; [destruct Hy|]. destruct Hy as [<-|Hy]; auto.
  apply (cell_fields h R _ _ _ _ C H2).
Qed.
Lemma vals_grow : forall h h' s l e, vals h s l e -> (forall a c, cells h a = Some c -> cells h' a = Some c) -> vals h' s l e.
Proof. intros h h' s l e V G. apply (vals_cells h h'); auto. intros j k v Hj [c [E Q]]. exists c; auto. Qed.
Lemma globe_grow : forall b h h' cl root m, globe b h cl root m -> (forall a c, cells h a = Some c -> cells h' a = Some c) -> globe b h' cl root m.
Proof.
  intros b h h' cl root m [[c [E B]] M|s sent t bb cc [O Nd Hc So S] Et V U] G.
  - apply globe_nil; auto. exists c; auto.
  - apply (globe_tree b h' cl root m s sent t bb cc); auto; [|apply (vals_grow h); auto].
    constructor; auto. apply (sees_grow _ _ _ _ _ _ h); auto.
Qed.
(** Dropping other cells. *)
Lemma globe_shrinks : forall b h h' cl root m R, globe b h cl root m -> shrinks h h' -> correct h' (root :: R) -> globe b h' cl root m.
Proof.
  intros b h h' cl root m R [[c [E B]] M|s sent t bb cc [O Nd Hc So S] Et V U] Sh C.
  - apply globe_nil; auto. assert (A : alive h' root) by (apply (correct_alive _ _ _ C); left; auto).
    assert (Q : cell_of h' root KNil (weak c)) by (apply (shrink_cell h h'); auto; exists c; auto).
    destruct Q as [c' [E' [B' _]]]. exists c'; auto.
  - assert (A : alive h' (tid t)) by (rewrite Et; apply (correct_alive _ _ _ C); left; auto).
    assert (S' : sees (dom sent t) (nodes t) bb cc (but_root t) cl h' s).
    { apply (sees_shrinks bb cc (but_root t) cl h h' s sent t (root :: R)); auto. unfold but_root. rewrite N.eqb_refl; auto. }
    assert (V' : vals h' s (nodes t) m).
    { apply (vals_shrink h h'); auto. intros j Hj.
      destruct (na_d _ _ _ _ _ _ (se_node _ _ _ _ _ _ _ _ S' j Hj)) as [kc [vv [[c4 [X4 _]] _]]]. unfold alive. congruence. }
    apply (globe_tree b h' cl root m s sent t bb cc); auto. constructor; auto.
Qed.

(** ** One definition *)
Lemma put_length : forall A k (v : A) l, length (put k v l) <= S (length l).
Proof. intros A k v l. induction l as [|[k' v'] l IH]; cbn [put length]; auto. destruct (sym_compare k k'); cbn [length]; lia. Qed.
Lemma put_all : forall (P : N -> Prop) k v l, P v -> (forall e, In e l -> P (snd e)) -> forall e : symbol * N, In e (put k v l) -> P (snd e).
Proof.
  intros P k v l Pv. induction l as [|[k' v'] l IH]; intros H e He; cbn [put] in He.
  - destruct He as [<-|[]]. auto.
  - destruct (sym_compare k k'); cbn [In] in He.
    + destruct He as [<-|He]; [auto|apply H; right; auto].
    + destruct He as [<-|He]; auto.
    + destruct He as [<-|He]; [apply (H (k', v')); left; auto|]. apply IH; auto. intros x Hx. apply H; right; auto.
Qed.
Lemma set_ok : forall b h cl root kv k v m R n,
  correct h (root :: kv :: R) -> globe b h cl root m -> pair_kv h kv k v -> (v < b)%N ->
  high b h -> (b <= root)%N -> (b <= kv)%N -> length m < n -> tame b h ->
  exists h' cl' root', hadd n cl root kv h = Done (root', cl') h' /\ correct h' (root' :: R) /\ globe b h' cl' root' (put k v m) /\
    evolves b h h' /\ high b h' /\ (b <= root')%N /\ tame b h'.
Proof.
  intros b h cl root kv k v m R n C G P Hv H Lr Lk Ln Tm. pose proof G as G0. destruct G as [Hr ->|s sent t bb cc I Et V U].
  - destruct (hadd_first b h cl root kv k v R n C Hr P H Lr Lk) as [h' [cl' [s' [t' [bb' [cc' [A1 [A2 [A3 [A4 [A5 [A6 [A7 A8]]]]]]]]]]]]]; [cbn in Ln; lia|auto|].
    exists h', cl', (tid t'). split; auto. split; auto. split; [|tauto].
    apply (globe_tree b h' cl' (tid t') _ s' root t' bb' cc'); auto. intros e [<-|[]]. auto.
  - subst root. destruct (hadd_tree b h cl s sent t bb cc kv k v R m n C I P V H Lr Lk) as [h' [cl' [s' [t' [bb' [cc' [A1 [A2 [A3 [A4 [A5 [A6 [A7 A8]]]]]]]]]]]]]; auto.
    exists h', cl', (tid t'). split; auto. split; auto. split; [|tauto].
    apply (globe_tree b h' cl' (tid t') _ s' sent t' bb' cc'); auto. apply (put_all (fun a => (a < b)%N)); auto.
Qed.

(** ** Lookups and updates *)
Lemma vals_names : forall h s l e, vals h s l e -> map fst e = map (key s) l.
Proof. intros h s l e V. induction V as [|i x l e [H1 _] V IH]; cbn [map]; [auto|]. congruence. Qed.
Lemma find_ok : forall h cl s sent t bb cc m n k, tree_inv h cl s sent t bb cc -> vals h s (nodes t) m -> length m < n ->
  (exists x, hsearch n k (tid t) h = Done (Some x) h /\ key s x = k /\ In x (nodes t)) \/
  (hsearch n k (tid t) h = Done None h /\ ~ In k (map fst m)).
Proof.
  intros h cl s sent t bb cc m n k [O Nd Hc So S] V Ln.
  assert (Hn : height t < n).
  { pose proof (height_nodes t). pose proof (vals_length _ _ _ _ V). lia. }
  assert (Dr : dom sent t (tid t)) by (right; apply TreeProofs.tid_in_ids).
  destruct (TreeProofs.search_ok t Top n s sent k O So) as [[x [E [Kx [Ix _]]]]|[E Nk]]; auto.
  { intros i []. } { intros i []. }
  - left. exists x. split; [apply (f_search _ _ _ _ _ n cl h s k (tid t) _ S Dr E)|]. auto.
  - right. split; [apply (f_search _ _ _ _ _ n cl h s k (tid t) _ S Dr E)|]. rewrite (vals_names _ _ _ _ V).
    intros Hk. apply in_map_iff in Hk. destruct Hk as [j [Ej Hj]]. apply (Nk j); auto.
Qed.
Lemma nil_step : forall b h cl root m R, globe b h cl root m -> correct h R -> high b h -> tame b h -> (b <= nxt h)%N ->
  exists h', make_nil h = Done (nxt h) h' /\ correct h' (nxt h :: R) /\ globe b h' cl root m /\ (exists c, cells h' (nxt h) = Some c /\ body c = KNil) /\
    evolves b h h' /\ high b h' /\ tame b h'.
Proof.
  intros b h cl root m R G C H T Lb. exists (fresh_heap h KNil). split; [apply alloc_fresh|]. split; [apply correct_fresh; auto|].
  pose proof (bounded _ _ C) as Bd. split; [|split; [|split; [|split]]].
  - apply (globe_grow b h); auto. intros a c E. rewrite fresh_old; auto. assert (a < nxt h)%N by (apply Bd; unfold alive; congruence). lia.
  - rewrite fresh_new. eexists; split; [reflexivity|auto].
  - apply evolves_fresh; auto.
  - apply high_fresh; auto. intros; discriminate.
  - apply (tame_fresh b h KNil R); auto. intros x [].
Qed.
Lemma upd_ok : forall b h cl root kv k v m R n,
  correct h (root :: kv :: R) -> globe b h cl root m -> pair_kv h kv k v -> (v < b)%N ->
  high b h -> (b <= root)%N -> (b <= kv)%N -> length m < n -> tame b h ->
  exists h' r, hupd n root kv h = Done r h' /\ evolves b h h' /\ high b h' /\ tame b h' /\
    ((In k (map fst m) /\ r = kv /\ correct h' (root :: kv :: R) /\ globe b h' cl root (put k v m) /\ exists x y, cell_of h' kv (KPair x y) false) \/
     (~ In k (map fst m) /\ r = nxt h /\ correct h' (r :: root :: kv :: R) /\ globe b h' cl root m /\ exists c, cells h' r = Some c /\ body c = KNil)).
Proof.
  intros b h cl root kv k v m R n C G P Hv H Lr Lk Ln Tm. pose proof (bounded _ _ C) as Bd.
  assert (Lb : (b <= nxt h)%N).
  { assert (kv < nxt h)%N by (destruct P as [kc [[c0 [E0 _]] _]]; apply Bd; unfold alive; congruence). lia. }
  destruct (nil_step b h cl root m _ G C H Tm Lb) as [hn [En [Cn [Gn [Kn [Evn [Hn Tn]]]]]]].
  pose proof G as G0. destruct G as [[cr [Er Br]] ->|s sent t bb cc I Et V U].
  - exists hn, (nxt h). split; [|split; [auto|split; [auto|split; [auto|right; split; [intros []|auto]]]]].
    unfold hupd. assert (NR : NULL root h = Done true h) by (rewrite (null_cell h root cr Er); unfold is_nil_c; rewrite Br; auto).
    rewrite (hbind_done _ _ _ _ _ NR). exact En.
  - subst root. pose proof I as [O Nd Hc So S].
    pose proof (root_in t Nd) as Ir. pose proof (tree_high _ _ _ _ _ _ _ _ _ S H O Nd Lr) as HD.
    assert (NR : NULL (tid t) h = Done false h) by (apply (null_pair h (tid t) _ _ _ (na_1 _ _ _ _ _ _ (se_node _ _ _ _ _ _ _ _ S (tid t) Ir)))).
    pose proof P as [kn [Ckv [ckn [Ekn Bkn]]]].
    assert (SK : symbol_of kn h = Done k h) by (unfold symbol_of, hbind_, rd; rewrite Ekn, Bkn; reflexivity).
    destruct (find_ok h cl s sent t bb cc m n k I V Ln) as [[x [E [Kx Hx]]]|[E Nk]].
    + destruct (na_d _ _ _ _ _ _ (se_node _ _ _ _ _ _ _ _ S x Hx)) as [kx [old [Cdx [ckx [Ekx Bkx]]]]]. set (dx := Tree.dat s x) in *.
      destruct (swap_ok h _ dx kv kx kn old v C Cdx Ckv) as [h3 [h4 [E3 [E4 [C4 [Nx4 [Ax4 [O3 [O4 [Cdx' Ckv']]]]]]]]]].
      assert (Lbx : (b <= x)%N) by (apply HD; right; apply TreeProofs.nodes_in_ids; auto).
      assert (Lbd : (b <= dx)%N) by (destruct (node_high _ _ _ _ _ _ _ _ b x S H (dom_live _ _ _ O) Hx Lbx) as [Q _]; exact Q).
      destruct (swap_high b h h4 dx kv kx kn old v Nx4 Ax4 O4 Cdx Ckv Cdx' Ckv' Lbd Lk H) as [Ev4 H4]; [apply (symish_at h kx (Tree.dkey s dx)); [exists ckx; auto|apply Bd; unfold alive; congruence]|apply (symish_at h kn k); [exists ckn; auto|apply Bd; unfold alive; congruence]|].
      pose proof (se_apart _ _ _ _ _ _ _ _ S) as Ap.
      assert (S4 : sees (dom sent t) (nodes t) bb cc (but_root t) cl h4 s).
      { apply (sees_pairs _ _ _ _ _ _ h); auto. intros a. destruct (N.eq_dec a dx) as [->|N1].
        - right. split; [|exists kx, old, v; auto]. intros j Hj. split; [|split]; intros Ej.
          + apply (ap_id _ _ _ _ Ap j x); auto.
          + apply (ap_bd _ _ _ _ Ap j x); auto.
          + apply (ap_cd _ _ _ _ Ap j x); auto.
        - destruct (N.eq_dec a kv) as [->|N2]; [|left; auto].
          right. split; [|exists kn, v, old; auto]. intros j Hj.
          destruct (kv_apart _ _ _ _ _ _ _ _ kv k v S P (dom_live _ _ _ O) j Hj) as [Q1 [Q2 Q3]]. auto. }
      assert (Same : forall j, In j (nodes t) -> Tree.dat s j = kv -> j = x).
      { intros j Hj Ej. apply (TreeProofs.sorted_key_inj s (nodes t)); auto. rewrite Kx.
        destruct (na_d _ _ _ _ _ _ (se_node _ _ _ _ _ _ _ _ S j Hj)) as [k1 [v1 [[c1 [F1 [G1 _]]] [c2 [F2 G2]]]]].
        unfold key. destruct Ckv as [c3 [F3 [G3 _]]]. rewrite Ej, F3 in F1. injection F1 as <-. rewrite G3 in G1. injection G1 as <- <-.
        rewrite Ekn in F2. injection F2 as <-. rewrite Bkn in G2. injection G2 as G2. congruence. }
      assert (V4 : vals h4 s (nodes t) (put (key s x) v m)).
      { apply (vals_swap h h4 s t m x kx kv old v); auto. apply nodes_nodup. destruct O as [_ _ Q]. inversion Q; auto. }
      rewrite Kx in V4.
      exists h4, kv. split.
      { unfold hupd. rewrite (hbind_done _ _ _ _ _ NR), (hbind_done _ _ _ _ _ (car_of_cell h kv _ _ _ Ckv)), (hbind_done _ _ _ _ _ SK).
        rewrite (hbind_done _ _ _ _ _ E). rewrite (hbind_done _ _ _ _ _ (n_data _ _ _ _ _ cl h s S x Hx)). fold dx.
        rewrite (hbind_done _ _ _ _ _ (cdr_of_cell h dx _ _ _ Cdx)), (hbind_done _ _ _ _ _ (cdr_of_cell h kv _ _ _ Ckv)).
        rewrite (hbind_done _ _ _ _ _ E3), (hbind_done _ _ _ _ _ E4). reflexivity. }
      split; auto. split; auto. split.
      { apply (swap_tame b h h4 dx kv kx kn old v); auto. destruct (vals_at _ _ _ _ x V Hx) as [e [He Ve]]. rewrite <- (val_fun _ _ _ _ _ Cdx Ve). auto. }
      left. split.
      { rewrite (vals_names _ _ _ _ V), <- Kx. apply in_map; auto. }
      split; auto. split; auto. split; [|exists kn, old; auto].
      apply (globe_tree b h4 cl (tid t) _ s sent t bb cc); auto; [constructor; auto|]. apply (put_all (fun a => (a < b)%N)); auto.
    + exists hn, (nxt h). split.
      { unfold hupd. rewrite (hbind_done _ _ _ _ _ NR), (hbind_done _ _ _ _ _ (car_of_cell h kv _ _ _ Ckv)), (hbind_done _ _ _ _ _ SK).
        rewrite (hbind_done _ _ _ _ _ E). exact En. }
      split; auto. split; auto. split; auto. right. split; auto.
Qed.

Definition answer (h : heap) (r : N) (k : symbol) (o : option N) : Prop :=
  match o with
  | Some v => exists kc, cell_of h r (KPair kc v) false /\ exists c, cells h kc = Some c /\ body c = KSym k
  | None => exists c, cells h r = Some c /\ body c = KNil
  end.
Lemma correct_up : forall h a c R, correct h R -> cells h a = Some c -> correct (set_cell h a (Some (with_refs c (S (refs c))))) (a :: R).
Proof.
  intros h a c R C E. assert (L : (a < nxt h)%N) by (apply (bounded _ _ C); unfold alive; congruence).
  assert (Ed : forall b, cnt b (edges (set_cell h a (Some (with_refs c (S (refs c)))))) = cnt b (edges h)).
  { intros b. pose proof (edges_set h a c (with_refs c (S (refs c))) b E L) as U. change (fields (with_refs c (S (refs c)))) with (fields c) in U. lia. }
  constructor.
  - intros x A. apply (bounded _ _ C). intro N0. apply A. destruct (N.eq_dec x a) as [->|Nx]; [congruence|]. rewrite set_other; auto.
  - intros x cx Ex. rewrite Ed. cbn [cnt]. destruct (N.eq_dec x a) as [->|Nx].
    + rewrite set_same in Ex. injection Ex as <-. destruct (counted _ _ C a c E). cbn [refs with_refs]. rewrite is_same. lia.
    + rewrite set_other in Ex by auto. destruct (counted _ _ C x cx Ex). rewrite is_other by auto. lia.
  - intros x Hx. rewrite Ed in Hx. cbn [cnt] in Hx. unfold alive. destruct (N.eq_dec x a) as [->|Nx]; [rewrite set_same; discriminate|].
    rewrite set_other by auto. rewrite is_other in Hx by auto. apply (present _ _ C). lia.
Qed.
Lemma vals_key : forall h s l e j, vals h s l e -> In j l -> exists v, val_of h (Tree.dat s j) v /\ In (key s j, v) e.
Proof.
  intros h s l e j V. induction V as [|i [k v] l e [H1 H2] V IH]; intros Hj; [destruct Hj|]. cbn [fst snd] in *. destruct Hj as [<-|Hj].
  - exists v. split; auto. left. congruence.
  - destruct (IH Hj) as [w [A B]]. exists w. split; auto. right; auto.
Qed.
Lemma get_ok : forall b h cl root k m R n,
  correct h (root :: R) -> globe b h cl root m -> high b h -> (b <= root)%N -> length m < n -> tame b h ->
  exists h' r, hget n root k h = Done r h' /\ evolves b h h' /\ high b h' /\ tame b h' /\ (b <= r)%N /\ correct h' (r :: root :: R) /\ globe b h' cl root m /\
    ((exists v, In (k, v) m /\ answer h' r k (Some v)) \/ (~ In k (map fst m) /\ answer h' r k None)).
Proof.
  intros b h cl root k m R n C G H Lr Ln Tm. pose proof (bounded _ _ C) as Bd.
  assert (Lb : (b <= nxt h)%N).
  { assert (root < nxt h)%N by (apply Bd; apply (correct_alive _ _ _ C); left; auto). lia. }
  destruct (nil_step b h cl root m _ G C H Tm Lb) as [hn [En [Cn [Gn [Kn [Evn [Hn Tn]]]]]]].
  pose proof G as G0. destruct G as [[cr [Er Br]] ->|s sent t bb cc I Et V U].
  - exists hn, (nxt h). split.
    { unfold hget. assert (NR : NULL root h = Done true h) by (rewrite (null_cell h root cr Er); unfold is_nil_c; rewrite Br; auto).
      rewrite (hbind_done _ _ _ _ _ NR). exact En. }
    do 6 (split; [auto|]). right. split; [intros []|auto].
  - subst root. pose proof I as [O Nd Hc So S].
    pose proof (root_in t Nd) as Ir. pose proof (tree_high _ _ _ _ _ _ _ _ _ S H O Nd Lr) as HD.
    assert (NR : NULL (tid t) h = Done false h) by (apply (null_pair h (tid t) _ _ _ (na_1 _ _ _ _ _ _ (se_node _ _ _ _ _ _ _ _ S (tid t) Ir)))).
    destruct (find_ok h cl s sent t bb cc m n k I V Ln) as [[x [E [Kx Hx]]]|[E Nk]].
    + destruct (na_d _ _ _ _ _ _ (se_node _ _ _ _ _ _ _ _ S x Hx)) as [kx [old [Cdx Kxs]]]. set (d := Tree.dat s x) in *.
      destruct Cdx as [c [Ec [Bc Wc]]]. set (h' := set_cell h d (Some (with_refs c (Datatypes.S (refs c))))).
      assert (Lbx : (b <= x)%N) by (apply HD; right; apply TreeProofs.nodes_in_ids; auto).
      assert (Lbd : (b <= d)%N) by (destruct (node_high _ _ _ _ _ _ _ _ b x S H (dom_live _ _ _ O) Hx Lbx) as [Q _]; exact Q).
      assert (Keep : forall a q w, cell_of h a q w -> cell_of h' a q w).
      { intros a q w [c0 [E0 [B0 W0]]]. destruct (N.eq_dec a d) as [->|Na].
        - rewrite Ec in E0. injection E0 as <-. exists (with_refs c (Datatypes.S (refs c))). unfold h'. rewrite set_same. auto.
        - exists c0. unfold h'. rewrite set_other by auto. auto. }
      assert (Keep' : forall a c0, cells h a = Some c0 -> exists c1, cells h' a = Some c1 /\ body c1 = body c0).
      { intros a c0 E0. destruct (Keep a (body c0) (weak c0)) as [c1 [E1 [B1 _]]]; [exists c0; auto|]. exists c1. auto. }
      assert (Ev : evolves b h h') by (apply (evolves_set b h d c); auto; unfold is_pair_c; rewrite Bc; auto).
      assert (C' : correct h' (d :: tid t :: R)) by (apply correct_up; auto).
      assert (S' : sees (dom sent t) (nodes t) bb cc (but_root t) cl h' s).
      { apply (sees_pairs _ _ _ _ _ _ h); auto. intros a. destruct (N.eq_dec a d) as [->|Na]; [|left; unfold h'; rewrite set_other; auto].
        right. split.
        - intros j Hj. pose proof (se_apart _ _ _ _ _ _ _ _ S) as Ap. split; [|split]; intros Ej.
          + apply (ap_id _ _ _ _ Ap j x); auto.
          + apply (ap_bd _ _ _ _ Ap j x); auto.
          + apply (ap_cd _ _ _ _ Ap j x); auto.
        - exists kx, old, old. split; [exists c; auto|]. apply Keep. exists c; auto. }
      assert (V' : vals h' s (nodes t) m) by (apply (vals_cells h h'); auto).
      assert (G' : globe b h' cl (tid t) m).
      { apply (globe_tree b h' cl (tid t) m s sent t bb cc); auto. constructor; auto. }
      exists h', d. split.
      { unfold hget. rewrite (hbind_done _ _ _ _ _ NR), (hbind_done _ _ _ _ _ E), (hbind_done _ _ _ _ _ (n_data _ _ _ _ _ cl h s S x Hx)). fold d.
        unfold up, hbind_, rd, wr. rewrite Ec, Ec. reflexivity. }
      split; auto. split.
      { apply (high_set b h d c); auto; [unfold is_pair_c; rewrite Bc; auto|]. intros q y Bx. cbn [body with_refs] in Bx. apply (H d c q y); auto. }
      split.
      { apply (tame_same b h h' Tm). intros a. unfold fields_at, h'. destruct (N.eq_dec a d) as [->|Na]; [rewrite set_same, Ec; auto|rewrite set_other; auto]. }
      split; auto. split; auto. split; auto. left.
      destruct (vals_key h s (nodes t) m x V Hx) as [v [Vv Iz]]. rewrite Kx in Iz. exists v. split; auto.
      assert (Cd : cell_of h d (KPair kx old) false) by (exists c; auto).
      pose proof (val_fun _ _ _ _ _ Cd Vv) as Ev'. subst v.
      exists kx. split; auto.
      destruct Kxs as [ck [Ek Bk]]. destruct (Keep' kx ck Ek) as [c1 [E1 B1]]. exists c1. split; auto. rewrite B1, Bk. f_equal. exact Kx.
    + exists hn, (nxt h). split.
      { unfold hget. rewrite (hbind_done _ _ _ _ _ NR), (hbind_done _ _ _ _ _ E). exact En. }
      do 6 (split; [auto|]). right. split; auto.
Qed.

(** ** Tables and maps *)
Definition repr (m : list (symbol * N)) (f : nmap) : Prop := ssorted (map fst m) /\ forall k z, In (k, z) m <-> f k = Some z.
Lemma put_in : forall k (z : N) m k' z', ssorted (map fst m) -> (In (k', z') (put k z m) <-> (k' = k /\ z' = z) \/ (k' <> k /\ In (k', z') m)).
Proof.
  intros k z m k' z'. induction m as [|[k1 z1] m IH]; intros So; cbn [put].
  - cbn [In]. split; [intros [E|[]]; injection E as <- <-; auto|intros [[-> ->]|[_ []]]; auto].
  - cbn [map fst] in So. inversion So as [|? ? So' Fa]; subst. rewrite Forall_forall in Fa. specialize (IH So').
    assert (Gt1 : forall k2 z2, In (k2, z2) m -> sym_lt k1 k2) by (intros k2 z2 H2; apply Fa; apply (in_map fst) in H2; auto).
    destruct (sym_compare k k1) eqn:Ec.
    + apply memcmp_eq in Ec. subst k1. cbn [In]. split.
      * intros [E|Hi]; [injection E as <- <-; auto|]. right. split; auto. intros ->. apply (sym_lt_irrefl k). eauto.
      * intros [[-> ->]|[Nk [E|Hi]]]; [auto|injection E as <- <-; congruence|auto].
    + apply memcmp_lt in Ec. cbn [In]. split.
      * intros [E|[E|Hi]]; [injection E as <- <-; auto| |].
        -- injection E as <- <-. right. split; auto. intros ->. apply (sym_lt_irrefl k); auto.
        -- right. split; auto. intros ->. apply (sym_lt_irrefl k). apply (sym_lt_trans k k1 k); eauto.
      * intros [[-> ->]|[Nk Hi]]; auto.
    + apply memcmp_gt in Ec. cbn [In]. rewrite IH. split.
      * intros [E|[E|Hi]]; auto; [|tauto]. injection E as <- <-. right. split; auto. intros ->. apply (sym_lt_irrefl k); auto.
      * intros [E|[Nk [E|Hi]]]; auto.
Qed.
Lemma put_names : forall k (z : N) m q, In q (map fst (put k z m)) -> q = k \/ In q (map fst m).
Proof.
  intros k z m q. induction m as [|[k1 z1] m IH]; cbn [put].
  - intros [<-|[]]; auto.
  - destruct (sym_compare k k1); cbn [map fst In]; intuition.
Qed.
Lemma put_sorted : forall k (z : N) m, ssorted (map fst m) -> ssorted (map fst (put k z m)).
Proof.
  intros k z m. induction m as [|[k1 z1] m IH]; intros So; cbn [put]; [cbn; constructor; constructor|].
  cbn [map fst] in So. inversion So as [|? ? So' Fa]; subst. destruct (sym_compare k k1) eqn:Ec; cbn [map fst].
  - apply memcmp_eq in Ec. subst k1. constructor; auto.
  - apply memcmp_lt in Ec. constructor; auto. constructor; auto. rewrite Forall_forall in *. intros x Hx. apply (sym_lt_trans k k1 x); auto.
  - apply memcmp_gt in Ec. constructor; auto. rewrite Forall_forall in *. intros x Hx. apply put_names in Hx. destruct Hx as [->|Hx]; auto.
Qed.
Lemma repr_put : forall m f k z, repr m f -> repr (put k z m) (nset f k z).
Proof.
  intros m f k z [So F]. split; [apply put_sorted; auto|]. intros k' z'. rewrite (put_in k z m k' z' So), F. unfold nset.
  destruct (list_eq_dec N.eq_dec k' k) as [->|Nk].
  - split; [intros [[_ ->]|[X _]]; congruence|intros E; injection E as ->; auto].
  - split; [intros [[X _]|[_ X]]; congruence|intros X; right; auto].
Qed.
Lemma repr_names : forall m f k, repr m f -> (In k (map fst m) <-> f k <> None).
Proof.
  intros m f k [_ F]. split.
  - intros Hk. apply in_map_iff in Hk. destruct Hk as [[k' z] [<- Hz]]. apply F in Hz. cbn [fst]. congruence.
  - intros Hk. destruct (f k) as [z|] eqn:E; [|congruence]. apply F in E. apply (in_map fst) in E. auto.
Qed.

(** ** Histories *)
Lemma pair_step : forall b h cl root m R k v, globe b h cl root m -> correct h (v :: R) -> high b h -> tame b h -> (b <= nxt h)%N ->
  exists h' kv, new_pair k v h = Done kv h' /\ correct h' (kv :: R) /\ globe b h' cl root m /\ pair_kv h' kv k v /\
    evolves b h h' /\ high b h' /\ tame b h' /\ (b <= kv)%N.
Proof.
  intros b h cl root m R k v G C H T Lb. pose proof (bounded _ _ C) as Bd.
  set (h1 := fresh_heap h (KSym k)). assert (C1 : correct h1 (nxt h :: v :: R)) by (apply correct_fresh; auto).
  set (h2 := fresh_heap h1 (KPair (nxt h) v)).
  assert (C2 : correct h2 (nxt h1 :: R)) by (apply correct_fresh; exact C1).
  assert (N1 : nxt h1 = N.succ (nxt h)) by reflexivity.
  assert (Lv : (v < nxt h)%N) by (apply Bd; apply (correct_alive _ _ _ C); left; auto).
  assert (Gr : forall a c, cells h a = Some c -> cells h2 a = Some c).
  { intros a c E. assert (a < nxt h)%N by (apply Bd; unfold alive; congruence). unfold h2, h1. rewrite !fresh_old; cbn [nxt fresh_heap]; auto; lia. }
  exists h2, (nxt h1). split.
  { unfold new_pair, hcons. rewrite (hbind_done _ _ _ _ _ (alloc_fresh _ h)). fold h1. apply alloc_fresh. }
  split; auto. split; [apply (globe_grow b h); auto|]. split.
  { exists (nxt h). split; [exists (mkcell 1 false false (KPair (nxt h) v)); unfold h2; rewrite fresh_new; auto|].
    exists (mkcell 1 false false (KSym k)). split; auto. unfold h2. rewrite fresh_old by lia. unfold h1. apply fresh_new. }
  assert (H1 : high b h1) by (apply high_fresh; auto; intros; discriminate).
  assert (T1 : tame b h1) by (apply (tame_fresh b h (KSym k) (v :: R)); auto; intros x []).
  split.
  { apply (evolves_trans b h h1); [apply evolves_fresh; auto|]. apply evolves_fresh; [lia|apply (bounded _ _ C1)]. }
  split.
  { apply high_fresh; auto. intros x y E. injection E as <- <-. split; auto. right.
    apply (symish_at h1 (nxt h) k); [|lia]. exists (mkcell 1 false false (KSym k)). split; auto. apply fresh_new. }
  split; [|lia]. apply (tame_fresh b h1 _ _ T1 C1). intros x [<-|[<-|[]]]; lia.
Qed.

Lemma step_ok : forall b h cl root m f R n o, correct h (root :: given1 o ++ R) -> globe b h cl root m -> repr m f -> (forall v, In v (given1 o) -> (v < b)%N) ->
  high b h -> tame b h -> (b <= root)%N -> length m < n ->
  exists h' cl' root' m', hstep n (root, cl) o h = Done (root', cl') h' /\ correct h' (root' :: R) /\ globe b h' cl' root' m' /\ repr m' (means1 f o) /\
    evolves b h h' /\ high b h' /\ tame b h' /\ (b <= root')%N /\ length m' <= S (length m).
Proof.
  intros b h cl root m f R n o C G Rp Gv H T Lr Ln. pose proof (bounded _ _ C) as Bd.
  assert (Lb : (b <= nxt h)%N).
  { assert (root < nxt h)%N by (apply Bd; apply (correct_alive _ _ _ C); left; auto). lia. }
  destruct o as [k v|k v|k]; cbn [hstep fst snd means1 given1 app] in *.
  - assert (C0 : correct h (v :: root :: R)) by (eapply correct_perm; [exact C|]; intros a; cbn [cnt]; lia).
    destruct (pair_step b h cl root m _ k v G C0 H T Lb) as [h1 [kv [E1 [C1 [G1 [P1 [Ev1 [H1 [T1 L1]]]]]]]]].
    assert (C1' : correct h1 (root :: kv :: R)) by (eapply correct_perm; [exact C1|]; intros a; cbn [cnt]; lia).
    destruct (set_ok b h1 cl root kv k v m R n C1' G1 P1 (Gv v (or_introl eq_refl)) H1 Lr L1 Ln T1) as [h' [cl' [root' [E2 [C2 [G2 [Ev2 [H2 [L2 T2]]]]]]]]].
    exists h', cl', root', (put k v m). split; [rewrite (hbind_done _ _ _ _ _ E1); exact E2|].
    split; auto. split; auto. split; [apply repr_put; auto|]. split; [apply (evolves_trans b h h1); auto|].
    split; auto. split; auto. split; auto. apply put_length.
  - assert (C0 : correct h (v :: root :: R)) by (eapply correct_perm; [exact C|]; intros a; cbn [cnt]; lia).
    destruct (pair_step b h cl root m _ k v G C0 H T Lb) as [h1 [kv [E1 [C1 [G1 [P1 [Ev1 [H1 [T1 L1]]]]]]]]].
    assert (C1' : correct h1 (root :: kv :: R)) by (eapply correct_perm; [exact C1|]; intros a; cbn [cnt]; lia).
    destruct (upd_ok b h1 cl root kv k v m R n C1' G1 P1 (Gv v (or_introl eq_refl)) H1 Lr L1 Ln T1) as [h2 [r [E2 [Ev2 [H2 [T2 [[Ik [-> [C2 [G2 [x [y Cx]]]]]]|[Nk [Er [C2 [G2 [cn [En Bn]]]]]]]]]]]]].
    + assert (C2' : correct h2 (kv :: root :: R)) by (eapply correct_perm; [exact C2|]; intros a; cbn [cnt]; lia).
      destruct (X_spec h2 kv _ C2') as [h3 [E3 [C3 Sh3]]]. destruct (X_high b kv h2 h3 E3 H2) as [Ev3 H3].
      exists h3, cl, root, (put k v m). split.
      { rewrite (hbind_done _ _ _ _ _ E1), (hbind_done _ _ _ _ _ E2), (hbind_done _ _ _ _ _ (null_pair h2 kv _ _ _ Cx)), (hbind_done _ _ _ _ _ E3). reflexivity. }
      split; auto. split; [apply (globe_shrinks b h2 h3 cl root _ R G2 Sh3 C3)|]. split.
      { apply (repr_names m f k Rp) in Ik. destruct (f k); [|congruence]. apply repr_put; auto. }
      split; [apply (evolves_trans b h h1); auto; apply (evolves_trans b h1 h2); auto|]. split; auto.
      split; [apply (tame_shrinks b h2 h3); auto|]. split; auto. apply put_length.
    + destruct (X_spec h2 r _ C2) as [h3 [E3 [C3 Sh3]]].
      destruct (X_high b r h2 h3 E3 H2) as [Ev3 H3].
      assert (C3' : correct h3 (kv :: root :: R)) by (eapply correct_perm; [exact C3|]; intros a; cbn [cnt]; lia).
      destruct (X_spec h3 kv _ C3') as [h4 [E4 [C4 Sh4]]]. destruct (X_high b kv h3 h4 E4 H3) as [Ev4 H4].
      pose proof (globe_shrinks b h2 h3 cl root m (kv :: R) G2 Sh3 C3) as G3.
      exists h4, cl, root, m. split.
      { rewrite (hbind_done _ _ _ _ _ E1), (hbind_done _ _ _ _ _ E2).
        assert (NR : NULL r h2 = Done true h2) by (rewrite (null_cell h2 r cn En); unfold is_nil_c; rewrite Bn; auto).
        rewrite (hbind_done _ _ _ _ _ NR).
        assert (XX : hbind_ (X r) (fun _ => X kv) h2 = Done tt h4) by (rewrite (hbind_done _ _ _ _ _ E3); exact E4).
        rewrite (hbind_done _ _ _ _ _ XX). reflexivity. }
      split; auto. split; [apply (globe_shrinks b h3 h4 cl root _ R G3 Sh4 C4)|]. split.
      { rewrite (repr_names m f k Rp) in Nk. destruct (f k) eqn:Ef; [exfalso; apply Nk; congruence|auto]. }
      split; [apply (evolves_trans b h h1); auto; apply (evolves_trans b h1 h2); auto; apply (evolves_trans b h2 h3); auto|]. split; auto.
      split; [apply (tame_shrinks b h3 h4); auto; apply (tame_shrinks b h2 h3); auto|]. split; auto.
  - destruct (get_ok b h cl root k m R n C G H Lr Ln T) as [h1 [r [E1 [Ev1 [H1 [T1 [L1 [C1 [G1 _]]]]]]]]].
    destruct (X_spec h1 r _ C1) as [h2 [E2 [C2 Sh2]]]. destruct (X_high b r h1 h2 E2 H1) as [Ev2 H2].
    exists h2, cl, root, m. split; [rewrite (hbind_done _ _ _ _ _ E1), (hbind_done _ _ _ _ _ E2); reflexivity|].
    split; auto. split; [apply (globe_shrinks b h1 h2 cl root _ R G1 Sh2 C2)|]. split; auto.
    split; [apply (evolves_trans b h h1); auto|]. split; auto. split; [apply (tame_shrinks b h1 h2); auto|]. auto.
Qed.
Lemma run_ok : forall os b h cl root m f R n, correct h (root :: given os ++ R) -> globe b h cl root m -> repr m f -> (forall v, In v (given os) -> (v < b)%N) ->
  high b h -> tame b h -> (b <= root)%N -> length m + length os < n ->
  exists h' cl' root' m', hrun n os (root, cl) h = Done (root', cl') h' /\ correct h' (root' :: R) /\ globe b h' cl' root' m' /\ repr m' (fold_left means1 os f) /\
    evolves b h h' /\ high b h' /\ tame b h' /\ (b <= root')%N /\ length m' <= length m + length os.
Proof.
  induction os as [|o os IH]; intros b h cl root m f R n C G Rp Gv H T Lr Ln; cbn [hrun fold_left length given flat_map] in *.
  - exists h, cl, root, m. split; [reflexivity|]. split; auto. split; auto. split; auto. split; [apply evolves_refl|]. split; auto. split; auto. split; auto. lia.
  - fold (given os) in *. rewrite <- app_assoc in C.
    destruct (step_ok b h cl root m f (given os ++ R) n o C G Rp) as [h1 [cl1 [root1 [m1 [E1 [C1 [G1 [R1 [Ev1 [H1 [T1 [L1 Len1]]]]]]]]]]]]; auto; [intros v Hv; apply Gv; apply in_or_app; auto|lia|].
    destruct (IH b h1 cl1 root1 m1 _ R n C1 G1 R1) as [h2 [cl2 [root2 [m2 [E2 [C2 [G2 [R2 [Ev2 [H2 [T2 [L2 Len2]]]]]]]]]]]]; auto; [intros v Hv; apply Gv; apply in_or_app; auto|lia|].
    exists h2, cl2, root2, m2. split; [rewrite (hbind_done _ _ _ _ _ E1); exact E2|]. split; auto. split; auto. split; auto.
    split; [apply (evolves_trans b h h1); auto|]. split; auto. split; auto. split; auto. lia.
Qed.
Lemma globals_ok : forall os h0 R n, correct h0 (given os ++ R) -> length os < n ->
  exists h' cl root m, hglobals n os h0 = Done (root, cl) h' /\ correct h' (root :: R) /\ globe (nxt h0) h' cl root m /\ repr m (means os) /\
    evolves (nxt h0) h0 h' /\ high (nxt h0) h' /\ tame (nxt h0) h' /\ (nxt h0 <= root)%N /\ length m <= length os.
Proof.
  intros os h0 R n C Ln. pose proof (bounded _ _ C) as Bd. set (b := nxt h0). set (h1 := fresh_heap h0 KNil).
  assert (Dead : forall a, (b <= a)%N -> cells h0 a = None).
  { intros a La. destruct (cells h0 a) eqn:E; auto. assert (a < nxt h0)%N by (apply Bd; unfold alive; congruence). unfold b in La. lia. }
  assert (C1 : correct h1 (b :: given os ++ R)) by (apply correct_fresh; auto).
  assert (H0 : high b h0) by (intros a c x y La E; rewrite Dead in E by auto; discriminate).
  assert (T0 : tame b h0) by (intros a La; apply leaf_acc, dead_leaf; auto).
  assert (G1 : globe b h1 (fun _ => false) b []).
  { apply globe_nil; auto. exists (mkcell 1 false false KNil). split; auto. apply fresh_new. }
  destruct (run_ok os b h1 (fun _ => false) b [] (fun _ => None) R n C1 G1) as [h' [cl [root [m [E [C2 [G2 [R2 [Ev2 [H2 [T2 [L2 Len2]]]]]]]]]]]].
  - split; [constructor|]. intros k z. split; [intros []|discriminate].
  - intros v Hv. apply Bd. apply (correct_alive _ _ _ C). apply in_or_app; auto.
  - apply high_fresh; auto. intros; discriminate.
  - apply (tame_fresh b h0 KNil (given os ++ R)); auto. intros x [].
  - lia.
  - exact Ln.
  - exists h', cl, root, m. split.
    { unfold hglobals. rewrite (hbind_done (@make_nil) _ h0 b h1 (alloc_fresh KNil h0)). exact E. }
    split; auto. split; auto. split; auto. split; [apply (evolves_trans b h0 h1); auto; apply evolves_fresh; auto; unfold b; lia|]. auto.
Qed.

(** ** The specification *)
Lemma nodup_l : forall l1 l2 : list N, NoDup (l1 ++ l2) -> NoDup l1.
Proof. induction l1 as [|a l1 IH]; intros l2 H; [constructor|]. inversion H; subst. constructor; eauto. intros I. apply H2. apply in_or_app; auto. Qed.
Lemma nodup_r : forall l1 l2 : list N, NoDup (l1 ++ l2) -> NoDup l2.
Proof. induction l1 as [|a l1 IH]; intros l2 H; auto. inversion H; subst. auto. Qed.
Lemma tree_cells : forall h cl s sent t0 bb cc wk, sees (dom sent t0) (nodes t0) bb cc wk cl h s ->
  forall t par w m, rt s par t -> NoDup (ids t) -> incl (nodes t) (nodes t0) -> incl (ids t) (ids t0) ->
    (forall i, In i (nodes t) -> wk i = if N.eqb i (tid t) then w else true) ->
    vals h s (nodes t) m -> tree_at h par w (tid t) m.
Proof.
  intros h cl s sent t0 bb cc wk Se. induction t as [i|i t1 IH1 t2 IH2]; intros par w m Rt Nd In0 Id0 Wk V; cbn [rt nodes ids tid] in *.
  - inversion V; subst. apply at_nil. apply (se_nil _ _ _ _ _ _ _ _ Se i); auto. right. apply Id0. left; auto.
  - destruct Rt as [K [P [L [R [Rt1 Rt2]]]]].
    apply Forall2_app_inv_l in V. destruct V as [m1 [m2' [V1 [V2' ->]]]]. inversion V2' as [|? [k v] ? m2 [Ek Ev] V2]; subst.
    cbn [fst snd] in *. inversion Nd as [|? ? Ni Nd']; subst.
    assert (I : In i (nodes t0)) by (apply In0; apply in_or_app; right; left; auto).
    destruct (se_node _ _ _ _ _ _ _ _ Se i I) as [A1 A2 A3 [kc [v' [A4 A5]]]].
    rewrite L in A2. rewrite R in A3. rewrite Wk in A3 by (apply in_or_app; right; left; auto). rewrite N.eqb_refl in A3.
    assert (Sub : forall t', (forall a, In a (ids t') -> In a (ids t1 ++ ids t2)) -> (forall a, In a (nodes t') -> In a (nodes t1 ++ i :: nodes t2)) ->
      forall j, In j (nodes t') -> wk j = if N.eqb j (tid t') then true else true).
    { intros t' S1 S2 j Hj. rewrite Wk by auto. destruct (N.eqb_spec j i) as [->|]; [|destruct (N.eqb j (tid t')); auto].
      exfalso. apply Ni. apply S1. apply TreeProofs.nodes_in_ids; auto. }
    assert (Nd1 : NoDup (ids t1)) by (apply (nodup_l _ _ Nd')). assert (Nd2 : NoDup (ids t2)) by (apply (nodup_r _ _ Nd')).
    apply (at_node h _ w i (Tree.dat s i) (bb i) (tid t1) (cc i) (tid t2)); auto.
    + exists kc. destruct Ev as [kc' Ev]. destruct A4 as [c4 [E4 [B4 W4]]]. destruct Ev as [c5 [E5 [B5 W5]]].
      rewrite E4 in E5. injection E5 as <-. rewrite B4 in B5. injection B5 as <- <-.
      split; [exists c4; auto|]. exact A5.
    + apply (IH1 i true m1); auto.
      * intros a Ha. apply In0. apply in_or_app; auto.
      * intros a Ha. apply Id0. right. apply in_or_app; auto.
      * apply Sub; intros a Ha; apply in_or_app; auto.
    + apply (IH2 i true m2); auto.
      * intros a Ha. apply In0. apply in_or_app; right; right; auto.
      * intros a Ha. apply Id0. right. apply in_or_app; auto.
      * apply Sub; intros a Ha; apply in_or_app; auto. right; right; auto.
Qed.
Lemma globe_holds : forall b h cl root m f, globe b h cl root m -> repr m f -> holds_map h root f.
Proof.
  intros b h cl root m f G [So F]. destruct G as [K ->|s sent t bb cc I Et V U].
  - exists root, []. split; [exact K|]. split; [apply at_nil; exact K|]. auto.
  - destruct I as [[Rt Ks Nd] _ _ _ Se]. exists sent, m. inversion Nd; subst.
    split; [apply (se_nil _ _ _ _ _ _ _ _ Se sent); auto; left; auto|]. split; auto.
    apply (tree_cells h cl s sent t bb cc _ Se t sent false m); auto; try (intros a Ha; exact Ha).
Qed.
Lemma evolves_unaltered : forall h0 h', evolves (nxt h0) h0 h' -> unaltered (nxt h0) h0 h'.
Proof.
  intros h0 h' Ev a c' L E. destruct (ev_leaf _ _ _ Ev a c' L E) as [c [Ec St]]. exists c. split; auto.
  specialize (St (or_introl L)). unfold stored in St. injection St as S1 S2 S3. auto.
Qed.
Theorem run_final : forall os h0 R n, correct h0 (given os ++ R) -> length os < n ->
  exists root cl h', hglobals n os h0 = Done (root, cl) h' /\ correct h' (root :: R) /\ aux h' = aux h0 /\
    unaltered (nxt h0) h0 h' /\ holds_map h' root (means os) /\
    (forall k, exists r h2, hget n root k h' = Done r h2 /\ correct h2 (r :: root :: R) /\ unaltered (nxt h0) h0 h2 /\
       match means os k with Some v => binding_at h2 r k v | None => nil_at h2 r end) /\
    (exists h2, X root h' = Done tt h2 /\ correct h2 R /\ unaltered (nxt h0) h0 h2 /\ forall a, (nxt h0 <= a)%N -> cells h2 a = None).
Proof.
  intros os h0 R n C Ln. destruct (globals_ok os h0 R n C Ln) as [h' [cl [root [m [E [C' [G [Rp [Ev [H [T [L Len]]]]]]]]]]]].
  exists root, cl, h'. split; auto. split; auto. split; [apply (ev_aux _ _ _ Ev)|]. split; [apply evolves_unaltered; auto|].
  split; [apply (globe_holds (nxt h0) h' cl root m); auto|]. split.
  - intros k. destruct (get_ok (nxt h0) h' cl root k m R n C' G H L ltac:(lia) T) as [h2 [r [E2 [Ev2 [_ [_ [_ [C2 [_ An]]]]]]]]].
    exists r, h2. split; auto. split; auto. split; [apply evolves_unaltered; apply (evolves_trans _ h0 h'); auto|]. destruct An as [[z [Iz An]]|[Nk An]].
    + apply Rp in Iz. rewrite Iz. exact An.
    + rewrite (repr_names m _ k Rp) in Nk. destruct (means os k); [exfalso; apply Nk; discriminate|exact An].
  - destruct (X_spec h' root R C') as [h2 [E2 [C2 Sh2]]]. destruct (X_high (nxt h0) root h' h2 E2 H) as [Ev2 H2].
    exists h2. split; auto. split; auto.
    assert (Un : unaltered (nxt h0) h0 h2) by (apply evolves_unaltered; apply (evolves_trans _ h0 h'); auto).
    split; auto. intros a La.
    apply (nothing_left (nxt h0) h2 R C2 (tame_shrinks _ _ _ T Sh2)); auto.
    + intros x Hx. apply (bounded _ _ C). apply (correct_alive _ _ _ C); auto. apply in_or_app; auto.
    + intros x y Lx Hy. apply (bounded _ _ C). apply (fields_alive h0 (given os ++ R) x); auto.
      unfold fields_at in *. destruct (cells h2 x) as [c2|] eqn:Ex; [|destruct Hy]. destruct (Un x c2 Lx Ex) as [c [Ec [U1 [_ U3]]]].
      rewrite Ec. unfold fields in *. rewrite <- U1, <- U3. auto.
Qed.
