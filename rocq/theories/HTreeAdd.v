(** * HTreeAdd: defining, updating and looking up a global in memory. *)
From Verif Require Import Value ValueSpec ValueProofs Heap HeapSpec HEval HTree.
From Verif Require Import HeapProofs HeapOps HTreeSim HTreeCount HTreeProofs HTreeOps HTreeTame.
From Verif Require Tree TreeProofs.
Import Tree(mem, Ok, NilC, NodeC, upN).
Import TreeProofs(tr(..), tid, ids, nodes, height, rt, ctx(..), plug, pid, cids, cbefore, cafter, depth, okt, is_nd, key).
From Coq Require Import Permutation Sorting.Sorted.
Open Scope nat_scope.

(** ** Exchanging two values *)
Lemma swap_ok : forall h R dx dn kx kn old v, correct h R ->
  cell_of h dx (KPair kx old) false -> cell_of h dn (KPair kn v) false ->
  exists h1 h', set_cdr dx v h = Done tt h1 /\ set_cdr dn old h1 = Done tt h' /\ correct h' R /\
    nxt h' = nxt h /\ aux h' = aux h /\ (forall a, a <> dx -> cells h1 a = cells h a) /\
    (forall a, a <> dx -> a <> dn -> cells h' a = cells h a) /\
    cell_of h' dx (KPair kx v) false /\ cell_of h' dn (KPair kn old) false.
Proof.
  intros h R dx dn kx kn old v C [c1 [E1 [B1 W1]]] [c2 [E2 [B2 W2]]].
  set (h1 := set_cell h dx (Some (with_body c1 (KPair kx v)))).
  assert (Ex1 : set_cdr dx v h = Done tt h1) by (apply (set_cdr_done h dx c1 kx old v E1 B1)).
  destruct (N.eq_dec dn dx) as [Ed|Nd].
  - subst dn. rewrite E1 in E2. injection E2 as <-. rewrite B1 in B2. injection B2 as <- <-.
    assert (Same : forall a, cells h1 a = cells h a).
    { intros a. unfold h1. destruct (N.eq_dec a dx) as [->|Ne]; [|rewrite set_other; auto]. rewrite set_same, E1.
      f_equal. unfold with_body. rewrite <- B1. destruct c1; auto. }
    assert (Es : cells h1 dx = Some c1) by (rewrite Same; auto).
    set (h2 := set_cell h1 dx (Some (with_body c1 (KPair kx old)))).
    assert (Same2 : forall a, cells h2 a = cells h a).
    { intros a. unfold h2. destruct (N.eq_dec a dx) as [->|Ne]; [|rewrite set_other; auto]. rewrite set_same, E1.
      f_equal. unfold with_body. rewrite <- B1. destruct c1; auto. }
    exists h1, h2. split; [exact Ex1|]. split; [apply (set_cdr_done h1 dx c1 kx old old Es B1)|].
    split; [apply (correct_ext h); auto|]. split; [auto|]. split; [auto|].
    split; [intros; apply Same|]. split; [intros; apply Same2|].
    split; exists c1; rewrite Same2; auto.
  - assert (E2' : cells h1 dn = Some c2) by (unfold h1; rewrite set_other; auto).
    set (h2 := set_cell h1 dn (Some (with_body c2 (KPair kn old)))).
    exists h1, h2. split; [exact Ex1|]. split; [apply (set_cdr_done h1 dn c2 kn v old E2' B2)|].
    split.
    { pose proof (bounded _ _ C) as Bd.
      assert (L1 : (dx < nxt h)%N) by (apply Bd; unfold alive; congruence).
      assert (L2 : (dn < nxt h1)%N) by (change (nxt h1) with (nxt h); apply Bd; unfold alive; congruence).
      assert (Ed : forall b, cnt b (edges h2) = cnt b (edges h)).
      { intros b. pose proof (edges_set h dx c1 (with_body c1 (KPair kx v)) b E1 L1) as U1.
        pose proof (edges_set h1 dn c2 (with_body c2 (KPair kn old)) b E2' L2) as U2. fold h1 in U1. fold h2 in U2.
        unfold fields in U1, U2. cbn [body weak with_body] in U1, U2. rewrite B1, W1 in U1. rewrite B2, W2 in U2.
        cbn [cnt] in *. lia. }
      assert (Cell : forall a c', cells h2 a = Some c' -> exists c, cells h a = Some c /\ refs c' = refs c).
      { intros a c' Ea. unfold h2 in Ea. destruct (N.eq_dec a dn) as [->|N2].
        - rewrite set_same in Ea. injection Ea as <-. exists c2. auto.
        - rewrite set_other in Ea by auto. unfold h1 in Ea. destruct (N.eq_dec a dx) as [->|N1].
          + rewrite set_same in Ea. injection Ea as <-. exists c1. auto.
          + rewrite set_other in Ea by auto. eauto. }
      constructor.
      - intros a Al. change (nxt h2) with (nxt h). apply Bd. unfold alive in *. destruct (cells h2 a) as [c'|] eqn:Ea; [|congruence].
        destruct (Cell a c' Ea) as [c [X _]]. congruence.
      - intros a c' Ea. destruct (Cell a c' Ea) as [c [X Y]]. rewrite Ed, Y. apply (counted _ _ C); auto.
      - intros a P. rewrite Ed in P. apply (present _ _ C) in P. unfold alive in *. unfold h2.
        destruct (N.eq_dec a dn) as [->|N2]; [rewrite set_same; discriminate|]. rewrite set_other by auto. unfold h1.
        destruct (N.eq_dec a dx) as [->|N1]; [rewrite set_same; discriminate|]. rewrite set_other by auto. auto. }
    split; [auto|]. split; [auto|]. split; [intros a Na; unfold h1; rewrite set_other; auto|].
    split; [intros a N1 N2; unfold h2, h1; rewrite !set_other; auto|]. split.
    + exists (with_body c1 (KPair kx v)). unfold h2. rewrite set_other by auto. unfold h1. rewrite set_same. auto.
    + exists (with_body c2 (KPair kn old)). unfold h2. rewrite set_same. auto.
Qed.

(** Pairs that are not nodes may get other values. *)
Lemma sees_pairs : forall D ns bb cc wk cl h h' s, sees D ns bb cc wk cl h s ->
  (forall a, cells h' a = cells h a \/
     ((forall i, In i ns -> a <> i /\ a <> bb i /\ a <> cc i) /\
      exists k v v', cell_of h a (KPair k v) false /\ cell_of h' a (KPair k v') false)) ->
  sees D ns bb cc wk cl h' s.
Proof.
  intros D ns bb cc wk cl h h' s [A1 A2 A3 A4 A5 A6 A7] H. constructor; auto.
  - intros i Di Ki. destruct (A1 i Di Ki) as [c [E B]]. destruct (H i) as [X|[_ [k [v [v' [[c' [E' [B' _]]] _]]]]]]; [|congruence].
    exists c. rewrite X; auto.
  - intros i Hi. destruct (A2 i Hi) as [B1 B2 B3 [kc [v [B4 [ck [B5 B6]]]]]].
    assert (Keep : forall a k w, cell_of h a k w -> (exists j, In j ns /\ (a = j \/ a = bb j \/ a = cc j)) -> cell_of h' a k w).
    { intros a k w Ca [j [Hj Ej]]. destruct (H a) as [X|[X _]]; [apply (cell_keep h); auto|].
      exfalso. destruct (X j Hj) as [X1 [X2 X3]]. tauto. }
    constructor; [apply Keep; eauto|apply Keep; eauto|apply Keep; eauto|].
    assert (Ek : exists c, cells h' kc = Some c /\ body c = KSym (Tree.dkey s (Tree.dat s i))).
    { destruct (H kc) as [X|[_ [k [v0 [v' [[c' [E' [B' _]]] _]]]]]]; [|congruence]. exists ck. rewrite X; auto. }
    destruct (H (Tree.dat s i)) as [X|[_ [k [v0 [v' [[c' [E' [B' _]]] Cn]]]]]].
    + exists kc, v. split; auto. apply (cell_keep h); auto.
    + destruct B4 as [c4 [E4 [B4 W4]]]. rewrite E' in E4. injection E4 as <-. rewrite B' in B4. injection B4 as -> ->.
      exists kc, v'. auto.
Qed.

(** What is reachable from the root survives. *)
Lemma shrink_cell : forall h h' a k w, shrinks h h' -> alive h' a -> cell_of h a k w -> cell_of h' a k w.
Proof.
  intros h h' a k w [_ [_ S]] A [c [E [B W]]]. unfold alive in A. destruct (cells h' a) as [c'|] eqn:E'; [|congruence].
  destruct (S a c' E') as [c0 [E0 T]]. rewrite E in E0. injection E0 as <-. unfold stored in T. injection T as T1 T2 T3.
  exists c'. split; [auto|]. split; congruence.
Qed.
Lemma cell_fields : forall h R a x y w, correct h R -> cell_of h a (KPair x y) w -> alive h y /\ (w = false -> alive h x).
Proof.
  intros h R a x y w C [c [E [B W]]].
  assert (F : fields_at h a = if w then [y] else [x; y]) by (unfold fields_at; rewrite E; unfold fields; rewrite B, W; auto).
  split.
  - apply (fields_alive h R a y C). rewrite F. destruct w; cbn; auto.
  - intros ->. apply (fields_alive h R a x C). rewrite F. cbn; auto.
Qed.
Lemma sees_shrinks : forall bb cc wk cl h h' s sent t R, sees (dom sent t) (nodes t) bb cc wk cl h s -> okt s sent t -> is_nd t ->
  wk (tid t) = false -> shrinks h h' -> correct h' R -> alive h' (tid t) ->
  sees (dom sent t) (nodes t) bb cc wk cl h' s.
Proof.
  intros bb cc wk cl h h' s sent t R S O Nd W Sh C A. pose proof S as [A1 A2 A3 A4 A5 A6 A7].
  assert (NA : forall i, In i (nodes t) -> alive h' i -> node_at bb cc wk h' s i /\ alive h' (Tree.lf s i) /\ alive h' (Tree.rf s i) /\ (wk i = false -> alive h' (Tree.pf s i))).
  { intros i Hi Ai. destruct (A2 i Hi) as [B1 B2 B3 [kc [v [B4 [ck [B5 B6]]]]]].
    pose proof (shrink_cell _ _ _ _ _ Sh Ai B1) as B1'. destruct (cell_fields _ _ _ _ _ _ C B1') as [Ab Ad]. specialize (Ad eq_refl).
    pose proof (shrink_cell _ _ _ _ _ Sh Ab B2) as B2'. destruct (cell_fields _ _ _ _ _ _ C B2') as [Ac Al]. specialize (Al eq_refl).
    pose proof (shrink_cell _ _ _ _ _ Sh Ac B3) as B3'. destruct (cell_fields _ _ _ _ _ _ C B3') as [Ar Ap].
    pose proof (shrink_cell _ _ _ _ _ Sh Ad B4) as B4'. destruct (cell_fields _ _ _ _ _ _ C B4') as [_ Ak]. specialize (Ak eq_refl).
    split; [|auto]. constructor; auto. exists kc, v. split; auto.
    assert (Ck : cell_of h' kc (KSym (Tree.dkey s (Tree.dat s i))) (weak ck)).
    { apply (shrink_cell h h'); auto. exists ck; auto. }
    destruct Ck as [c' [X1 [X2 _]]]. exists c'; auto. }
  assert (All : forall t0 par, rt s par t0 -> incl (nodes t0) (nodes t) -> alive h' (tid t0) -> forall a, In a (ids t0) -> alive h' a).
  { induction t0 as [j|j l IHl r IHr]; intros par Rt I Aj a Ha.
    - destruct Ha as [<-|[]]. exact Aj.
    - cbn [rt] in Rt. destruct Rt as [H1 [H2 [H3 [H4 [H5 H6]]]]]. cbn [tid] in Aj.
      destruct (NA j) as [_ [Al [Ar _]]]; [apply I; cbn; apply in_or_app; right; left; auto|auto|]. rewrite H3 in Al. rewrite H4 in Ar.
      cbn [ids] in Ha. destruct Ha as [<-|Ha]; auto. apply in_app_iff in Ha. destruct Ha as [Ha|Ha].
      + apply (IHl j H5); auto. intros x Hx. apply I. cbn. apply in_or_app; auto.
      + apply (IHr j H6); auto. intros x Hx. apply I. cbn. apply in_or_app; right; right; auto. }
  destruct O as [Rt Ks ND].
  assert (Ids : forall a, dom sent t a -> alive h' a).
  { intros a [<-|Ha]; [|apply (All t sent Rt); auto; intros x; auto].
    destruct (NA (tid t) (root_in t Nd) A) as [_ [_ [_ P]]]. specialize (P W).
    destruct t as [|i l r]; [destruct Nd|]. cbn [rt] in Rt. destruct Rt as [_ [E _]]. cbn [tid] in P. congruence. }
  constructor; auto.
  - intros i Di Ki. destruct (A1 i Di Ki) as [c [E B]].
    assert (Ck : cell_of h' i KNil (weak c)) by (apply (shrink_cell h h'); auto; exists c; auto).
    destruct Ck as [c' [X1 [X2 _]]]. exists c'; auto.
  - intros i Hi. apply NA; auto. apply Ids. apply A4; auto.
Qed.

(** ** Before the node is placed *)
Definition rest (n : nat) (root nn : N) (cl : colours) : HM (N * colours) :=
  hbind_ (hadd_node n root nn) (fun next => hbind_ (test is_true_c next) (fun t =>
    if t : bool then hbind_ (to_weak false root) (fun _ => hbind_ (X nn) (fun _ => hbind_ (X next) (fun _ => done (root, cl))))
    else hbind_ (hcheck n cl next nn) (fun r => hbind_ (to_weak false (fst r)) (fun _ => done r)))).
Record prepared (b : N) (h : heap) (s : mem) (sent : N) (t : tr) (kv : N) (k : symbol) (v : N) (R : list N) (l : list (symbol * N))
  (h2 : heap) (cl1 : colours) (s1 : mem) (bb1 cc1 : N -> N) : Prop := mkprep {
  pr_correct : correct h2 (sent :: (nxt h + 4)%N :: tid t :: R);
  pr_sees : sees (with_new (dom sent t) (nxt h)) ((nxt h + 4)%N :: nodes t) bb1 cc1 (fun _ => true) cl1 h2 s1;
  pr_okt : okt s1 sent t;
  pr_kn : Tree.kind s1 (nxt h + 4)%N = NodeC;
  pr_ln : Tree.lf s1 (nxt h + 4)%N = nxt h;
  pr_rn : Tree.rf s1 (nxt h + 4)%N = (nxt h + 1)%N;
  pr_kl : Tree.kind s1 (nxt h) = NilC;
  pr_kr : Tree.kind s1 (nxt h + 1)%N = NilC;
  pr_key : key s1 (nxt h + 4)%N = k;
  pr_dat : Tree.dat s1 (nxt h + 4)%N = kv;
  pr_old : forall j, In j (nodes t) -> Tree.dat s1 j = Tree.dat s j /\ key s1 j = key s j;
  pr_col : Tree.col s1 (tid t) = false;
  pr_nd : NoDup ((nxt h + 4)%N :: nxt h :: (nxt h + 1)%N :: sent :: ids t);
  pr_vals : vals h2 s1 (nodes t) l;
  pr_kv : pair_kv h2 kv k v;
  pr_ev : evolves b h h2;
  pr_high : high b h2;
  pr_b : (b <= nxt h)%N;
  pr_tame : tame b h2;
  pr_flat : forall e, In e l -> (snd e < b)%N;
  pr_v : (v < b)%N
}.
Lemma vals_keep : forall h h' s s' l e, vals h s l e ->
  (forall j, In j l -> Tree.dat s' j = Tree.dat s j /\ key s' j = key s j) ->
  (forall j, In j l -> cells h' (Tree.dat s j) = cells h (Tree.dat s j)) -> vals h' s' l e.
Proof.
  intros h h' s s' l e V. induction V as [|i x l e [H1 [kc H2]] V IH]; intros A B; constructor.
  - destruct (A i (or_introl eq_refl)) as [A1 A2]. split; [congruence|]. exists kc. rewrite A1. apply (cell_keep h); auto. apply B; left; auto.
  - apply IH; intros j Hj; [apply A|apply B]; right; auto.
Qed.
Lemma pair_keep : forall h h' kv k v, pair_kv h kv k v -> cells h' kv = cells h kv ->
  (forall kc, (exists c, cells h kc = Some c /\ body c = KSym k) -> exists c, cells h' kc = Some c /\ body c = KSym k) -> pair_kv h' kv k v.
Proof. intros h h' kv k v [kc [A B]] E F. exists kc. split; [apply (cell_keep h); auto|auto]. Qed.

Lemma prepare : forall b h cl s sent t bb cc kv k v R l,
  correct h (tid t :: kv :: R) -> tree_inv h cl s sent t bb cc -> pair_kv h kv k v -> vals h s (nodes t) l ->
  high b h -> (b <= tid t)%N -> (b <= kv)%N -> tame b h -> (forall e, In e l -> (snd e < b)%N) -> (v < b)%N ->
  exists h2 cl1 s1 bb1 cc1, (forall n, hadd n cl (tid t) kv h = rest n (tid t) (nxt h + 4)%N cl1 h2) /\
    prepared b h s sent t kv k v R l h2 cl1 s1 bb1 cc1.
Proof.
  intros b h cl s sent t bb cc kv k v R l C [O Nd Hc So S] P V H Lt Lk Tm FL FV.
  pose proof (root_in t Nd) as Ir. pose proof (tree_high _ _ _ _ _ _ _ _ _ S H O Nd Lt) as HD.
  destruct (kv_apart _ _ _ _ _ _ _ _ kv k v S P (dom_live _ _ _ O) (tid t) Ir) as [_ [_ Nkv]].
  destruct (se_node _ _ _ _ _ _ _ _ S (tid t) Ir) as [N1 N2 N3 N4]. pose proof N3 as [c3 [E3 [B3 W3]]].
  assert (Wr : but_root t (tid t) = false) by (unfold but_root; rewrite N.eqb_refl; auto). rewrite Wr in W3.
  assert (Pf : Tree.pf s (tid t) = sent).
  { destruct t as [|i lt rt0]; [destruct Nd|]. destruct O as [Rt _ _]. cbn [rt] in Rt. cbn [tid]. tauto. }
  rewrite Pf in B3.
  set (h1 := set_cell h (cc (tid t)) (Some (with_weak c3 true))).
  assert (TW : to_weak true (tid t) h = Done tt h1).
  { eapply (to_weak_done h (tid t)); eauto. }
  assert (C1 : correct h1 (sent :: kv :: tid t :: R)).
  { apply (correct_set h (cc (tid t)) c3 (with_weak c3 true) (tid t :: kv :: R)); auto.
    intros x. unfold fields. cbn [body weak with_weak]. rewrite B3, W3. cbn [cnt]. lia. }
  assert (S1 : sees (dom sent t) (nodes t) bb cc (fun _ => true) cl h1 s).
  { apply (sees_weak (dom sent t) (nodes t) bb cc (but_root t)); auto.
    intros i Hi Ni. unfold but_root. apply N.eqb_neq in Ni. rewrite Ni. auto. }
  pose proof (bounded _ _ C1) as Bd.
  assert (Old1 : forall x, x <> cc (tid t) -> cells h1 x = cells h x) by (intros x Nx; unfold h1; rewrite set_other; auto).
  assert (Ksym : forall kc q, (exists c, cells h kc = Some c /\ body c = KSym q) -> exists c, cells h1 kc = Some c /\ body c = KSym q).
  { intros kc q [c [E B]]. exists c. split; auto. rewrite Old1; auto. intros ->. congruence. }
  assert (P1 : pair_kv h1 kv k v) by (apply (pair_keep h); auto).
  assert (V1 : vals h1 s (nodes t) l).
  { apply (vals_keep h h1 s s); auto. intros j Hj. apply Old1. intros E. 
    apply (ap_cd _ _ _ _ (se_apart _ _ _ _ _ _ _ _ S) (tid t) j); auto. }
  assert (Hb : (b <= cc (tid t))%N) by (destruct (node_high _ _ _ _ _ _ _ _ b (tid t) S H (dom_live _ _ _ O) Ir Lt) as [_ [_ [Q _]]]; auto).
  assert (Ev1 : evolves b h h1).
  { apply (evolves_set b h (cc (tid t)) c3); auto. unfold is_pair_c. rewrite B3; auto. }
  assert (H1 : high b h1).
  { apply (high_set b h (cc (tid t)) c3); auto; [unfold is_pair_c; rewrite B3; auto|]. intros x y Bx. cbn [body with_weak] in Bx. apply (H (cc (tid t)) c3 x y); auto. }
  destruct (se_node _ _ _ _ _ _ _ _ S1 (tid t) Ir) as [M1 M2 M3 M4].
  assert (RP : root_parent h1 (tid t) sent).
  { right. exists (Tree.dat s (tid t)), (bb (tid t)), (Tree.lf s (tid t)), (cc (tid t)), (Tree.rf s (tid t)).
    split; auto. split; auto. rewrite <- Pf. exists true. auto. }
  assert (Alr : alive h1 (tid t)) by (destruct M1 as [c [E _]]; unfold alive; congruence).
  destruct (hnew_ok h1 cl (tid t) kv sent (tid t :: R) C1 Alr RP) as [h2 [HN [C2 NN]]].
  change (nxt h1) with (nxt h) in *.
  assert (DA : forall a, dom sent t a -> (a < nxt h)%N).
  { intros a Da. apply Bd. destruct (l_alive _ _ _ _ _ _ _ _ S1 a Da) as [c E]; [apply (dom_live _ _ _ O); auto|unfold alive; congruence]. }
  pose proof (sees_new (dom sent t) (nodes t) bb cc cl h1 h2 s sent kv k v S1 NN P1 Bd DA (dom_live _ _ _ O) (or_introl eq_refl)) as S2.
  change (nxt h1) with (nxt h) in *.
  set (s1 := new_mem s (nxt h) sent kv k) in *.
  assert (LT : forall i, In i (sent :: ids t) -> (i < nxt h)%N) by (intros i Hi; apply DA; auto).
  assert (Same : forall i, In i (sent :: ids t) -> TreeProofs.same_at s s1 i).
  { intros i Hi. apply LT in Hi. unfold TreeProofs.same_at, s1, new_mem. cbn [Tree.kind Tree.lf Tree.pf Tree.rf].
    rewrite !TreeProofs.upN_other by lia. auto. }
  assert (O2 : okt s1 sent t).
  { destruct O as [Rt Ks NDu]. constructor; auto.
    - apply (TreeProofs.rt_ext t s); auto. intros i Hi. apply Same. right; auto.
    - destruct (Same sent (or_introl eq_refl)) as [E _]. congruence. }
  assert (Bb : (b <= nxt h)%N).
  { assert (tid t < nxt h)%N by (apply LT; right; apply TreeProofs.tid_in_ids). lia. }
  destruct (new_node_evolves b h1 h2 sent kv NN) as [Ev2 H2]; auto; [intros a Al; apply (bounded _ _ C2); auto|apply HD; left; auto|].
  assert (Old2 : forall x, (x < nxt h)%N -> cells h2 x = cells h1 x) by (apply (nn_old _ _ _ _ NN)).
  assert (Al1 : forall a x w, cell_of h1 a x w -> (a < nxt h)%N) by (intros a x w [c [E _]]; apply Bd; unfold alive; congruence).
  assert (Ksym2 : forall kc q, (exists c, cells h1 kc = Some c /\ body c = KSym q) -> exists c, cells h2 kc = Some c /\ body c = KSym q).
  { intros kc q [c [E B]]. exists c. split; auto. rewrite Old2; auto. apply Bd. unfold alive; congruence. }
  assert (Lkv : (kv < nxt h)%N) by (destruct P1 as [kc [Ck _]]; eauto).
  assert (P2 : pair_kv h2 kv k v) by (apply (pair_keep h1); auto).
  assert (Dt : forall j, In j (nodes t) -> Tree.dat s1 j = Tree.dat s j /\ key s1 j = key s j).
  { intros j Hj. assert (j < nxt h)%N by (apply LT; right; apply TreeProofs.nodes_in_ids; auto).
    assert (Ed : Tree.dat s1 j = Tree.dat s j) by (unfold s1, new_mem; cbn [Tree.dat]; rewrite TreeProofs.upN_other by lia; auto).
    split; auto. unfold key. rewrite Ed.
    destruct (na_d _ _ _ _ _ _ (se_node _ _ _ _ _ _ _ _ S1 j Hj)) as [kc [vv [[c4 [X4 [Y4 _]]] [ck [X5 Y5]]]]].
    unfold s1, new_mem. cbn [Tree.dkey]. unfold upN. destruct (N.eqb_spec (Tree.dat s j) kv) as [Ex|Nx]; auto.
    destruct P1 as [kc' [[c' [X' [Y' _]]] [ck' [X'' Y'']]]]. rewrite Ex, X' in X4. injection X4 as <-. rewrite Y' in Y4. injection Y4 as <- <-.
    rewrite X'' in X5. injection X5 as <-. rewrite Y'' in Y5. injection Y5 as Y5. exact Y5. }
  assert (V2 : vals h2 s1 (nodes t) l).
  { apply (vals_keep h1 h2 s s1); auto. intros j Hj. apply Old2.
    destruct (na_d _ _ _ _ _ _ (se_node _ _ _ _ _ _ _ _ S1 j Hj)) as [kc [vv [Cd _]]]. eauto. }
  assert (T1 : tame b h1).
  { apply (tame_change b h h1 Tm). intros a La. left. intros x [Lx Hx]. left. split; auto. unfold fields_at, h1 in *.
    destruct (N.eq_dec a (cc (tid t))) as [->|Na]; [|rewrite set_other in Hx by auto; auto]. rewrite set_same in Hx. rewrite E3.
    unfold fields in *. cbn [body weak with_weak] in Hx. rewrite B3 in *. rewrite W3. cbn [In] in *. tauto. }
  assert (T2 : tame b h2) by (apply (tame_new b h1 h2 sent kv _ _ T1 C1 C2 NN); auto).
  set (cl1 := new_colours cl (nxt h)) in *.
  exists h2, cl1, s1, (upN bb (nxt h + 4) (nxt h + 3))%N, (upN cc (nxt h + 4) (nxt h + 2))%N.
  split.
  - intros n. unfold hadd. rewrite (hbind_done _ _ _ _ _ TW), (hbind_done _ _ _ _ _ HN). cbn [fst snd].
    assert (CO : COLOR (paint (paint (paint cl (nxt h) false) (nxt h + 1) false) (nxt h + 4) false) (nxt h + 4) true h2 = Done cl1 h2).
    { pose proof (nn_3 _ _ _ _ NN) as Q3. change (nxt h1) with (nxt h) in Q3. unfold COLOR, hbind_, rd. rewrite Q3. reflexivity. }
    rewrite (hbind_done _ _ _ _ _ CO). reflexivity.
  - constructor; auto; try (unfold s1, new_mem; cbn [Tree.kind Tree.lf Tree.pf Tree.rf Tree.col Tree.dat Tree.dkey];
      rewrite ?TreeProofs.upN_same, ?TreeProofs.upN_other by lia; rewrite ?TreeProofs.upN_same; auto; fail).
    + unfold s1, key, new_mem. cbn [Tree.dat Tree.dkey]. rewrite TreeProofs.upN_same, TreeProofs.upN_same. auto.
    + assert (tid t < nxt h)%N by (apply LT; right; apply TreeProofs.tid_in_ids).
      unfold s1, new_mem. cbn [Tree.col]. rewrite !TreeProofs.upN_other by lia. auto.
    + assert (Fr : forall q, (nxt h <= q)%N -> ~ In q (sent :: ids t)) by (intros q Lq Hq; apply LT in Hq; lia).
      destruct O as [_ _ NDu].
      constructor; [intros [E|[E|Hq]]; [lia|lia|apply (Fr (nxt h + 4)%N); auto; lia]|].
      constructor; [intros [E|Hq]; [lia|apply (Fr (nxt h)); auto; lia]|].
      constructor; [intros Hq; apply (Fr (nxt h + 1)%N); auto; lia|auto].
    + apply (evolves_trans b h h1 h2); auto.
Qed.
Lemma vals_at : forall h s l e j, vals h s l e -> In j l -> exists x, In x e /\ val_of h (Tree.dat s j) (snd x).
Proof.
  intros h s l e j V. induction V as [|i x l e [H1 H2] V IH]; intros Hj; [destruct Hj|]. destruct Hj as [<-|Hj].
  - exists x. split; auto. left; auto.
  - destruct (IH Hj) as [y [Y1 Y2]]. exists y. split; auto. right; auto.
Qed.
Lemma val_fun : forall h d k v v', cell_of h d (KPair k v) false -> val_of h d v' -> v' = v.
Proof. intros h d k v v' [c [E [B _]]] [k' [c' [E' [B' _]]]]. congruence. Qed.
Lemma sym_leafy : forall h kc k R, correct h R -> (exists c, cells h kc = Some c /\ body c = KSym k) -> leafy h kc.
Proof.
  intros h kc k R C [c [E B]]. split; [apply (bounded _ _ C); unfold alive; congruence|]. apply (cell_leaf h kc c); auto. unfold is_pair_c. rewrite B; auto.
Qed.
Lemma unweak_tame : forall b h D ns bb cc wk cl s r c, tame b h -> sees D ns bb cc wk cl h s -> In r ns -> cells h (cc r) = Some c ->
  Tree.kind s (Tree.pf s r) = NilC -> tame b (set_cell h (cc r) (Some (with_weak c false))).
Proof.
  intros b h D ns bb cc wk cl s r c T S Hr E K. destruct (se_node _ _ _ _ _ _ _ _ S r Hr) as [_ _ [c3 [E3 [B3 W3]]] _].
  rewrite E in E3. injection E3 as <-. apply (tame_change b h _ T). intros a La. left. intros x [Lx Hx].
  unfold fields_at in Hx. destruct (N.eq_dec a (cc r)) as [->|Na]; [|rewrite set_other in Hx by auto; left; split; auto].
  rewrite set_same in Hx. unfold fields in Hx. cbn [body weak with_weak] in Hx. rewrite B3 in Hx.
  destruct Hx as [<-|[<-|[]]].
  - right. destruct (se_close _ _ _ _ _ _ _ _ S r Hr) as [_ [Dp _]]. destruct (se_nil _ _ _ _ _ _ _ _ S _ Dp K) as [c0 [E0 B0]].
    apply (cell_leaf _ _ c0); [|unfold is_pair_c; rewrite B0; auto]. rewrite set_other; auto. intros Ep. rewrite Ep in E0. congruence.
  - left. split; auto. unfold fields_at. rewrite E. unfold fields. rewrite B3. destruct (weak c); cbn; auto.
Qed.

(** ** Sorted tables *)
Fixpoint put {A} (k : symbol) (v : A) (l : list (symbol * A)) : list (symbol * A) :=
  match l with
  | [] => [(k, v)]
  | (k', v') :: l' =>
      match sym_compare k k' with
      | Lt => (k, v) :: l
      | Eq => (k, v) :: l'
      | Gt => (k', v') :: put k v l'
      end
  end.
Lemma put_new : forall A k (v : A) l1 l2, (forall e, In e l1 -> sym_lt (fst e) k) -> (forall e, In e l2 -> sym_lt k (fst e)) ->
  put k v (l1 ++ l2) = l1 ++ (k, v) :: l2.
Proof.
  intros A k v l1 l2. induction l1 as [|[k' v'] l1 IH]; intros H1 H2; cbn [app].
  - destruct l2 as [|[k' v'] l2]; auto. cbn [put]. assert (E : sym_compare k k' = Lt) by (apply memcmp_lt; apply (H2 (k', v')); left; auto).
    rewrite E. auto.
  - cbn [put]. assert (E : sym_compare k k' = Gt) by (apply memcmp_gt; apply (H1 (k', v')); left; auto).
    rewrite E, IH; auto. intros e He. apply H1; right; auto.
Qed.
Lemma put_old : forall A k (v v0 : A) l1 l2, (forall e, In e l1 -> sym_lt (fst e) k) ->
  put k v (l1 ++ (k, v0) :: l2) = l1 ++ (k, v) :: l2.
Proof.
  intros A k v v0 l1 l2. induction l1 as [|[k' v'] l1 IH]; intros H1; cbn [app put].
  - assert (E : sym_compare k k = Eq) by (apply memcmp_refl). rewrite E. auto.
  - assert (E : sym_compare k k' = Gt) by (apply memcmp_gt; apply (H1 (k', v')); left; auto).
    rewrite E, IH; auto. intros e He. apply H1; right; auto.
Qed.
Lemma vals_length : forall h s l e, vals h s l e -> length l = length e.
Proof. intros h s l e V. induction V; cbn [length]; auto. Qed.
Lemma vals_keys : forall h s l e (P : symbol -> Prop), vals h s l e -> (forall j, In j l -> P (key s j)) -> forall x, In x e -> P (fst x).
Proof.
  intros h s l e P V. induction V as [|i x l e [H1 _] V IH]; intros H y Hy; [destruct Hy|]. destruct Hy as [<-|Hy].
  - rewrite H1. apply H; left; auto.
  - apply IH; auto. intros j Hj. apply H; right; auto.
Qed.
Lemma nodes_nodup : forall t, NoDup (ids t) -> NoDup (nodes t).
Proof.
  induction t as [i|i l IHl r IHr]; intros H; [constructor|]. cbn [ids] in H. inversion H as [|? ? N0 H0]; subst. cbn [nodes].
  apply NoDup_Add with (a := i) (l := nodes l ++ nodes r); [apply Add_app|]. split.
  - assert (D : forall x, In x (ids l) -> In x (ids r) -> False).
    { intros x A B. clear - H0 A B. induction (ids l) as [|y q IH]; [destruct A|]. cbn [app] in H0. inversion H0 as [|? ? M1 M2]; subst.
      destruct A as [->|A]; [apply M1; apply in_or_app; auto|auto]. }
    pose proof (TreeProofs.NoDup_app_remove_r _ _ _ H0) as Hl. pose proof (TreeProofs.NoDup_app_remove_l _ _ _ H0) as Hr.
    assert (Dn : forall x, In x (nodes l) -> In x (nodes r) -> False) by (intros x A B; apply (D x); apply TreeProofs.nodes_in_ids; auto).
    specialize (IHl Hl). specialize (IHr Hr). clear - IHl IHr Dn. induction (nodes l) as [|y q IH]; cbn [app]; auto.
    inversion IHl as [|? ? M1 M2]; subst. constructor.
    + intros X. apply in_app_iff in X. destruct X as [X|X]; [auto|apply (Dn y); auto; left; auto].
    + apply IH; auto. intros x A B. apply (Dn x); auto. right; auto.
  - intros X. apply N0. apply in_app_iff in X. apply in_or_app. destruct X; [left|right]; apply TreeProofs.nodes_in_ids; auto.
Qed.
Lemma depth_height : forall c t, depth c + height t <= height (plug c t).
Proof.
  induction c as [|c IH i r|c IH i l]; intros t; cbn [depth plug]; [lia| |]; match goal with |- context[plug c ?u] => specialize (IH u) end;
    cbn [height] in IH; lia.
Qed.
Lemma height_nodes : forall t, height t <= length (nodes t).
Proof. induction t as [|i l IHl r IHr]; cbn [height nodes length]; [lia|]. rewrite app_length. cbn [length]. lia. Qed.

(** ** A new name *)
Lemma add_new : forall b h s sent c i kv k v R l h2 cl1 s1 bb1 cc1 n, 
  prepared b h s sent (plug c (Lf i)) kv k v R l h2 cl1 s1 bb1 cc1 ->
  ssorted (map (key s) (nodes (plug c (Lf i)))) -> c <> Top -> height (plug c (Lf i)) < n -> (b <= tid (plug c (Lf i)))%N -> (b <= kv)%N ->
  (forall j, In j (cbefore c) -> sym_lt (key s1 j) k) -> (forall j, In j (cafter c) -> sym_lt k (key s1 j)) ->
  hdescend n k (tid (plug c (Lf i))) (tid (plug c (Lf i))) h2 = Done (inl (pid c sent)) h2 ->
  exists h' cl' s' t' bb' cc', rest n (tid (plug c (Lf i))) (nxt h + 4)%N cl1 h2 = Done (tid t', cl') h' /\
    correct h' (tid t' :: R) /\ tree_inv h' cl' s' sent t' bb' cc' /\ vals h' s' (nodes t') (put k v l) /\
    evolves b h h' /\ high b h' /\ (b <= tid t')%N /\ tame b h'.
Proof.
  intros b h s sent c i kv k v R l h2 cl1 s1 bb1 cc1 n [C2 S1 O1 Kn Ln Rn KL KR Kk Kd Dt Hc ND V2 P2 Ev2 H2 Lb Tm FL FV] So Ct Hh Lt Lk HB HA HE.
  set (T := plug c (Lf i)) in *. set (nn := (nxt h + 4)%N) in *. set (D := with_new (dom sent T) (nxt h)) in *.
  set (ns := nn :: nodes T) in *. set (L := nxt h) in *. set (r := (nxt h + 1)%N) in *.
  assert (DT : forall a, dom sent T a -> D a) by (intros a Ha; right; right; right; auto).
  assert (HD : forall a, In a (nn :: L :: r :: sent :: ids T) -> D a).
  { intros a [<-|[<-|[<-|Ha]]]; [right; right; left; auto|left; auto|right; left; auto|apply DT; auto]. }
  destruct (link_step D ns bb1 cc1 cl1 h2 s1 sent nn L r _ S1 C2 n c i O1 Ct Kn Ln Rn KL KR ND HD) as [h5 [s3 [E5 [RL5 [S3 [O3 [Dd3 [Dk3 [Co3 Bare]]]]]]]]].
  { rewrite Kk; auto. } { rewrite Kk; auto. } { rewrite Kk; auto. }
  fold T in E5.
  assert (NDi : NoDup (ids T)) by (destruct O1 as [_ _ Q]; inversion Q; auto).
  assert (NnT : ~ In nn (ids T)).
  { inversion ND as [|? ? X _]; subst. intros X'. apply X. right; right; right; auto. }
  assert (NDs : NoDup ns).
  { constructor; [intros X; apply NnT; apply TreeProofs.nodes_in_ids; auto|apply nodes_nodup; auto]. }
  assert (Dp : depth c < n) by (pose proof (depth_height c (Lf i)); fold T in H; lia).
  assert (Dr : D (tid T)) by (apply DT; right; apply TreeProofs.tid_in_ids).
  assert (Rt1 : rt s1 sent T) by (destruct O1; auto).
  destruct (finish D ns bb1 cc1 n cl1 cl1 h2 h5 s1 s3 sent c nn L r i R C2 S1 RL5 S3 O3 Ct Dp) as [cl' [h6 [s6 [t' [E6 [O6 [N6 [I6 [S6 [RL6 [Dd6 [Dk6 [Co6 C6]]]]]]]]]]]]]; auto.
  { rewrite Co3; auto. } { apply HD; left; auto. }
  assert (Nt : nodes T = cbefore c ++ cafter c) by (unfold T; rewrite TreeProofs.nodes_plug; auto).
  assert (Key6 : forall j, key s6 j = key s1 j) by (intros j; unfold key; rewrite Dd6, Dk6; auto).
  assert (Nd' : is_nd t') by (destruct t'; [cbn [nodes] in N6; destruct (cbefore c); discriminate|exact I]).
  pose proof (root_in t' Nd') as Ir.
  assert (Ins : forall j, In j (nodes t') <-> In j ns).
  { intros j. rewrite N6. unfold ns. rewrite Nt. cbn [In]. rewrite !in_app_iff. cbn [In]. tauto. }
  assert (Idom : forall a, dom sent t' a -> D a).
  { intros a [<-|Ha]; [apply DT; left; auto|]. apply (Permutation_in _ I6) in Ha.
    pose proof (ids_swap c i nn L r) as Q. apply (Permutation_in a) in Q; [|right; auto]. apply HD. cbn [In] in *. tauto. }
  assert (S6' : sees (dom sent t') (nodes t') bb1 cc1 (fun _ => true) cl' h6 s6).
  { apply (sees_part D (dom sent t') ns (nodes t')); auto.
    - intros j Hj. apply Ins; auto.
    - intros j _ Hj. apply Ins; auto.
    - intros j Hj. right. apply TreeProofs.nodes_in_ids; auto.
    - intros j Hj. destruct O6 as [Rt6 _ _]. apply (rt_closed t' s6 sent); auto; [left; auto|intros a Ha; right; auto]. }
  destruct (se_node _ _ _ _ _ _ _ _ S6' (tid t') Ir) as [M1 M2 [c3 [E3 [B3 W3]]] M4].
  assert (Pf : Tree.pf s6 (tid t') = sent).
  { destruct t' as [|i' lt rt0]; [destruct Nd'|]. destruct O6 as [Rt _ _]. cbn [rt] in Rt. cbn [tid]. tauto. }
  rewrite Pf in B3.
  set (h7 := set_cell h6 (cc1 (tid t')) (Some (with_weak c3 false))).
  assert (TW : to_weak false (tid t') h6 = Done tt h7) by (eapply (to_weak_done h6 (tid t')); eauto).
  assert (C7 : correct h7 (tid t' :: R)).
  { apply (correct_set h6 (cc1 (tid t')) c3 (with_weak c3 false) (tid t' :: sent :: R)); auto.
    intros x. unfold fields. cbn [body weak with_weak]. rewrite B3, W3. cbn [cnt]. lia. }
  assert (S7 : sees (dom sent t') (nodes t') bb1 cc1 (but_root t') cl' h7 s6).
  { apply (sees_weak (dom sent t') (nodes t') bb1 cc1 (fun _ => true)); auto.
    - unfold but_root. rewrite N.eqb_refl; auto.
    - intros j Hj Nj. unfold but_root. apply N.eqb_neq in Nj. rewrite Nj; auto. }
  assert (Hb2 : forall a, D a -> (b <= a)%N).
  { intros a [->|[->|[->|Ha]]]; [lia|lia|lia|].
    assert (Sp : sees (dom sent T) (nodes T) bb1 cc1 (fun _ => true) cl1 h2 s1).
    { apply (sees_part D (dom sent T) ns (nodes T)); auto.
      - intros j Hj; right; auto.
      - intros j Dj [<-|Hj]; auto. exfalso. destruct Dj as [E|Dj]; [|auto].
        inversion ND as [|? ? X _]; subst. apply X. right; right; left; auto.
      - intros j Hj. right. apply TreeProofs.nodes_in_ids; auto.
      - intros j Hj. apply (rt_closed T s1 sent); auto; [left; auto|intros a' Ha'; right; auto]. }
    apply (tree_high _ _ _ _ _ _ _ _ _ Sp H2 O1); auto.
    unfold T. destruct (plug c (Lf i)) eqn:Ep; [|exact I]. fold T in Nt. destruct c; [congruence| |]; cbn [plug] in Ep; exfalso; exact (plug_nd _ _ _ _ _ Ep). }
  assert (LF2 : forall a, D a -> Tree.kind s1 a <> Tree.Free).
  { intros a [->|[->|[->|Ha]]]; [fold L; congruence|fold r; congruence|fold nn; congruence|apply (dom_live _ _ _ O1); auto]. }
  assert (Di : D i) by (apply DT; right; unfold T; apply (TreeProofs.in_plug c); left; auto).
  destruct (links_evolves D ns bb1 cc1 _ cl1 b i h2 h6 s1 _ cl' s6 RL6 S1 S6 H2 LF2 Hb2 (Hb2 i Di) Dd6) as [Ev6 H6].
  assert (Lr : (b <= tid t')%N) by (apply Hb2; apply Idom; right; apply TreeProofs.tid_in_ids).
  assert (Ev7 : evolves b h6 h7).
  { apply (evolves_set b h6 (cc1 (tid t')) c3); auto.
    - destruct (node_high _ _ _ _ _ _ _ _ b (tid t') S6' H6 (dom_live _ _ _ O6) Ir Lr) as [_ [_ [Q _]]]; auto.
    - unfold is_pair_c. rewrite B3; auto. }
  assert (H7 : high b h7).
  { apply (high_set b h6 (cc1 (tid t')) c3); auto; [destruct (node_high _ _ _ _ _ _ _ _ b (tid t') S6' H6 (dom_live _ _ _ O6) Ir Lr) as [_ [_ [Q _]]]; auto|unfold is_pair_c; rewrite B3; auto|].
    intros x y Bx. cbn [body with_weak] in Bx.
    destruct (node_high _ _ _ _ _ _ _ _ b (tid t') S6' H6 (dom_live _ _ _ O6) Ir Lr) as [_ [_ [Q _]]]. apply (H6 (cc1 (tid t')) c3 x y); auto. }
  (* the data cells *)
  pose proof (se_apart _ _ _ _ _ _ _ _ S1) as Ap.
  assert (Dc6 : forall j, In j ns -> cells h6 (Tree.dat s1 j) = cells h2 (Tree.dat s1 j)).
  { intros j Hj. destruct RL6 as [_ [_ [Ro [c0 [r0 [F1 [_ [F3 _]]]]]]]].
    destruct (Ro (Tree.dat s1 j)) as [E|[[q [Hq [E|E]]] _]]; auto.
    - intros E. destruct (na_d _ _ _ _ _ _ (se_node _ _ _ _ _ _ _ _ S1 j Hj)) as [kc [vv [[c4 [X4 [Y4 _]]] _]]].
      rewrite E, F1 in X4. injection X4 as <-. unfold is_pair_c in F3. rewrite Y4 in F3. discriminate.
    - exfalso. apply (ap_bd _ _ _ _ Ap q j); auto.
    - exfalso. apply (ap_cd _ _ _ _ Ap q j); auto. }
  assert (Dc : forall j, In j ns -> cells h7 (Tree.dat s1 j) = cells h2 (Tree.dat s1 j)).
  { intros j Hj. unfold h7. rewrite set_other by (intros E; apply (ap_cd _ _ _ _ Ap (tid t') j); auto; apply Ins; auto). auto. }
  assert (FD : forall j, In j ns -> flat_data b h6 s6 j).
  { intros j Hj. destruct (na_d _ _ _ _ _ _ (se_node _ _ _ _ _ _ _ _ S1 j Hj)) as [kc [vv [Cd Hk]]].
    exists kc, vv. rewrite Dd6. split; [apply (cell_keep h2); auto|]. split; [apply (leafy_evolves b h2 h6 kc Ev6), (sym_leafy h2 kc _ _ C2 Hk)|].
    destruct Hj as [<-|Hj].
    - rewrite Kd in Cd. destruct P2 as [kn [Cn _]]. assert (Vn : val_of h2 kv v) by (exists kn; auto). rewrite <- (val_fun _ _ _ _ _ Cd Vn). auto.
    - destruct (vals_at _ _ _ _ j V2 Hj) as [e [He Ve]]. rewrite <- (val_fun _ _ _ _ _ Cd Ve). auto. }
  assert (T6 : tame b h6).
  { destruct O6 as [Rt6 _ _]. apply (tame_relinked b D ns bb1 cc1 i cl' h2 h6 s6 t' sent); auto.
    - intros j. rewrite Ins. tauto.
    - apply Idom. right. apply TreeProofs.tid_in_ids. }
  assert (T7 : tame b h7).
  { apply (unweak_tame b h6 (dom sent t') (nodes t') bb1 cc1 (fun _ => true) cl' s6 (tid t') c3); auto. rewrite Pf. destruct O6; auto. }
  assert (V7 : vals h7 s6 (nodes t') (put k v l)).
  { rewrite Nt in V2. destruct (Forall2_app_inv_l _ _ V2) as [l1 [l2 [W1 [W2 ->]]]].
    rewrite (put_new _ k v l1 l2); [|apply (vals_keys _ _ _ _ (fun q => sym_lt q k) W1); auto|apply (vals_keys _ _ _ _ (fun q => sym_lt k q) W2); auto].
    rewrite N6. apply Forall2_app.
    - apply (vals_keep h2 h7 s1 s6 (cbefore c)); auto; intros j Hj; [rewrite Dd6, Key6; auto|].
      apply Dc. right. rewrite Nt. apply in_or_app; auto.
    - constructor.
      + split; [rewrite Key6; auto|]. cbn [snd]. destruct P2 as [kc [Ck _]]. exists kc. rewrite Dd6, Kd. apply (cell_keep h2); auto.
        rewrite <- Kd. apply Dc. left; auto.
      + apply (vals_keep h2 h7 s1 s6 (cafter c)); auto; intros j Hj; [rewrite Dd6, Key6; auto|].
        apply Dc. right. rewrite Nt. apply in_or_app; auto. }
  exists h7, cl', s6, t', bb1, cc1. split.
  { unfold rest. rewrite (hbind_done _ _ _ _ _ E5).
    assert (TT : test is_true_c (tid T) h5 = Done false h5).
    { assert (Hn : In (tid T) ns).
      { right. apply root_in. unfold T. destruct (plug c (Lf i)) eqn:Ep; [|exact I]. destruct c; [congruence| |]; cbn [plug] in Ep; exfalso; exact (plug_nd _ _ _ _ _ Ep). }
      destruct (na_1 _ _ _ _ _ _ (se_node _ _ _ _ _ _ _ _ S3 (tid T) Hn)) as [c1 [X1 [Y1 _]]].
      unfold test, hbind_, rd. rewrite X1. unfold is_true_c. rewrite Y1. reflexivity. }
    rewrite (hbind_done _ _ _ _ _ TT). cbn [fst]. rewrite (hbind_done _ _ _ _ _ E6). cbn [fst].
    rewrite (hbind_done _ _ _ _ _ TW). reflexivity. }
  split; [exact C7|]. split.
  { constructor; auto. rewrite (map_ext _ _ Key6), N6, map_app. cbn [map]. rewrite Kk.
    assert (So1 : ssorted (map (key s1) (nodes T))).
    { rewrite (map_ext_in (key s1) (key s)); auto. intros j Hj. apply Dt; auto. }
    rewrite Nt, map_app in So1. apply TreeProofs.ssorted_app in So1. destruct So1 as [Z1 [Z2 Z3]].
    apply TreeProofs.ssorted_app. split; auto. split.
    - constructor; auto. apply Forall_forall. intros x Hx. apply in_map_iff in Hx. destruct Hx as [j [<- Hj]]. auto.
    - intros x y Hx [<-|Hy]; [|auto]. apply in_map_iff in Hx. destruct Hx as [j [<- Hj]]. auto. }
  split; [exact V7|]. split; [|tauto].
  apply (evolves_trans b h h2); auto. apply (evolves_trans b h2 h6); auto.
Qed.

(** ** A name that is there *)
Lemma sees_grow : forall D ns bb cc wk cl h h' s, sees D ns bb cc wk cl h s ->
  (forall a c, cells h a = Some c -> cells h' a = Some c) -> sees D ns bb cc wk cl h' s.
Proof.
  intros D ns bb cc wk cl h h' s [A1 A2 A3 A4 A5 A6 A7] H.
  assert (K : forall a k w, cell_of h a k w -> cell_of h' a k w) by (intros a k w [c [E [B W]]]; exists c; auto).
  constructor; auto.
  - intros i Di Ki. destruct (A1 i Di Ki) as [c [E B]]. eauto.
  - intros i Hi. destruct (A2 i Hi) as [B1 B2 B3 [kc [v [B4 [ck [B5 B6]]]]]]. constructor; auto. exists kc, v. split; auto. exists ck. auto.
Qed.
Lemma swap_high : forall b h h' dx dn kx kn old v, nxt h' = nxt h -> aux h' = aux h ->
  (forall a, a <> dx -> a <> dn -> cells h' a = cells h a) ->
  cell_of h dx (KPair kx old) false -> cell_of h dn (KPair kn v) false ->
  cell_of h' dx (KPair kx v) false -> cell_of h' dn (KPair kn old) false ->
  (b <= dx)%N -> (b <= dn)%N -> high b h -> symish h kx -> symish h kn -> evolves b h h' /\ high b h'.
Proof.
  intros b h h' dx dn kx kn old v En Ea Ho [c1 [E1 [B1 _]]] [c2 [E2 [B2 _]]] [c3 [E3 [B3 _]]] [c4 [E4 [B4 _]]] L1 L2 H Sx Sn.
  destruct (H dx c1 kx old L1 E1 B1) as [P1 _]. destruct (H dn c2 kn v L2 E2 B2) as [P3 _].
  assert (Ev : evolves b h h').
  { constructor; [lia|auto|].
    intros a c' _ E. destruct (N.eq_dec a dx) as [->|N1]; [exists c1; split; auto; unfold is_pair_c; rewrite B1; intros [Q|Q]; [lia|discriminate]|].
    destruct (N.eq_dec a dn) as [->|N2]; [exists c2; split; auto; unfold is_pair_c; rewrite B2; intros [Q|Q]; [lia|discriminate]|].
    rewrite Ho in E by auto. eauto. }
  split; auto. intros a c x y La E B. destruct (N.eq_dec a dx) as [->|N1].
  { rewrite E3 in E. injection E as <-. rewrite B3 in B. injection B as <- <-. split; auto. right. eapply symish_evolves; eauto. }
  destruct (N.eq_dec a dn) as [->|N2].
  { rewrite E4 in E. injection E as <-. rewrite B4 in B. injection B as <- <-. split; auto. right. eapply symish_evolves; eauto. }
  rewrite Ho in E by auto. destruct (H a c x y La E B) as [Q1 Q2]. split; auto. destruct Q2; auto. right. eapply symish_evolves; eauto.
Qed.
(** The exchange of two values below [b]. *)
Lemma swap_tame : forall b h h' dx dn kx kn old v, tame b h ->
  (forall a, a <> dx -> a <> dn -> cells h' a = cells h a) ->
  cell_of h dx (KPair kx old) false -> cell_of h dn (KPair kn v) false ->
  cell_of h' dx (KPair kx v) false -> cell_of h' dn (KPair kn old) false ->
  (old < b)%N -> (v < b)%N -> tame b h'.
Proof.
  intros b h h' dx dn kx kn old v T Ho C1 C2 C3 C4 Lo Lv. apply (tame_change b h h' T). intros a La. left. intros q Hq.
  assert (Sub : forall z x y, cell_of h z (KPair x y) false -> (b <= x)%N -> held b h x z).
  { intros z x y [c0 [E0 [B0 W0]]] Lx. split; auto. unfold fields_at. rewrite E0. unfold fields. rewrite B0, W0. left; auto. }
  destruct (N.eq_dec a dx) as [->|N1].
  - destruct (cell_of_held _ _ _ _ _ _ _ C3 Hq) as [Lq [->|[_ ->]]]; [lia|]. left. eauto.
  - destruct (N.eq_dec a dn) as [->|N2].
    + destruct (cell_of_held _ _ _ _ _ _ _ C4 Hq) as [Lq [->|[_ ->]]]; [lia|]. left. eauto.
    + left. destruct Hq as [Lq Hq]. split; auto. unfold fields_at in *. rewrite Ho in Hq by auto. auto.
Qed.
Lemma vals_shrink : forall h h' s l e, vals h s l e -> shrinks h h' -> (forall j, In j l -> alive h' (Tree.dat s j)) -> vals h' s l e.
Proof.
  intros h h' s l e V Sh. induction V as [|i x l e [H1 [kc H2]] V IH]; intros A; constructor.
  - split; auto. exists kc. apply (shrink_cell h h'); auto. apply A; left; auto.
  - apply IH. intros j Hj; apply A; right; auto.
Qed.
Lemma vals_cells : forall h h' s l e, vals h s l e -> (forall j k v, In j l -> cell_of h (Tree.dat s j) (KPair k v) false -> cell_of h' (Tree.dat s j) (KPair k v) false) ->
  vals h' s l e.
Proof.
  intros h h' s l e V. induction V as [|i x l e [H1 [kc H2]] V IH]; intros A; constructor.
  - split; auto. exists kc. apply A; auto; left; auto.
  - apply IH. intros j k v Hj; apply A; right; auto.
Qed.
(** Giving the pair at [dx] of node [x] and another pair each other's value. *)
Lemma vals_swap : forall h h' s t l x kx dn old v, vals h s (nodes t) l -> ssorted (map (key s) (nodes t)) -> NoDup (nodes t) ->
  In x (nodes t) -> (forall j, In j (nodes t) -> Tree.dat s j = dn -> j = x) ->
  (forall a, a <> Tree.dat s x -> a <> dn -> cells h' a = cells h a) ->
  cell_of h (Tree.dat s x) (KPair kx old) false -> cell_of h' (Tree.dat s x) (KPair kx v) false ->
  vals h' s (nodes t) (put (key s x) v l).
Proof.
  intros h h' s t l x kx dn old v V So ND Hx Hd Ho C1 C2. apply in_split in Hx. destruct Hx as [A [B E]]. rewrite E in *.
  destruct (Forall2_app_inv_l _ _ V) as [l1 [l2' [W1 [W2 ->]]]]. inversion W2 as [|? e ? l2 [F1 F2] W3]; subst.
  destruct e as [k0 v0]. cbn [fst] in F1. subst k0.
  rewrite map_app in So. cbn [map] in So. pose proof So as So'. apply TreeProofs.ssorted_app in So. destruct So as [Z1 [Z2 Z3]].
  rewrite put_old; [|apply (vals_keys _ _ _ _ (fun q => sym_lt q (key s x)) W1); intros j Hj; apply Z3; [apply in_map; auto|left; auto]].
  assert (Ne : forall j, In j (A ++ B) -> j <> x) by (intros j Hj ->; apply (NoDup_remove_2 _ _ _ ND); auto).
  assert (Keep : forall j, In j (A ++ B) -> cells h' (Tree.dat s j) = cells h (Tree.dat s j)).
  { intros j Hj. assert (Hj' : In j (A ++ x :: B)) by (apply in_app_iff in Hj; apply in_or_app; cbn; tauto). apply Ho.
    - intros Ed. apply (Ne j Hj). apply (TreeProofs.sorted_key_inj s (A ++ x :: B)); auto.
      + rewrite map_app. exact So'.
      + apply in_or_app; right; left; auto.
      + unfold key. rewrite Ed. auto.
    - intros Ed. apply (Ne j Hj). apply Hd; auto. }
  apply Forall2_app.
  - apply (vals_keep h h' s s A); auto. intros j Hj. apply Keep. apply in_or_app; auto.
  - constructor.
    + split; auto. exists kx; auto.
    + apply (vals_keep h h' s s B); auto. intros j Hj. apply Keep. apply in_or_app; auto.
Qed.

Lemma add_old : forall b h s sent t kv k v R l h2 cl1 s1 bb1 cc1 n x, 
  prepared b h s sent t kv k v R l h2 cl1 s1 bb1 cc1 -> is_nd t ->
  ssorted (map (key s) (nodes t)) -> (b <= tid t)%N -> (b <= kv)%N ->
  In x (nodes t) -> key s1 x = k -> hdescend n k (tid t) (tid t) h2 = Done (inr x) h2 ->
  exists h' cl' s' bb' cc', rest n (tid t) (nxt h + 4)%N cl1 h2 = Done (tid t, cl') h' /\
    correct h' (tid t :: R) /\ tree_inv h' cl' s' sent t bb' cc' /\ vals h' s' (nodes t) (put k v l) /\
    evolves b h h' /\ high b h' /\ tame b h'.
Proof.
  intros b h s sent t kv k v R l h2 cl1 s1 bb1 cc1 n x [C2 S1 O1 Kn Ln Rn KL KR Kk Kd Dt Hc ND V2 P2 Ev2 H2 Lb Tm FL FV] Nd So Lt Lk Hx Kx HE.
  set (nn := (nxt h + 4)%N) in *. set (D := with_new (dom sent t) (nxt h)) in *. set (ns := nn :: nodes t) in *.
  assert (Hxs : In x ns) by (right; auto).
  assert (Sp : sees (dom sent t) (nodes t) bb1 cc1 (fun _ => true) cl1 h2 s1).
  { apply (sees_part D (dom sent t) ns (nodes t)); auto.
    - intros a Ha. right; right; right; auto.
    - intros j Hj; right; auto.
    - intros j Dj [<-|Hj]; auto. exfalso. inversion ND as [|? ? Y _]; subst. apply Y. right; right. auto.
    - intros j Hj. right. apply TreeProofs.nodes_in_ids; auto.
    - intros j Hj. destruct O1. apply (rt_closed t s1 sent); auto; [left; auto|intros a' Ha'; right; auto]. }
  pose proof (root_in t Nd) as Ir. pose proof (tree_high _ _ _ _ _ _ _ _ _ Sp H2 O1 Nd Lt) as HD.
  assert (NDn : NoDup (nodes t)) by (apply nodes_nodup; destruct O1 as [_ _ Q]; inversion Q; auto).
  assert (So1 : ssorted (map (key s1) (nodes t))).
  { rewrite (map_ext_in (key s1) (key s)); auto. intros j Hj. apply Dt; auto. }
  destruct (na_d _ _ _ _ _ _ (se_node _ _ _ _ _ _ _ _ S1 x Hxs)) as [kx [old [Cdx [ckx [Ekx Bkx]]]]].
  destruct P2 as [kn [Ckv [ckn [Ekn Bkn]]]]. set (dx := Tree.dat s1 x) in *.
  destruct (swap_ok h2 _ dx kv kx kn old v C2 Cdx Ckv) as [h3 [h4 [E3 [E4 [C4 [Nx4 [Ax4 [O3 [O4 [Cdx' Ckv']]]]]]]]]].
  assert (Lbx : (b <= x)%N) by (apply HD; right; apply TreeProofs.nodes_in_ids; auto).
  assert (Lbd : (b <= dx)%N) by (destruct (node_high _ _ _ _ _ _ _ _ b x Sp H2 (dom_live _ _ _ O1) Hx Lbx) as [Q _]; exact Q).
  destruct (swap_high b h2 h4 dx kv kx kn old v Nx4 Ax4 O4 Cdx Ckv Cdx' Ckv' Lbd Lk H2) as [Ev4 H4]; [apply (symish_at h2 kx (Tree.dkey s1 dx)); [exists ckx; auto|apply (bounded _ _ C2); unfold alive; congruence]|apply (symish_at h2 kn k); [exists ckn; auto|apply (bounded _ _ C2); unfold alive; congruence]|].
  assert (Lo : (old < b)%N) by (destruct (vals_at _ _ _ _ x V2 Hx) as [e [He Ve]]; rewrite <- (val_fun _ _ _ _ _ Cdx Ve); auto).
  assert (T4 : tame b h4) by (apply (swap_tame b h2 h4 dx kv kx kn old v); auto).
  pose proof (se_apart _ _ _ _ _ _ _ _ S1) as Ap.
  assert (Kap : forall j, In j ns -> kv <> j /\ kv <> bb1 j /\ kv <> cc1 j).
  { intros j Hj. rewrite <- Kd. split; [|split]; intros E.
    - apply (ap_id _ _ _ _ Ap j nn); auto. left; auto.
    - apply (ap_bd _ _ _ _ Ap j nn); auto. left; auto.
    - apply (ap_cd _ _ _ _ Ap j nn); auto. left; auto. }
  assert (Kapx : forall j, In j ns -> dx <> j /\ dx <> bb1 j /\ dx <> cc1 j).
  { intros j Hj. split; [|split]; intros E.
    - apply (ap_id _ _ _ _ Ap j x); auto.
    - apply (ap_bd _ _ _ _ Ap j x); auto.
    - apply (ap_cd _ _ _ _ Ap j x); auto. }
  assert (S4 : sees (dom sent t) (nodes t) bb1 cc1 (fun _ => true) cl1 h4 s1).
  { apply (sees_pairs _ _ _ _ _ _ h2); auto. intros a. destruct (N.eq_dec a dx) as [->|N1].
    - right. split; [intros j Hj; apply Kapx; right; auto|]. exists kx, old, v. auto.
    - destruct (N.eq_dec a kv) as [->|N2]; [|left; auto].
      right. split; [intros j Hj; apply Kap; right; auto|]. exists kn, v, old. auto. }
  assert (V4 : vals h4 s1 (nodes t) (put (key s1 x) v l)).
  { apply (vals_swap h2 h4 s1 t l x kx kv old v); auto. intros j Hj Ej.
    apply (TreeProofs.sorted_key_inj s1 (nodes t)); auto. rewrite Kx, <- Kk. unfold key. rewrite Ej, Kd. auto. }
  rewrite Kx in V4.
  (* the marker *)
  set (h5 := fresh_heap h4 KTrue). set (T := nxt h4).
  assert (C5 : correct h5 (T :: sent :: nn :: tid t :: R)) by (apply correct_fresh; exact C4).
  pose proof (bounded _ _ C4) as Bd4.
  assert (Gr : forall a c, cells h4 a = Some c -> cells h5 a = Some c).
  { intros a c E. unfold h5. rewrite fresh_old; auto. assert (a < nxt h4)%N by (apply Bd4; unfold alive; congruence). lia. }
  pose proof (sees_grow _ _ _ _ _ _ h4 h5 _ S4 Gr) as S5.
  assert (LbT : (b <= T)%N) by (unfold T; rewrite Nx4; pose proof (ev_nxt _ _ _ Ev2); lia).
  assert (Ev5 : evolves b h4 h5) by (apply evolves_fresh; auto).
  assert (H5 : high b h5) by (apply high_fresh; auto; intros; discriminate).
  assert (T5 : tame b h5) by (apply (tame_fresh b h4 KTrue _ T4 C4); intros q []).
  assert (V5 : vals h5 s1 (nodes t) (put k v l)).
  { apply (vals_cells h4 h5); auto. intros j k' v' Hj [c [E Q]]. exists c. auto. }
  (* the flag *)
  destruct (se_node _ _ _ _ _ _ _ _ S5 (tid t) Ir) as [M1 M2 [c3 [Ec3 [B3 W3]]] M4].
  assert (Pf : Tree.pf s1 (tid t) = sent).
  { destruct t as [|i' lt rt0]; [destruct Nd|]. destruct O1 as [Rt _ _]. cbn [rt] in Rt. cbn [tid]. tauto. }
  rewrite Pf in B3.
  set (h6 := set_cell h5 (cc1 (tid t)) (Some (with_weak c3 false))).
  assert (TW : to_weak false (tid t) h5 = Done tt h6) by (eapply (to_weak_done h5 (tid t)); eauto).
  assert (C6 : correct h6 (nn :: T :: tid t :: R)).
  { apply (correct_set h5 (cc1 (tid t)) c3 (with_weak c3 false) (T :: sent :: nn :: tid t :: R)); auto.
    intros q. unfold fields. cbn [body weak with_weak]. rewrite B3, W3. cbn [cnt]. lia. }
  assert (S6 : sees (dom sent t) (nodes t) bb1 cc1 (but_root t) cl1 h6 s1).
  { apply (sees_weak (dom sent t) (nodes t) bb1 cc1 (fun _ => true)); auto.
    - unfold but_root. rewrite N.eqb_refl; auto.
    - intros j Hj Nj. unfold but_root. apply N.eqb_neq in Nj. rewrite Nj; auto. }
  assert (Lbc : (b <= cc1 (tid t))%N) by (destruct (node_high _ _ _ _ _ _ _ _ b (tid t) S5 H5 (dom_live _ _ _ O1) Ir Lt) as [_ [_ [Q _]]]; auto).
  assert (Ev6 : evolves b h5 h6).
  { apply (evolves_set b h5 (cc1 (tid t)) c3); auto. unfold is_pair_c. rewrite B3; auto. }
  assert (H6 : high b h6).
  { apply (high_set b h5 (cc1 (tid t)) c3); auto; [unfold is_pair_c; rewrite B3; auto|]. intros q y Bx. cbn [body with_weak] in Bx. apply (H5 (cc1 (tid t)) c3 q y); auto. }
  assert (T6 : tame b h6).
  { apply (unweak_tame b h5 (dom sent t) (nodes t) bb1 cc1 (fun _ => true) cl1 s1 (tid t) c3); auto. rewrite Pf. destruct O1; auto. }
  assert (V6 : vals h6 s1 (nodes t) (put k v l)).
  { apply (vals_keep h5 h6 s1 s1); auto. intros j Hj. unfold h6. rewrite set_other; auto. intros E.
    apply (ap_cd _ _ _ _ Ap (tid t) j); auto; right; auto. }
  (* the node and the marker dropped *)
  destruct (X_spec h6 nn _ C6) as [h7 [X7 [C7 Sh7]]]. destruct (X_spec h7 T _ C7) as [h8 [X8 [C8 Sh8]]].
  destruct (X_high b nn h6 h7 X7 H6) as [Ev7 H7]. destruct (X_high b T h7 h8 X8 H7) as [Ev8 H8].
  pose proof (shrinks_trans _ _ _ Sh7 Sh8) as Sh.
  assert (Alr : alive h8 (tid t)) by (apply (present _ _ C8); cbn [cnt]; rewrite is_same; lia).
  assert (S8 : sees (dom sent t) (nodes t) bb1 cc1 (but_root t) cl1 h8 s1).
  { apply (sees_shrinks bb1 cc1 (but_root t) cl1 h6 h8 s1 sent t (tid t :: R)); auto. unfold but_root. rewrite N.eqb_refl; auto. }
  exists h8, cl1, s1, bb1, cc1. split.
  { unfold rest.
    assert (HA : hadd_node n (tid t) nn h2 = Done T h5).
    { unfold hadd_node. rewrite (hbind_done _ _ _ _ _ (null_pair h2 (tid t) _ _ _ (na_1 _ _ _ _ _ _ (se_node _ _ _ _ _ _ _ _ S1 (tid t) (or_intror Ir))))).
      rewrite (hbind_done _ _ _ _ _ (n_key D ns bb1 cc1 _ cl1 h2 s1 S1 nn (or_introl eq_refl))). fold (key s1 nn). rewrite Kk.
      rewrite (hbind_done _ _ _ _ _ HE).
      rewrite (hbind_done _ _ _ _ _ (n_data D ns bb1 cc1 _ cl1 h2 s1 S1 x Hxs)). fold dx.
      rewrite (hbind_done _ _ _ _ _ (cdr_of_cell h2 dx _ _ _ Cdx)).
      rewrite (hbind_done _ _ _ _ _ (n_data D ns bb1 cc1 _ cl1 h2 s1 S1 nn (or_introl eq_refl))). rewrite Kd.
      rewrite (hbind_done _ _ _ _ _ (cdr_of_cell h2 kv _ _ _ Ckv)).
      rewrite (hbind_done _ _ _ _ _ E3).
      assert (DN : DATA nn h3 = Done kv h3).
      { pose proof (na_1 _ _ _ _ _ _ (se_node _ _ _ _ _ _ _ _ S1 nn (or_introl eq_refl))) as Q. rewrite Kd in Q.
        apply (car_of_cell h3 nn kv (bb1 nn) false). apply (cell_keep h2); auto. apply O3. destruct (Kapx nn (or_introl eq_refl)); auto. }
      rewrite (hbind_done _ _ _ _ _ DN), (hbind_done _ _ _ _ _ E4). apply alloc_fresh. }
    rewrite (hbind_done _ _ _ _ _ HA).
    assert (TT : test is_true_c T h5 = Done true h5).
    { unfold test, hbind_, rd. unfold h5, T. rewrite fresh_new. reflexivity. }
    rewrite (hbind_done _ _ _ _ _ TT), (hbind_done _ _ _ _ _ TW), (hbind_done _ _ _ _ _ X7), (hbind_done _ _ _ _ _ X8). reflexivity. }
  split; [exact C8|]. split; [constructor; auto|]. split.
  { apply (vals_shrink h6 h8); auto. intros j Hj.
    destruct (na_d _ _ _ _ _ _ (se_node _ _ _ _ _ _ _ _ S8 j Hj)) as [kc [vv [[c4 [X4 _]] _]]]. unfold alive. congruence. }
  split; [|split; [auto|apply (tame_shrinks b h6 h8); auto]].
  apply (evolves_trans b h h2); auto. apply (evolves_trans b h2 h4); auto. apply (evolves_trans b h4 h5); auto.
  apply (evolves_trans b h5 h6); auto. apply (evolves_trans b h6 h7); auto.
Qed.

(** One definition in a tree with nodes. *)
Theorem hadd_tree : forall b h cl s sent t bb cc kv k v R l n,
  correct h (tid t :: kv :: R) -> tree_inv h cl s sent t bb cc -> pair_kv h kv k v -> vals h s (nodes t) l ->
  high b h -> (b <= tid t)%N -> (b <= kv)%N -> length l < n -> tame b h -> (forall e, In e l -> (snd e < b)%N) -> (v < b)%N ->
  exists h' cl' s' t' bb' cc', hadd n cl (tid t) kv h = Done (tid t', cl') h' /\
    correct h' (tid t' :: R) /\ tree_inv h' cl' s' sent t' bb' cc' /\ vals h' s' (nodes t') (put k v l) /\
    evolves b h h' /\ high b h' /\ (b <= tid t')%N /\ tame b h'.
Proof.
  intros b h cl s sent t bb cc kv k v R l n C I P V H Lt Lk Ln Tm FL FV. pose proof I as [O Nd Hc So S].
  assert (Hn : height t < n) by (pose proof (height_nodes t); pose proof (vals_length _ _ _ _ V); lia).
  destruct (prepare b h cl s sent t bb cc kv k v R l C I P V H Lt Lk Tm FL FV) as [h2 [cl1 [s1 [bb1 [cc1 [E PR]]]]]]. rewrite E. pose proof PR as [C2 S1 O1 Kn Ln0 Rn KL KR Kk Kd Dt Hc1 ND V2 P2 Ev2 H2 Lb T2 FL2 FV2].
  assert (So1 : ssorted (map (key s1) (nodes t))).
  { rewrite (map_ext_in (key s1) (key s)); auto. intros j Hj. apply Dt; auto. }
  assert (Dr : with_new (dom sent t) (nxt h) (tid t)) by (right; right; right; right; apply TreeProofs.tid_in_ids).
  destruct (TreeProofs.descend_ok t Top n s1 sent k (tid t) O1 So1) as [[x [c [l0 [r0 [E0 [Kx Ep]]]]]]|[c [i [E0 [Ep [HB HA]]]]]]; auto.
  { intros j []. } { intros j []. } { intros i ->. destruct Nd. }
  - apply (f_descend _ _ _ _ _ n cl1 h2 s1 k (tid t) (tid t) _ S1 Dr) in E0. cbn [plug] in Ep.
    destruct (add_old b h s sent t kv k v R l h2 cl1 s1 bb1 cc1 n x PR Nd So Lt Lk) as [h' [cl' [s' [bb' [cc' [A1 [A2 [A3 [A4 [A5 [A6 A7]]]]]]]]]]]; auto.
    { rewrite <- Ep, TreeProofs.nodes_plug. apply in_or_app; right. apply in_or_app; left. cbn [nodes]. apply in_or_app; right; left; auto. }
    exists h', cl', s', t, bb', cc'. tauto.
  - apply (f_descend _ _ _ _ _ n cl1 h2 s1 k (tid t) (tid t) _ S1 Dr) in E0. cbn [plug] in Ep. subst t.
    apply (add_new b h s sent c i kv k v R l h2 cl1 s1 bb1 cc1 n PR); auto.
    intros ->. destruct Nd.
Qed.
