(** * HSimOps: the elementary operations on a heap that stands for values. *)
From Verif Require Import Value Tails Print Heap HeapSpec HeapProofs HeapOps HEval HEvalSpec HEvalBase HEvalProofs ValueProofs HSimSpec HSimBase.
From Verif Require Eval.
Open Scope nat_scope.
Open Scope heap_scope.

(** ** The pairs of the globals *)
Lemma edge_in : forall h R a b, correct h R -> In b (fields_at h a) -> In b (edges h).
Proof.
  intros h R a b C I. rewrite <- edgesZ_nil. eapply edgesZ_in; eauto. apply (bounded _ _ C).
  unfold alive, fields_at in *. destruct (cells h a); [congruence|destruct I].
Qed.
Lemma edge_of : forall h b, In b (edges h) -> exists a, In b (fields_at h a).
Proof. intros h b I. unfold edges in I. apply in_flat_map in I. destruct I as [a [_ I]]. eauto. Qed.
Lemma alone_counts : forall h R w s kv, holds h R -> lisp h w -> In (s, kv) (binds (aux h)) ->
  ~ In kv R /\ (forall a, ~ In kv (fields_at h a)) /\ cnt kv (held_by_lisp (aux h)) = 1.
Proof.
  intros h R w s kv H L I. destruct (g_alone _ _ L _ _ I) as [c [E Rc]].
  destruct (counted _ _ (h_correct _ _ H) _ _ E) as [Q _]. rewrite cnt_app in Q.
  pose proof (held_globals _ _ _ _ H I) as G. apply cnt_in in G.
  split; [|split; [|lia]].
  - intro J. apply cnt_in in J. lia.
  - intros a J. apply (edge_in _ _ _ _ (h_correct _ _ H)) in J. apply cnt_in in J. lia.
Qed.
(** They form a set nothing else refers to. *)
Lemma alone_clear : forall h R w V, holds h R -> lisp h w -> (forall x, In x V -> reach h R x) ->
  clear h (fun a => In a (map snd (binds (aux h)))) V.
Proof.
  intros h R w V H L I.
  assert (G : forall a, In a (map snd (binds (aux h))) -> ~ In a R /\ (forall b, ~ In a (fields_at h b)) /\ cnt a (held_by_lisp (aux h)) = 1).
  { intros a J. apply in_map_iff in J. destruct J as [[s kv] [<- J]]. eapply alone_counts; eauto. }
  constructor.
  - intros a J. eapply own_bounded; [apply (holds_own _ _ H)|]. eapply global_alive; eauto.
  - intros a b E J. destruct (G _ J) as [_ [N _]]. destruct (N _ E).
  - intros a Ia J. specialize (I a Ia). destruct (G _ J) as [N1 [N2 _]]. destruct I as [a Ir|a b _ Ib]; [auto|]. exact (N2 _ Ib).
  - intros s kv b _ E J. destruct (G _ J) as [_ [N _]]. exact (N _ E).
  - intros a Ia J. destruct (G _ J) as [_ [_ Q]]. unfold held_by_lisp in Q. rewrite !cnt_app in Q. apply cnt_in in J.
    apply cnt_in in Ia. cbn [cnt] in *. lia.
Qed.

(** They stay alone. *)
Lemma alone_after : forall h w h' V V' R R', holds h R -> lisp h w -> sep h V h' V' ->
  (forall x, In x V -> reach h R x) -> incl R' R -> aux h' = aux h ->
  own h' (V' ++ R' ++ held_by_lisp (aux h)) ->
  forall s kv, In (s, kv) (binds (aux h)) -> exists c', cells h' kv = Some c' /\ refs c' = 1.
Proof.
  intros h w h' V V' R R' HH LI SP IV I1 C O' s kv I. destruct (alone_counts _ _ _ _ _ HH LI I) as [N1 [N2 N3]].
  pose proof (alone_clear _ _ _ _ HH LI IV) as CL.
  pose proof (proj2 SP _ CL) as CL'. assert (J : In kv (map snd (binds (aux h)))) by (apply in_map_iff; exists (s, kv); auto).
  assert (Al : alive h' kv).
  { eapply own_alive; [exact O'|]. apply in_or_app; right. apply in_or_app; right. eapply held_globals; eauto. }
  unfold alive in Al. destruct (cells h' kv) as [c'|] eqn:E'; [|congruence]. exists c'. split; auto.
  destruct (counted _ _ (proj1 O') _ _ E') as [Q _]. rewrite Q. rewrite !cnt_app.
  assert (Z1 : cnt kv (edges h') = 0).
  { destruct (cnt kv (edges h')) eqn:Z; auto. exfalso. assert (In kv (edges h')) as Y by (apply cnt_in; lia).
    destruct (edge_of _ _ Y) as [a Ia]. pose proof (c_in _ _ _ CL' _ _ Ia J) as Ja. apply in_map_iff in Ja. destruct Ja as [[s' a'] [<- Ja]].
    pose proof (c_glob _ _ _ CL' s' a' kv) as G. rewrite C in G. exact (G Ja Ia J). }
  assert (Z2 : cnt kv V' = 0).
  { destruct (cnt kv V') eqn:Z; auto. exfalso. apply (c_held _ _ _ CL' kv); auto. apply cnt_in. lia. }
  assert (Z3 : cnt kv R' = 0).
  { destruct (cnt kv R') eqn:Z; auto. exfalso. apply N1. apply I1. apply cnt_in. lia. }
  lia.
Qed.

(** ** Steps that only add and drop cells *)
Record calm (h : heap) (V : list N) (h' : heap) (V' : list N) : Prop := mkcalm {
  m_nxt : (nxt h <= nxt h')%N;
  m_aux : aux h' = aux h;
  m_dead : forall a, (a < nxt h)%N -> cells h a = None -> cells h' a = None;
  m_same : forall a c c', cells h a = Some c -> cells h' a = Some c' -> stored c' = stored c;
  m_new : forall a b, cells h a = None -> In b (fields_at h' a) -> (nxt h <= b)%N \/ reach h V b;
  m_out : forall a, In a V' -> (nxt h <= a)%N \/ reach h V a
}.
Lemma calm_sep : forall h R V h' V', holds h R -> calm h V h' V' -> sep h V h' V'.
Proof.
  intros h R V h' V' H C. split; [apply C|]. intros S K.
  assert (FR : forall b, (nxt h <= b)%N \/ reach h V b -> ~ S b).
  { intros b [L|Rb] Sb; [apply (c_below _ _ _ K) in Sb; lia|]. eapply clear_reach; eauto. }
  constructor.
  - intros a Sa. apply (c_below _ _ _ K) in Sa. pose proof (m_nxt _ _ _ _ C). lia.
  - intros a b I Sb. destruct (cells h a) as [c|] eqn:E.
    + destruct (cells h' a) as [c'|] eqn:E'; [|unfold fields_at in I; rewrite E' in I; destruct I].
      rewrite (fields_stored _ _ _ _ _ E E' (m_same _ _ _ _ C _ _ _ E E')) in I. eapply c_in; eauto.
    + exfalso. eapply FR; [|exact Sb]. eapply m_new; eauto.
  - intros a Ia. apply FR. eapply m_out; eauto.
  - rewrite (m_aux _ _ _ _ C). intros s kv b I Ib. destruct (h_globals _ _ H _ _ I) as [c [k [v [ck [Ec _]]]]].
    destruct (cells h' kv) as [c'|] eqn:E'; [|unfold fields_at in Ib; rewrite E' in Ib; destruct Ib].
    rewrite (fields_stored _ _ _ _ _ Ec E' (m_same _ _ _ _ C _ _ _ Ec E')) in Ib. eapply c_glob; eauto.
  - rewrite (m_aux _ _ _ _ C). apply K.
Qed.
Lemma calm_step0 : forall h V h' V' R R', own h R -> own h' R' -> calm h V h' V' -> step0 h h'.
Proof.
  intros h V h' V' R R' O O' C. constructor; eauto; try apply C. intros a c c' E E'. left.
  pose proof (m_same _ _ _ _ C _ _ _ E E') as T. apply stored_eq in T. tauto.
Qed.

Lemma chans_kept : forall R h h' a l, strong h -> kept R h h' -> reach h R a -> chans h a l -> chans h' a l.
Proof.
  intros R h h' a l St K H C. revert H. induction C as [a c E B|a c e d ce k x ck n l E B Ee Be Ek Bk C IH]; intro H.
  - destruct (K a H) as [c0 [c' [E0 [E' T]]]]. rewrite E in E0. injection E0 as <-. apply stored_eq in T. destruct T as [T _].
    eapply chans_nil; [exact E'|congruence].
  - assert (He : reach h R e) by (eapply reach_step; [exact H|eapply field_car; eauto]).
    assert (Hk : reach h R k) by (eapply reach_step; [exact He|eapply field_car; eauto]).
    assert (Hd : reach h R d) by (eapply reach_step; [exact H|eapply field_cdr; eauto]).
    destruct (K a H) as [c0 [c' [E0 [E' T]]]]. rewrite E in E0. injection E0 as <-. apply stored_eq in T. destruct T as [T _].
    destruct (K e He) as [c1 [c1' [E1 [E1' T1]]]]. rewrite Ee in E1. injection E1 as <-. apply stored_eq in T1. destruct T1 as [T1 _].
    destruct (K k Hk) as [c2 [c2' [E2 [E2' T2]]]]. rewrite Ek in E2. injection E2 as <-. apply stored_eq in T2. destruct T2 as [T2 _].
    eapply chans_cons; [exact E'|rewrite T; exact B|exact E1'|rewrite T1; exact Be|exact E2'|rewrite T2; exact Bk|auto].
Qed.
(** The same struct lisp stands for the same world. *)
Lemma lisp_same : forall h w h' R, holds h R -> lisp h w -> aux h' = aux h ->
  kept (held_by_lisp (aux h)) h h' -> (nxt h <= nxt h')%N ->
  (forall a c' s, (a < nxt h)%N -> cells h' a = Some c' -> body c' = KSym s -> exists c, cells h a = Some c /\ body c = KSym s) ->
  (forall s kv, In (s, kv) (binds (aux h)) -> exists c', cells h' kv = Some c' /\ refs c' = 1) ->
  lisp h' w.
Proof.
  intros h w h' R H L A K NX DD AL. pose proof (h_strong _ _ H) as St. constructor; rewrite ?A; try apply L.
  - intros s v E. destruct (g_bound _ _ L s v E) as [kv [c [k [x [G [Ec [Bc Rx]]]]]]].
    assert (Rk : reach h (held_by_lisp (aux h)) kv).
    { apply reach_root. destruct (assq_in _ _ _ G) as [s' [I _]]. eapply held_globals; eauto. }
    destruct (K kv Rk) as [c0 [c' [E0 [E' T]]]]. rewrite Ec in E0. injection E0 as <-. apply stored_eq in T. destruct T as [T _].
    exists kv, c', k, x. split; [unfold global_at; rewrite A; auto|]. split; auto. split; [congruence|].
    eapply kept_reads; eauto. eapply reach_step; [exact Rk|eapply field_cdr; eauto].
  - intros s E. unfold global_at. rewrite A. apply (g_unbound _ _ L s E).
  - exact AL.
  - intros a e E. destruct (g_cached _ _ L a e E) as [LT Q]. split; [lia|]. intros c s Ec Bc.
    destruct (DD a c s LT Ec Bc) as [c0 [E0 B0]]. unfold global_at. rewrite A. apply (Q c0); congruence.
  - eapply chans_kept; eauto; [|apply L]. apply reach_root. apply in_or_app. right. cbn; auto.
  - eapply chans_kept; eauto; [|apply L]. apply reach_root. apply in_or_app. right. cbn; auto.
Qed.

Lemma adds_kept : forall R S h h', own h S -> (forall r, In r R -> alive h r) -> adds h h' -> kept R h h'.
Proof.
  intros R S h h' O I A a Ra. assert (Al : alive h a).
  { destruct Ra as [a Ia|a b _ Ib]; auto. eapply fields_alive; [apply O|eauto]. }
  unfold alive in Al. destruct (cells h a) as [c|] eqn:E; [|congruence]. destruct (a_cells _ _ A _ _ E) as [c' [E' T]]. eauto 6.
Qed.

Section Steps.
Variables (h0 : heap) (F : list N) (B : list (N * atom)) (V0 : list N).
Notation at_ := (vat h0 F B V0).

Lemma reach_all : forall h w L P x, at_ h w L P -> reach h (heads L ++ heads B) x -> reach h (heads L ++ heads P ++ F) x.
Proof.
  intros h w L P x H R. eapply reach_incl; [|exact R]. intros r I. apply in_app_or in I. destruct I as [I|I].
  - apply reach_root. apply in_or_app. auto.
  - apply in_map_iff in I. destruct I as [p [<- Ip]]. pose proof (v_B _ _ _ _ _ _ _ _ H) as G. rewrite Forall_forall in G.
    destruct (G p Ip) as [_ Rp]. eapply reach_sub; [|exact Rp]. intros y Iy. apply in_or_app. right. apply in_or_app. auto.
Qed.
(** What the references of a good heap reach, read back in another one. *)
Lemma calm_kept : forall h V h' V' R R' S, own h R -> own h' R' -> calm h V h' V' -> incl S R -> incl S R' -> kept S h h'.
Proof.
  intros h V h' V' R R' S O O' C I I'. apply (kept_roots S R R'); auto.
  intros a c c' _. apply C.
Qed.
Lemma vat_calm : forall h w h' l l' L P V, at_ h w (l ++ L) P ->
  (forall x, In x V -> reach h (heads (l ++ L) ++ heads B) x) ->
  calm h V h' (heads l') ->
  own h' ((heads (l' ++ L) ++ heads P ++ F) ++ held_by_lisp (aux h)) ->
  Forall (says h') l' ->
  at_ h' w (l' ++ L) P.
Proof.
  intros h w h' l l' L P V H IV C O' RL. pose proof (v_holds _ _ _ _ _ _ _ _ H) as HH.
  pose proof (holds_own _ _ HH) as O. pose proof (v_lisp _ _ _ _ _ _ _ _ H) as LI.
  pose proof (calm_sep _ _ _ _ _ HH C) as SP.
  assert (I1 : incl (heads L ++ heads P ++ F) (heads (l ++ L) ++ heads P ++ F)).
  { intros x Ix. rewrite heads_app, <- app_assoc. apply in_or_app. right. auto. }
  assert (I2 : incl (heads L ++ heads P ++ F) (heads (l' ++ L) ++ heads P ++ F)).
  { intros x Ix. rewrite heads_app, <- app_assoc. apply in_or_app. right. auto. }
  assert (H' : holds h' (heads (l' ++ L) ++ heads P ++ F)).
  { eapply holds_keep; [exact HH|eapply calm_step0; eauto|apply C|exact O']. }
  eapply vat_step; eauto.
  - eapply calm_kept; [exact O|exact O'|exact C| |]; eauto using incl_appl.
  - apply (lisp_same h w h' _ HH LI); try apply C.
    + eapply calm_kept; [exact O|exact O'|exact C| |]; eauto using incl_appr, incl_refl.
    + intros a c' s L1 E' B'. destruct (cells h a) as [c|] eqn:E; [|rewrite (m_dead _ _ _ _ C) in E'; auto; discriminate].
      exists c. split; auto. pose proof (m_same _ _ _ _ C _ _ _ E E') as T. apply stored_eq in T. destruct T. congruence.
    + apply (alone_after h w h' V (heads l') _ (heads L ++ heads P ++ F) HH LI SP); auto; [intros x Ix; eapply reach_all; eauto|apply C|].
      hown.
  - rewrite (m_aux _ _ _ _ C). lia.
Qed.

(** ** up, X, new cells *)
Lemma o_X : forall h w L P a v, at_ h w ((a, v) :: L) P -> wpv (X a) (fun _ h' => at_ h' w L P) h.
Proof.
  intros h w L P a v H. pose proof (vat_own _ _ _ _ _ _ _ _ H) as O. apply wp_wpv. cbn [heads map fst app] in O.
  apply (wp_X _ _ _ _ O). intros h' O' S. destruct S as [S1 [S2 S3]].
  apply (vat_calm h w h' [(a, v)] [] L P []); auto; [intros x []|]. constructor; auto.
  - lia.
  - intros x _ E. destruct (cells h' x) as [c'|] eqn:E'; auto. destruct (S3 _ _ E') as [c [E1 _]]. congruence.
  - intros x c c' E E'. destruct (S3 _ _ E') as [c1 [E1 T]]. rewrite E in E1. injection E1 as <-. auto.
  - intros x b E I. unfold fields_at in I. destruct (cells h' x) as [c'|] eqn:E'; [|destruct I]. destruct (S3 _ _ E') as [c [E1 _]]. congruence.
  - intros x [].
Qed.
Lemma adds_calm : forall h h' V V', adds h h' -> (forall a, cells h a = None -> cells h' a = None) ->
  (forall a, In a V' -> reach h V a) -> calm h V h' V'.
Proof.
  intros h h' V V' A D I. constructor; try apply A; auto.
  - intros a c c' E E'. destruct (a_cells _ _ A _ _ E) as [c1 [E1 T]]. congruence.
  - intros a b E Ib. unfold fields_at in Ib. rewrite (D a E) in Ib. destruct Ib.
Qed.
Lemma o_up : forall h w L P a v, at_ h w L P -> avail h L B a v -> wpv (up a) (fun r h' => r = a /\ at_ h' w ((a, v) :: L) P) h.
Proof.
  intros h w L P a v H AV. pose proof (vat_own _ _ _ _ _ _ _ _ H) as O.
  pose proof (avail_alive _ _ _ _ _ _ _ _ _ _ H AV) as Al.
  unfold alive in Al. destruct (cells h a) as [c|] eqn:E; [|congruence].
  unfold wpv, up, rd, wr, hbind_, done. rewrite E, E. split; auto.
  set (h' := set_cell h a (Some (with_refs c (S (refs c))))).
  assert (A : adds h h') by (eapply set_adds; eauto).
  apply (vat_calm h w h' [] [(a, v)] L P [a]); auto.
  - intros x [<-|[]]. apply AV.
  - apply adds_calm; auto; [|intros x [<-|[]]; apply reach_root; cbn; auto].
    intros x Ex. unfold h'. rewrite set_other; auto. congruence.
  - unfold h'. eapply own_set; [exact O|exact E|apply (proj2 O _ _ E)|cbn; lia|].
    intro b. unfold heads. cbn [with_refs refs]. replace (fields (with_refs c (S (refs c)))) with (fields c) by reflexivity.
    cbn [app map fst cnt]. unfold is. destruct (N.eqb a b); lia.
  - constructor; auto. eapply reads_adds; [apply AV|exact A].
Qed.

(** A new cell, flagged or not. *)
Record tgrown (h h' : heap) (t : bool) (b : content) : Prop := mktgrown {
  t_nxt : nxt h' = N.succ (nxt h);
  t_aux : aux h' = aux h;
  t_new : cells h' (nxt h) = Some (mkcell 1 t false b);
  t_old : forall x, x <> nxt h -> cells h' x = cells h x
}.
Lemma new_run : forall t b h R, own h (kids b ++ R) ->
  exists h', hbind_ (alloc b) (flag t) h = Done (nxt h) h' /\ tgrown h h' t b /\ own h' (nxt h :: R).
Proof.
  intros t b h R O. pose proof (own_fresh b h R O) as O1. unfold hbind_, alloc. fold (fresh_heap h b).
  assert (E : cells (fresh_heap h b) (nxt h) = Some (mkcell 1 false false b)) by (cbn; rewrite N.eqb_refl; auto).
  destruct t; cbn [flag].
  - unfold hbind_, rd, wr, done. rewrite E, E. eexists. split; [reflexivity|]. split.
    + constructor; auto; [apply set_same|]. intros x Hx. rewrite set_other by auto. cbn. apply N.eqb_neq in Hx. rewrite Hx. auto.
    + eapply own_set; [exact O1|exact E|auto|cbn; lia|]. intro q. cbn [with_tail refs].
      replace (fields (with_tail (mkcell 1 false false b))) with (fields (mkcell 1 false false b)) by reflexivity. lia.
  - unfold done. eexists. split; [reflexivity|]. split; auto. constructor; auto.
    intros x Hx. cbn. apply N.eqb_neq in Hx. rewrite Hx. auto.
Qed.
Lemma tgrown_adds : forall h h' R t b, own h R -> tgrown h h' t b -> adds h h'.
Proof.
  intros h h' R t b O G. constructor.
  - rewrite (t_nxt _ _ _ _ G). lia.
  - apply G.
  - intros a L E. rewrite (t_old _ _ _ _ G); auto. lia.
  - intros a c E. exists c. split; auto. rewrite (t_old _ _ _ _ G); auto. intros ->.
    assert (nxt h < nxt h)%N by (eapply own_bounded; [exact O|unfold alive; congruence]). lia.
Qed.
Lemma tgrown_calm : forall h h' R t b, own h R -> tgrown h h' t b -> calm h (kids b) h' [nxt h].
Proof.
  intros h h' R t b O G. pose proof (tgrown_adds _ _ _ _ _ O G) as A. constructor; try apply A.
  - intros a c c' E E'. destruct (a_cells _ _ A _ _ E) as [c1 [E1 T]]. congruence.
  - intros a q E I. right. apply reach_root. unfold fields_at in I. destruct (N.eq_dec a (nxt h)) as [->|X].
    + rewrite (t_new _ _ _ _ G) in I. unfold fields in I. cbn in I. unfold kids. destruct b; auto.
    + rewrite (t_old _ _ _ _ G) in I by auto. rewrite E in I. destruct I.
  - intros a [<-|[]]. left. lia.
Qed.
Lemma o_new : forall h w l L P t b v, at_ h w (l ++ L) P -> heads l = kids b ->
  (forall h', tgrown h h' t b -> Forall (says h') l -> reads h' (nxt h) v) ->
  wpv (hbind_ (alloc b) (flag t)) (fun r h' => r = nxt h /\ tgrown h h' t b /\ at_ h' w ((r, v) :: L) P) h.
Proof.
  intros h w l L P t b v H K RV. pose proof (vat_own _ _ _ _ _ _ _ _ H) as O.
  assert (O1 : own h (kids b ++ heads L ++ heads P ++ F ++ held_by_lisp (aux h))) by (rewrite <- K; hown).
  destruct (new_run t b h _ O1) as [h' [D [G O']]].
  unfold wpv. rewrite D. split; auto. split; auto.
  apply (vat_calm h w h' l [(nxt h, v)] L P (kids b)); auto.
  - intros x Ix. apply reach_root. apply in_or_app. left. rewrite heads_app, K. apply in_or_app. auto.
  - eapply tgrown_calm; eauto.
  - hown.
  - constructor; auto. apply RV; auto. pose proof (v_L _ _ _ _ _ _ _ _ H) as FL. apply Forall_app in FL. destruct FL as [FL _].
    eapply Forall_impl; [|exact FL]. intros p R. eapply reads_adds; [exact R|]. eapply tgrown_adds; eauto.
Qed.
Lemma o_leaf : forall h w L P t b v, at_ h w L P -> kids b = [] ->
  (forall h', tgrown h h' t b -> reads h' (nxt h) v) ->
  wpv (hbind_ (alloc b) (flag t)) (fun r h' => r = nxt h /\ tgrown h h' t b /\ at_ h' w ((r, v) :: L) P) h.
Proof. intros h w L P t b v H K RV. apply (o_new h w [] L P t b v); auto. Qed.
Lemma o_tcons : forall h w L P t x vx y vy, at_ h w ((x, vx) :: (y, vy) :: L) P ->
  wpv (hbind_ (hcons x y) (flag t)) (fun r h' => r = nxt h /\ tgrown h h' t (KPair x y) /\ at_ h' w ((r, Pair t vx vy) :: L) P) h.
Proof.
  intros h w L P t x vx y vy H. apply (o_new h w [(x, vx); (y, vy)] L P t (KPair x y)); auto.
  intros h' G FL. inversion FL as [|? ? R1 FL1]; subst. inversion FL1 as [|? ? R2 _]; subst.
  apply (reads_pair h' (nxt h) (mkcell 1 t false (KPair x y)) x y); auto. apply G.
Qed.
Lemma flag_false : forall b Q h, wpv (hbind_ (alloc b) (flag false)) Q h -> wpv (alloc b) Q h.
Proof. intros b Q h H. exact H. Qed.
Lemma o_cons : forall h w L P x vx y vy, at_ h w ((x, vx) :: (y, vy) :: L) P ->
  wpv (hcons x y) (fun r h' => r = nxt h /\ tgrown h h' false (KPair x y) /\ at_ h' w ((r, Cons vx vy) :: L) P) h.
Proof. intros. apply flag_false. apply o_tcons; auto. Qed.
Lemma o_alloc : forall h w L P b v, at_ h w L P -> kids b = [] ->
  (forall h' c, cells h' (nxt h) = Some c -> body c = b -> tail c = false -> reads h' (nxt h) v) ->
  wpv (alloc b) (fun r h' => at_ h' w ((r, v) :: L) P) h.
Proof.
  intros h w L P b v H K RV. apply flag_false. eapply wpv_mono; [apply (o_leaf h w L P false b v H K)|].
  - intros h' G. eapply RV; [apply G| |]; auto.
  - intros r h' [_ [_ A]]. auto.
Qed.
Lemma o_nil : forall h w L P, at_ h w L P -> wpv make_nil (fun r h' => at_ h' w ((r, Nil) :: L) P) h.
Proof. intros h w L P H. apply o_alloc; auto. intros. eapply reads_nil; eauto. Qed.

(** ** Reading *)
Definition shows (h : heap) (c : cell) (v : atom) : Prop :=
  match v with
  | Nil => body c = KNil
  | Tru => body c = KTrue
  | Value.Wild => body c = KWild
  | Chr z => body c = KChar z
  | Num z => body c = KNum z
  | Sym t s => body c = KSym s /\ tail c = t
  | Pair t x y => exists p q, body c = KPair p q /\ tail c = t /\ reads h p x /\ reads h q y
  end.
Lemma reads_shows : forall h a v, reads h a v -> exists c, cells h a = Some c /\ shows h c v.
Proof. intros h a v R. destruct R; exists c; split; auto; cbn; eauto 8. Qed.
Lemma wpv_rd : forall h a v, reads h a v -> wpv (rd a) (fun c h' => h' = h /\ cells h a = Some c /\ shows h c v) h.
Proof. intros h a v R. destruct (reads_shows _ _ _ R) as [c [E S]]. unfold wpv, rd. rewrite E. auto. Qed.
Lemma wpv_test : forall h a v f g, reads h a v -> (forall c, shows h c v -> f c = g) -> wpv (test f a) (fun b h' => h' = h /\ b = g) h.
Proof.
  intros h a v f g R S. destruct (reads_shows _ _ _ R) as [c [E Sc]]. unfold wpv, test, rd, hbind_, done. rewrite E. auto.
Qed.
Lemma shows_pair : forall h c v, shows h c v -> is_pair_c c = is_pair v.
Proof. intros h c v S. unfold is_pair_c. destruct v; cbn in *; try rewrite S; auto; [destruct S as [-> _]; auto|]. destruct S as [p [q [-> _]]]. auto. Qed.
Lemma shows_nil : forall h c v, shows h c v -> is_nil_c c = is_null v.
Proof. intros h c v S. unfold is_nil_c. destruct v; cbn in *; try rewrite S; auto; [destruct S as [-> _]; auto|]. destruct S as [p [q [-> _]]]. auto. Qed.
Lemma shows_true : forall h c v, shows h c v -> is_true_c c = match v with Tru => true | _ => false end.
Proof. intros h c v S. unfold is_true_c. destruct v; cbn in *; try rewrite S; auto; [destruct S as [-> _]; auto|]. destruct S as [p [q [-> _]]]. auto. Qed.
Lemma shows_num : forall h c v, shows h c v -> is_num_c c = match v with Num _ => true | _ => false end.
Proof. intros h c v S. unfold is_num_c. destruct v; cbn in *; try rewrite S; auto; [destruct S as [-> _]; auto|]. destruct S as [p [q [-> _]]]. auto. Qed.
Lemma shows_char : forall h c v, shows h c v -> is_char_c c = match v with Chr _ => true | _ => false end.
Proof. intros h c v S. unfold is_char_c. destruct v; cbn in *; try rewrite S; auto; [destruct S as [-> _]; auto|]. destruct S as [p [q [-> _]]]. auto. Qed.
Lemma shows_wild : forall h c v, shows h c v -> is_wild_c c = match v with Value.Wild => true | _ => false end.
Proof. intros h c v S. unfold is_wild_c. destruct v; cbn in *; try rewrite S; auto; [destruct S as [-> _]; auto|]. destruct S as [p [q [-> _]]]. auto. Qed.
Lemma shows_sym : forall h c v, shows h c v -> is_sym_c c = match v with Sym _ _ => true | _ => false end.
Proof. intros h c v S. unfold is_sym_c. destruct v; cbn in *; try rewrite S; auto; [destruct S as [-> _]; auto|]. destruct S as [p [q [-> _]]]. auto. Qed.

(** The parts of what can be read can be read. *)
Lemma avail_parts : forall h w L P a t x y, at_ h w L P -> avail h L B a (Pair t x y) ->
  exists c p q, cells h a = Some c /\ body c = KPair p q /\ tail c = t /\ avail h L B p x /\ avail h L B q y.
Proof.
  intros h w L P a t x y H [R Ra]. destruct (reads_shows _ _ _ R) as [c [E [p [q [Bc [T [Rp Rq]]]]]]].
  pose proof (vat_strong _ _ _ _ _ _ _ _ H) as St.
  exists c, p, q. repeat (split; auto); eapply reach_step; eauto; [eapply field_car|eapply field_cdr]; eauto.
Qed.
Lemma o_CAR : forall h w L P a v, at_ h w L P -> avail h L B a v ->
  wpv (CAR a) (fun p h' => h' = h /\ exists t x y, v = Pair t x y /\ avail h L B p x) h.
Proof.
  intros h w L P a v H A. pose proof (reads_shows _ _ _ (proj1 A)) as [c [E S]]. unfold wpv, CAR, rd, hbind_. rewrite E.
  destruct v as [| | | | | |t x y]; cbn in S; try (rewrite S; exact I); [destruct S as [-> _]; exact I|].
  destruct (avail_parts _ _ _ _ _ _ _ _ H A) as [c1 [p [q [E1 [B1 [T [Ap Aq]]]]]]]. rewrite E in E1. injection E1 as <-. rewrite B1.
  cbn. split; auto. exists t, x, y. auto.
Qed.
Lemma o_CDR : forall h w L P a v, at_ h w L P -> avail h L B a v ->
  wpv (CDR a) (fun p h' => h' = h /\ exists t x y, v = Pair t x y /\ avail h L B p y) h.
Proof.
  intros h w L P a v H A. pose proof (reads_shows _ _ _ (proj1 A)) as [c [E S]]. unfold wpv, CDR, rd, hbind_. rewrite E.
  destruct v as [| | | | | |t x y]; cbn in S; try (rewrite S; exact I); [destruct S as [-> _]; exact I|].
  destruct (avail_parts _ _ _ _ _ _ _ _ H A) as [c1 [p [q [E1 [B1 [T [Ap Aq]]]]]]]. rewrite E in E1. injection E1 as <-. rewrite B1.
  cbn. split; auto. exists t, x, y. auto.
Qed.
Lemma o_car : forall h w L P a v, at_ h w L P -> avail h L B a v -> wpv (hcar a) (fun r h' => at_ h' w ((r, car v) :: L) P) h.
Proof.
  intros h w L P a v H A. apply wpv_bind. eapply wpv_mono; [apply (wpv_rd _ _ _ (proj1 A))|]. intros c h' [-> [E S]].
  destruct v as [| | | | | |t x y]; cbn in S; try (rewrite S; apply o_nil; auto); [destruct S as [-> _]; apply o_nil; auto|].
  destruct (avail_parts _ _ _ _ _ _ _ _ H A) as [c1 [p [q [E1 [B1 [T [Ap Aq]]]]]]]. rewrite E in E1. injection E1 as <-. rewrite B1.
  eapply wpv_mono; [apply (o_up _ _ _ _ _ _ H Ap)|]. intros r h' [-> H']. exact H'.
Qed.
Lemma o_cdr : forall h w L P a v, at_ h w L P -> avail h L B a v -> wpv (hcdr a) (fun r h' => at_ h' w ((r, cdr v) :: L) P) h.
Proof.
  intros h w L P a v H A. apply wpv_bind. eapply wpv_mono; [apply (wpv_rd _ _ _ (proj1 A))|]. intros c h' [-> [E S]].
  destruct v as [| | | | | |t x y]; cbn in S; try (rewrite S; apply o_nil; auto); [destruct S as [-> _]; apply o_nil; auto|].
  destruct (avail_parts _ _ _ _ _ _ _ _ H A) as [c1 [p [q [E1 [B1 [T [Ap Aq]]]]]]]. rewrite E in E1. injection E1 as <-. rewrite B1.
  eapply wpv_mono; [apply (o_up _ _ _ _ _ _ H Aq)|]. intros r h' [-> H']. exact H'.
Qed.
(** What can be read still can be read after a step on the rest. *)
Lemma avail_weaken : forall h L L' a v, incl L L' -> avail h L B a v -> avail h L' B a v.
Proof.
  intros h L L' a v I [R A]. split; auto. eapply reach_sub; [|exact A]. intros x Ix. apply in_app_or in Ix. apply in_or_app.
  destruct Ix as [Ix|Ix]; auto. left. apply in_map_iff in Ix. destruct Ix as [p [<- Ip]]. apply in_map. auto.
Qed.

(** ** A pair in front of a private list *)
Lemma o_pcons : forall h w L P x vx y vy, at_ h w ((x, vx) :: L) ((y, vy) :: P) ->
  wpv (hcons x y) (fun r h' => at_ h' w L ((r, Cons vx vy) :: P)) h.
Proof.
  intros h w L P x vx y vy H. pose proof (v_solo _ _ _ _ _ _ _ _ H [] _ _ _ eq_refl) as [S [C [Sp Ca]]].
  pose proof (vat_own _ _ _ _ _ _ _ _ H) as O.
  apply vat_demote in H. apply (vat_front _ _ _ _ _ _ [(y, vy)] (x, vx) L) in H. cbn [app] in H.
  eapply wpv_mono; [apply (o_cons _ _ _ _ _ _ _ _ H)|]. intros r h' [-> [G H']]. apply vat_promote; auto.
  pose proof (v_holds _ _ _ _ _ _ _ _ H) as HH. cbn [app] in C.
  assert (BD : forall a, alive h a -> (a < nxt h)%N) by (intros a; eapply own_bounded; eauto).
  assert (AF : forall a b, In b (fields_at h a) -> (b < nxt h)%N) by (intros a b I; apply BD; eapply fields_alive; [apply O|eauto]).
  assert (NO : forall a, (a < nxt h)%N -> a <> nxt h) by (intros; lia).
  assert (K : kept [y] h h').
  { eapply adds_kept; [exact O| |eapply tgrown_adds; eauto]. intros r [<-|[]]. eapply own_alive; [exact O|].
    apply in_or_app. left. apply in_or_app. right. cbn. auto. }
  exists (fun a => a = nxt h \/ S a). split; [constructor|split].
  - intros a [->|Sa]; rewrite (t_nxt _ _ _ _ G); [lia|]. apply (c_below _ _ _ C) in Sa. lia.
  - intros a b I Sb. destruct (N.eq_dec a (nxt h)) as [->|X]; auto. right. unfold fields_at in I. rewrite (t_old _ _ _ _ G) in I by auto.
    fold (fields_at h a) in I. destruct Sb as [->|Sb]; [apply AF in I; lia|]. eapply c_in; eauto.
  - intros a I [->|Sa].
    + assert (Al : alive h (nxt h)); [|apply BD in Al; lia]. eapply own_alive; [exact O|]. apply in_or_app. left.
      cbn. right. apply in_app_or in I. apply in_or_app. destruct I as [I|I]; auto. right. right. auto.
    + apply (c_held _ _ _ C a); auto. cbn. right. exact I.
  - rewrite (t_aux _ _ _ _ G). intros s kv b I Ib. assert (Ak : alive h kv).
    { eapply global_alive; eauto. apply in_map_iff. exists (s, kv). auto. }
    unfold fields_at in Ib. rewrite (t_old _ _ _ _ G) in Ib by (apply NO; auto). fold (fields_at h kv) in Ib.
    intros [->|Sb]; [apply AF in Ib; lia|]. eapply c_glob; eauto.
  - rewrite (t_aux _ _ _ _ G). intros a I [->|Sa]; [|eapply c_lisp; eauto].
    assert (Al : alive h (nxt h)); [|apply BD in Al; lia]. eapply own_alive; [exact O|]. apply in_or_app. right.
    unfold held_by_lisp. apply in_or_app. right. exact I.
  - intros p Hp. inversion Hp as [a c p1 q1 E1 B1|a c p1 q1 p' E1 B1 Hp']; subst; auto.
    right. apply Sp. rewrite (t_new _ _ _ _ G) in E1. injection E1 as <-. cbn in B1. injection B1 as <- <-.
    eapply kept_spine; [apply (proj2 O)|exact K|apply reach_root; cbn; auto|exact Hp'].
  - intros p c x1 y1 Hp E1 B1. inversion Hp as [a c0 p1 q1 E0 B0|a c0 p1 q1 p' E0 B0 Hp']; subst.
    + rewrite (t_new _ _ _ _ G) in E1. injection E1 as <-. cbn in B1. injection B1 as <- <-.
      intros [->|Sx]; [|apply (c_held _ _ _ C x); cbn; auto].
      assert (Al : alive h (nxt h)); [|apply BD in Al; lia]. eapply own_alive; [exact O|]. cbn. auto.
    + rewrite (t_new _ _ _ _ G) in E0. injection E0 as <-. cbn in B0. injection B0 as <- <-.
      assert (Hp0 : on_spine h y p) by (eapply kept_spine; [apply (proj2 O)|exact K|apply reach_root; cbn; auto|exact Hp']).
      destruct (K p) as [c1 [c2 [E2 [E3 T]]]]; [eapply spine_reach; [apply (proj2 O)|apply reach_root; cbn; auto|exact Hp0]|].
      rewrite E1 in E3. injection E3 as <-. apply stored_eq in T. destruct T as [T _]. rewrite B1 in T.
      intros [->|Sx]; [|eapply Ca; eauto].
      assert (I : (nxt h < nxt h)%N); [|lia]. apply (AF p). eapply field_car; [apply (proj2 O)|exact E2|]. symmetry. exact T.
Qed.
End Steps.

(** ** Tactics: one step of a computation at a heap that stands for values *)
Ltac inl := solve [repeat first [apply in_eq | apply in_cons]].
Ltac av H := first [eassumption | eapply (avail_L _ _ _ _ _ _ _ _ _ _ H); inl | eapply (avail_B _ _ _ _ _ _ _ _ _ _ H); inl].
(** Bring the reference [a] to the front. *)
Ltac split_at a L k :=
  lazymatch L with
  | cons (a, ?v) ?r => k (@nil (N * atom)) (a, v) r
  | cons ?x ?r => split_at a r ltac:(fun l1 e l2 => k (cons x l1) e l2)
  end.
Ltac focus a H :=
  lazymatch type of H with
  | vat _ _ _ _ _ _ ?L _ =>
      split_at a L ltac:(fun l1 e l2 => apply (vat_front _ _ _ _ _ _ l1 e l2) in H; cbn [app] in H)
  end.
(** Run the next operation by a rule. *)
Ltac op tac :=
  first [ eapply sim_heap; [tac|] | eapply sim_last; [tac|]
        | apply wpv_bind; eapply wpv_mono; [tac|] | eapply wpv_mono; [tac|] ]; cbv beta.
Ltac xX H a := focus a H; op ltac:(eapply o_X; exact H); clear H; let h := fresh "h" in intros ? h H.
Ltac xup H := op ltac:(eapply o_up; [exact H|av H]); clear H; let h := fresh "h" in intros ? h [-> H].
Ltac xcar H r := op ltac:(eapply o_car; [exact H|av H]); clear H; let h := fresh "h" in intros r h H.
Ltac xcdr H r := op ltac:(eapply o_cdr; [exact H|av H]); clear H; let h := fresh "h" in intros r h H.
Ltac xnil H r := op ltac:(eapply o_nil; exact H); clear H; let h := fresh "h" in intros r h H.
Ltac xcons H x y r := focus y H; focus x H; op ltac:(eapply o_cons; exact H); clear H; let h := fresh "h" in intros r h [_ [_ H]].
