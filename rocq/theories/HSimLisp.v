(** * HSimLisp: globals, channels and output on a heap that stands for values. *)
From Verif Require Import Value Tails Print Heap HeapSpec HeapProofs HeapOps HEval HEvalSpec HEvalBase HEvalProofs ValueProofs HSimSpec HSimBase HSimOps HSimList HSimPure.
From Verif Require Eval.
Open Scope nat_scope.
Open Scope heap_scope.

Lemma reach_in : forall h R d, (forall a, ~ In d (fields_at h a)) -> reach h R d -> In d R.
Proof. intros h R d N H. destruct H as [a I|a b _ I]; auto. destruct (N _ I). Qed.

(** What struct lisp refers to, beyond the pairs of the globals. *)
Definition lent (h : heap) : list N :=
  flat_map (fun p => fields_at h (snd p)) (binds (aux h)) ++ ichan (aux h) :: ochan (aux h) :: lost (aux h).
Lemma lent_clear : forall h S V, clear h S V -> clear h S (V ++ lent h).
Proof.
  intros h S V C. apply clear_more; auto. intros a I. apply in_app_or in I. destruct I as [I|I]; [|apply (c_lisp _ _ _ C _ I)].
  apply in_flat_map in I. destruct I as [[s kv] [I J]]. apply (c_glob _ _ _ C _ _ _ I J).
Qed.

(** The pairs of the globals stay alone. *)
Lemma alone_after2 : forall h w h' V V' R R', holds h R -> lisp h w -> sep h V h' V' ->
  (forall x, In x V -> reach h R x) -> incl R' R -> binds (aux h') = binds (aux h) ->
  own h' (V' ++ R' ++ held_by_lisp (aux h')) ->
  forall s kv, In (s, kv) (binds (aux h)) -> exists c', cells h' kv = Some c' /\ refs c' = 1.
Proof.
  intros h w h' V V' R R' HH LI SP IV I1 C O' s kv I. destruct (alone_counts _ _ _ _ _ HH LI I) as [N1 [N2 N3]].
  pose proof (alone_clear _ _ _ _ HH LI IV) as CL.
  pose proof (proj2 SP _ CL) as CL'. assert (J : In kv (map snd (binds (aux h)))) by (apply in_map_iff; exists (s, kv); auto).
  assert (J' : In kv (held_by_lisp (aux h'))).
  { unfold held_by_lisp. rewrite C. apply in_or_app. auto. }
  assert (Al : alive h' kv).
  { eapply own_alive; [exact O'|]. apply in_or_app; right. apply in_or_app; auto. }
  unfold alive in Al. destruct (cells h' kv) as [c'|] eqn:E'; [|congruence]. exists c'. split; auto.
  destruct (counted _ _ (proj1 O') _ _ E') as [Q _]. rewrite Q. rewrite !cnt_app.
  assert (Z1 : cnt kv (edges h') = 0).
  { destruct (cnt kv (edges h')) eqn:Z; auto. exfalso. assert (In kv (edges h')) as Y by (apply cnt_in; lia).
    destruct (edge_of _ _ Y) as [a Ia]. pose proof (c_in _ _ _ CL' _ _ Ia J) as Ja. apply in_map_iff in Ja. destruct Ja as [[s' a'] [<- Ja]].
    pose proof (c_glob _ _ _ CL' s' a' kv) as G. rewrite C in G. exact (G Ja Ia J). }
  assert (Z2 : cnt kv V' = 0).
  { destruct (cnt kv V') eqn:Z; auto. exfalso. apply (c_held _ _ _ CL' kv); auto. apply cnt_in. lia. }
  assert (Z3 : cnt kv R' = 0).
  { destruct (cnt kv R') eqn:Z; auto. exfalso. apply N1. apply I1. apply cnt_in. lia. }
  assert (Z4 : cnt kv (held_by_lisp (aux h')) = 1).
  { unfold held_by_lisp in N3 |- *. rewrite C. rewrite cnt_app in N3 |- *. apply cnt_in in J.
    assert (Z : cnt kv ([ichan (aux h'); ochan (aux h')] ++ lost (aux h')) = 0).
    { destruct (cnt kv ([ichan (aux h'); ochan (aux h')] ++ lost (aux h'))) eqn:Z; auto. exfalso.
      apply (c_lisp _ _ _ CL' kv); [|apply cnt_in; auto]. apply cnt_in. cbn [app] in Z. lia. }
    lia. }
  lia.
Qed.

(** A struct lisp with the same globals. *)
Lemma lisp_step : forall h w h' w' R, holds h R -> lisp h w -> binds (aux h') = binds (aux h) ->
  kept (map snd (binds (aux h))) h h' ->
  (forall s kv, In (s, kv) (binds (aux h)) -> exists c', cells h' kv = Some c' /\ refs c' = 1) ->
  (forall a e, assq (N.eqb a) (caches (aux h')) = Some e ->
    (a < nxt h')%N /\ forall c s, cells h' a = Some c -> body c = KSym s -> global_at h s = Some e) ->
  Eval.globals w' = Eval.globals w -> outs (aux h') = Eval.outs w' -> opens (aux h') = Eval.opens w' ->
  chans h' (ichan (aux h')) (Eval.ichan w') -> chans h' (ochan (aux h')) (Eval.ochan w') ->
  lisp h' w'.
Proof.
  intros h w h' w' R H L A K AL CA GW OU OP IC OC. pose proof (h_strong _ _ H) as St. constructor; auto.
  - rewrite GW. intros s v E. destruct (g_bound _ _ L s v E) as [kv [c [k [x [G [Ec [Bc Rx]]]]]]].
    assert (Rk : reach h (map snd (binds (aux h))) kv).
    { apply reach_root. destruct (assq_in _ _ _ G) as [s' [I _]]. apply in_map_iff. exists (s', kv). auto. }
    destruct (K kv Rk) as [c0 [c' [E0 [E' T]]]]. rewrite Ec in E0. injection E0 as <-. apply stored_eq in T. destruct T as [T _].
    exists kv, c', k, x. split; [unfold global_at; rewrite A; auto|]. split; auto. split; [congruence|].
    eapply kept_reads; eauto. eapply reach_step; [exact Rk|eapply field_cdr; eauto].
  - rewrite GW. intros s E. unfold global_at. rewrite A. apply (g_unbound _ _ L s E).
  - rewrite A. exact AL.
  - intros a e E. destruct (CA a e E) as [LT Q]. split; auto. unfold global_at. rewrite A. exact Q.
Qed.
Lemma cached_same : forall h w h', lisp h w -> caches (aux h') = caches (aux h) -> (nxt h <= nxt h')%N ->
  (forall a c' s, (a < nxt h)%N -> cells h' a = Some c' -> body c' = KSym s -> exists c, cells h a = Some c /\ body c = KSym s) ->
  (forall a e, assq (N.eqb a) (caches (aux h')) = Some e ->
    (a < nxt h')%N /\ forall c s, cells h' a = Some c -> body c = KSym s -> global_at h s = Some e).
Proof.
  intros h w h' L C NX DD a e E. rewrite C in E. destruct (g_cached _ _ L a e E) as [LT Q]. split; [lia|].
  intros c s Ec Bc. destruct (DD a c s LT Ec Bc) as [c0 [E0 B0]]. apply (Q c0); auto.
Qed.

(** ** Steps that leave the cells *)
Lemma same_kept : forall R S S' h h', own h S -> own h' S' -> (forall r, In r R -> alive h r) ->
  (forall a, cells h' a = cells h a) -> kept R h h'.
Proof.
  intros R S S' h h' O O' I E. apply (kept_of R S S'); auto; [|congruence].
  intros r Ir. unfold alive. rewrite E. apply I. auto.
Qed.
Lemma same_fields : forall h h' a, (forall x, cells h' x = cells h x) -> fields_at h' a = fields_at h a.
Proof. intros h h' a E. unfold fields_at. rewrite E. auto. Qed.
Lemma same_reads : forall h h' a v, (forall x, cells h' x = cells h x) -> reads h a v -> reads h' a v.
Proof. intros h h' a v E R. induction R; rewrite <- E in *; econstructor; eauto. Qed.
Lemma same_chans : forall h h' a l, (forall x, cells h' x = cells h x) -> chans h a l -> chans h' a l.
Proof. intros h h' a l E R. induction R; repeat rewrite <- E in *; econstructor; eauto. Qed.
Lemma lisp_aux : forall h w h' w', lisp h w -> (forall a, cells h' a = cells h a) -> nxt h' = nxt h ->
  binds (aux h') = binds (aux h) -> ichan (aux h') = ichan (aux h) -> ochan (aux h') = ochan (aux h) ->
  (forall a e, assq (N.eqb a) (caches (aux h')) = Some e ->
    (a < nxt h)%N /\ forall c s, cells h a = Some c -> body c = KSym s -> global_at h s = Some e) ->
  Eval.globals w' = Eval.globals w -> outs (aux h') = Eval.outs w' -> opens (aux h') = Eval.opens w' ->
  Eval.ichan w' = Eval.ichan w -> Eval.ochan w' = Eval.ochan w -> lisp h' w'.
Proof.
  intros h w h' w' L E N1 B1 I1 O1 CA G1 U1 P1 IC OC.
  assert (GA : forall s, global_at h' s = global_at h s) by (intro s; unfold global_at; rewrite B1; auto). constructor; auto.
  - rewrite G1. intros s v Q. destruct (g_bound _ _ L s v Q) as [kv [c [k [x [G [Ec [Bc Rx]]]]]]].
    exists kv, c, k, x. rewrite GA, E. repeat (split; auto). eapply same_reads; eauto.
  - rewrite G1. intros s Q. rewrite GA. apply (g_unbound _ _ L s Q).
  - rewrite B1. intros s kv I. rewrite E. apply (g_alone _ _ L s kv I).
  - rewrite N1. intros a e Q. destruct (CA a e Q) as [LT W]. split; auto. intros c s. rewrite E, GA. apply W.
  - rewrite I1, IC. eapply same_chans; eauto. apply L.
  - rewrite O1, OC. eapply same_chans; eauto. apply L.
Qed.

Lemma holds_same : forall h h' R, holds h R -> (forall a, cells h' a = cells h a) -> nxt h' = nxt h ->
  held_by_lisp (aux h') = held_by_lisp (aux h) -> binds (aux h') = binds (aux h) ->
  ichan (aux h') = ichan (aux h) -> ochan (aux h') = ochan (aux h) ->
  (opens (aux h') <> 0%N -> opens (aux h) <> 0%N) ->
  (forall a e, In (a, e) (caches (aux h')) -> In e (map snd (binds (aux h')))) -> holds h' R.
Proof.
  intros h h' R H E N1 HB B1 I1 O1 P1 CA. pose proof (own_ext h h' _ (holds_own _ _ H) N1 E) as O. constructor; auto.
  - rewrite HB. apply O.
  - apply O.
  - rewrite B1. intros s kv I. destruct (h_globals _ _ H _ _ I) as [c [k [v [ck Q]]]]. exists c, k, v, ck. rewrite !E. auto.
  - rewrite I1, O1. intros Z a Ia. rewrite E. apply (h_chans _ _ H); auto.
Qed.

Section Steps.
Variables (h0 : heap) (F : list N) (B : list (N * atom)) (V0 : list N).
Notation at_ := (vat h0 F B V0).

Lemma vat_calm2 : forall h w h' l l' L P V, at_ h w (l ++ L) P ->
  (forall x, In x V -> reach h (heads (l ++ L) ++ heads B) x) ->
  calm h (V ++ lent h) h' (heads l') ->
  own h' ((heads (l' ++ L) ++ heads P ++ F) ++ held_by_lisp (aux h)) ->
  Forall (says h') l' ->
  at_ h' w (l' ++ L) P.
Proof.
  intros h w h' l l' L P V H IV C O' RL. pose proof (v_holds _ _ _ _ _ _ _ _ H) as HH.
  pose proof (holds_own _ _ HH) as O. pose proof (v_lisp _ _ _ _ _ _ _ _ H) as LI.
  assert (SP : sep h V h' (heads l')).
  { destruct (calm_sep _ _ _ _ _ HH C) as [N1 SP]. split; auto. intros S CS. apply SP. apply lent_clear. auto. }
  assert (I1 : incl (heads L ++ heads P ++ F) (heads (l ++ L) ++ heads P ++ F)).
  { intros x Ix. rewrite heads_app, <- app_assoc. apply in_or_app. right. auto. }
  assert (I2 : incl (heads L ++ heads P ++ F) (heads (l' ++ L) ++ heads P ++ F)).
  { intros x Ix. rewrite heads_app, <- app_assoc. apply in_or_app. right. auto. }
  assert (H' : holds h' (heads (l' ++ L) ++ heads P ++ F)).
  { eapply holds_keep; [exact HH|eapply calm_step0; eauto|apply C|exact O']. }
  eapply vat_step; eauto.
  - eapply calm_kept; [exact O|exact O'|exact C| |]; eauto using incl_appl.
  - apply (lisp_same h w h' _ HH LI); try apply C.
    + eapply calm_kept; [exact O|exact O'|exact C| |]; eauto using incl_appr, incl_refl.
    + intros a c' s L1 E' B'. destruct (cells h a) as [c|] eqn:E; [|rewrite (m_dead _ _ _ _ C) in E'; auto; discriminate].
      exists c. split; auto. pose proof (m_same _ _ _ _ C _ _ _ E E') as T. apply stored_eq in T. destruct T. congruence.
    + apply (alone_after h w h' V (heads l') _ (heads L ++ heads P ++ F) HH LI SP); auto; [intros x Ix; eapply reach_all; eauto|apply C|].
      hown.
  - rewrite (m_aux _ _ _ _ C). lia.
Qed.

(** A reference to something struct lisp refers to. *)
Lemma up_lent : forall h w h' L P a v c, at_ h w L P -> In a (lent h) -> reads h a v -> cells h a = Some c ->
  h' = set_cell h a (Some (with_refs c (S (refs c)))) -> at_ h' w ((a, v) :: L) P.
Proof.
  intros h w h' L P a v c H I R E ->. pose proof (vat_own _ _ _ _ _ _ _ _ H) as O.
  set (h' := set_cell h a (Some (with_refs c (S (refs c))))).
  assert (A : adds h h') by (eapply set_adds; eauto).
  apply (vat_calm2 h w h' [] [(a, v)] L P []); auto.
  - intros x [].
  - apply adds_calm; auto; [|intros x [<-|[]]; apply reach_root; cbn; auto].
    intros x Ex. unfold h'. rewrite set_other; auto. congruence.
  - unfold h'. eapply own_set; [exact O|exact E|apply (proj2 O _ _ E)|cbn; lia|].
    intro b. unfold heads. cbn [with_refs refs]. replace (fields (with_refs c (S (refs c)))) with (fields c) by reflexivity.
    cbn [app map fst cnt]. unfold is. destruct (N.eqb a b); lia.
  - constructor; auto. eapply reads_adds; [exact R|exact A].
Qed.

(** Only struct lisp changes. *)
Lemma vat_aux : forall h w h' w' L P, at_ h w L P -> (forall a, cells h' a = cells h a) -> nxt h' = nxt h ->
  binds (aux h') = binds (aux h) -> ichan (aux h') = ichan (aux h) -> ochan (aux h') = ochan (aux h) ->
  lost (aux h') = lost (aux h) -> holds h' (heads L ++ heads P ++ F) -> lisp h' w' -> (opens (aux h) <= opens (aux h'))%N ->
  at_ h' w' L P.
Proof.
  intros h w h' w' L P H E N1 B1 I1 O1 L1 HH LI OP. pose proof (vat_own _ _ _ _ _ _ _ _ H) as O.
  apply (vat_step _ _ _ _ h w h' w' [] [] L P []); auto.
  - intros x [].
  - split; [lia|]. intros S C. constructor.
    + rewrite N1. apply C.
    + intros a b. rewrite (same_fields _ _ _ E). apply C.
    + intros a [].
    + rewrite B1. intros s kv b I. rewrite (same_fields _ _ _ E). apply (c_glob _ _ _ C _ _ _ I).
    + rewrite I1, O1, L1. apply C.
  - eapply same_kept; [exact O|exact (holds_own _ _ HH)| |exact E]. intros r Ir. eapply own_alive; [exact O|]. apply in_or_app. auto.
Qed.

(** ** Values made at once *)
Lemma o_plant : forall v h w L P, at_ h w L P -> wpv (plant v) (fun r h' => at_ h' w ((r, v) :: L) P) h.
Proof.
  induction v as [| | | | |t s|t x IHx y IHy]; intros h w L P H; cbn [plant];
    try (apply o_alloc; auto; intros; first [eapply reads_nil; eassumption|eapply reads_true; eassumption|eapply reads_wild; eassumption
      |eapply reads_char; eassumption|eapply reads_num; eassumption]).
  - eapply wpv_mono; [apply (o_leaf _ _ _ _ h w L P t (KSym s) (Sym t s) H eq_refl)|].
    + intros h' G. change t with (tail (mkcell 1 t false (KSym s))). eapply reads_sym; [apply G|reflexivity].
    + intros r h' [_ [_ A]]. exact A.
  - op ltac:(apply (IHx _ _ _ _ H)). intros a h1 H1. op ltac:(apply (IHy _ _ _ _ H1)). intros b h2 H2.
    focus a H2. eapply wpv_mono; [apply (o_tcons _ _ _ _ _ _ _ _ _ _ _ _ _ H2)|]. intros r h' [_ [_ A]]. exact A.
Qed.
(** ** lisp_lookup *)
Definition found (w : Eval.world) (ce : env) (k : symbol) : atom :=
  match env_get ce k with
  | Some v => v
  | None => match env_get (Eval.globals w) k with Some v => v | None => Nil end
  end.
Lemma global_value : forall h w s kv, lisp h w -> global_at h s = Some kv ->
  exists v c k x, env_get (Eval.globals w) s = Some v /\ cells h kv = Some c /\ body c = KPair k x /\ reads h x v.
Proof.
  intros h w s kv L G. destruct (env_get (Eval.globals w) s) as [v|] eqn:E.
  - destruct (g_bound _ _ L s v E) as [kv' [c [k [x [G' [Ec [Bc R]]]]]]]. rewrite G in G'. injection G' as <-. exists v, c, k, x. auto.
  - rewrite (g_unbound _ _ L s E) in G. discriminate.
Qed.
Lemma global_lent : forall h R s kv c k x, holds h R -> global_at h s = Some kv -> cells h kv = Some c -> body c = KPair k x -> In x (lent h).
Proof.
  intros h R s kv c k x H G E Bc. destruct (assq_in _ _ _ G) as [s' [I _]]. apply in_or_app. left. apply in_flat_map.
  exists (s', kv). split; auto. eapply field_cdr; eauto. apply (h_strong _ _ H).
Qed.
Lemma up_run0 : forall h a c, cells h a = Some c -> up a h = Done a (set_cell h a (Some (with_refs c (S (refs c))))).
Proof. intros h a c E. unfold up, rd, wr, hbind_, done. rewrite E, E. auto. Qed.
Lemma hcdr_run : forall h a c k x cx, cells h a = Some c -> body c = KPair k x -> cells h x = Some cx ->
  hcdr a h = Done x (set_cell h x (Some (with_refs cx (S (refs cx))))).
Proof. intros h a c k x cx E Bc Ex. unfold hcdr, hbind_ at 1, rd at 1. rewrite E, Bc. apply up_run0. auto. Qed.
Lemma X_run2 : forall h a c, cells h a = Some c -> refs c = 2 ->
  X a h = Done tt (set_cell h a (Some (with_refs c 1))).
Proof. intros h a c E R. unfold X. cbn [drop]. unfold rd, wr, hbind_, done. rewrite E, R, E. auto. Qed.
Lemma with_refs_back : forall c n, with_refs (with_refs c n) (refs c) = c.
Proof. intros [r t w b] n. reflexivity. Qed.

Lemma o_lookup : forall n h w L P c ce x t k, at_ h w L P -> avail h L B c (atom_of_env ce) -> avail h L B x (Sym t k) ->
  wpv (hlookup n c x) (fun r h' => at_ h' w ((r, found w ce k) :: L) P) h.
Proof.
  intros n h w L P c ce x t k H Ac Ax. pose proof (v_holds _ _ _ _ _ _ _ _ H) as HH. pose proof (v_lisp _ _ _ _ _ _ _ _ H) as LI.
  pose proof (vat_strong _ _ _ _ _ _ _ _ H) as St. pose proof (holds_own _ _ HH) as O.
  pose proof (avail_alive _ _ _ _ _ _ _ _ _ _ H Ac) as ALc. pose proof (avail_alive _ _ _ _ _ _ _ _ _ _ H Ax) as ALx.
  unfold hlookup. eapply gives_wpv; [apply (g_symbol h x _ (proj1 Ax))|]. intros s [t1 Q]. injection Q as <- <-.
  eapply gives_wpv; [apply (g_find h n c ce k (proj1 Ac))|]. intros l GF. unfold found.
  destruct l as [kv|].
  - destruct GF as [v [-> [Rk W]]].
    assert (Ak : avail h L B kv (Cons (Symb k) v)).
    { split; auto. eapply reach_incl; [|apply (W St)]. intros r [<-|[]]. apply Ac. }
    op ltac:(eapply o_CDR; [exact H|exact Ak]). intros p h1 [-> [? [? [? [Q Ap]]]]]. injection Q as <- <- <-.
    eapply wpv_mono; [apply (o_up _ _ _ _ _ _ _ _ _ _ H Ap)|]. intros r h' [-> H']. exact H'.
  - rewrite GF. apply wpv_bind. unfold wpv at 1, cached, get_aux, hbind_, done. cbv beta iota.
    destruct (assq (N.eqb x) (caches (aux h))) as [kv|] eqn:CA.
    + destruct (reads_shows _ _ _ (proj1 Ax)) as [cx [Ex [Bx _]]].
      pose proof (proj2 (g_cached _ _ LI _ _ CA) _ _ Ex Bx) as G.
      destruct (global_value _ _ _ _ LI G) as [v [ck [kk [xv [-> [Ek [Bk Rv]]]]]]].
      unfold wpv, hbind_. rewrite (CDR_run _ _ _ _ _ Ek Bk). destruct (HSimBase.reads_alive _ _ _ Rv) as [cv Ev]. rewrite (up_run0 _ _ _ Ev).
      eapply up_lent; eauto. eapply global_lent; eauto.
    + apply wpv_bind. unfold wpv at 1, global, get_aux, hbind_, done. cbv beta iota. fold (global_at h k).
      destruct (global_at h k) as [kv|] eqn:G.
      * destruct (global_value _ _ _ _ LI G) as [v [ck [kk [xv [-> [Ek [Bk Rv]]]]]]].
        destruct (assq_in _ _ _ G) as [s' [I SM]]. apply sym_match_eq in SM. subst s'.
        destruct (g_alone _ _ LI _ _ I) as [ck' [Ek' Rk]]. rewrite Ek in Ek'. injection Ek' as <-.
        destruct (alone_counts _ _ _ _ _ HH LI I) as [_ [NE _]].
        assert (NX : xv <> kv) by (intros ->; apply (NE kv); eapply field_cdr; eauto).
        destruct (HSimBase.reads_alive _ _ _ Rv) as [cv Ev].
        set (h1 := set_cell h kv (Some (with_refs ck (S (refs ck))))).
        assert (E1 : up kv h = Done kv h1) by (apply up_run0; auto).
        assert (E2 : hcdr kv h1 = Done xv (set_cell h1 xv (Some (with_refs cv (S (refs cv)))))).
        { eapply hcdr_run; [unfold h1; apply set_same|exact Bk|]. unfold h1. rewrite set_other; auto. }
        unfold wpv, hbind_. rewrite E1, E2. unfold remember, set_aux.
        set (h2 := set_cell h1 xv (Some (with_refs cv (S (refs cv))))).
        set (h3 := mkheap (cells h2) (nxt h2) (with_caches (aux h2) ((x, kv) :: caches (aux h2)))).
        assert (E3 : cells h3 kv = Some (with_refs ck (S (refs ck)))).
        { unfold h3, h2. cbn [cells]. rewrite set_other by auto. unfold h1. apply set_same. }
        rewrite (X_run2 h3 kv _ E3) by (cbn; lia). unfold done. rewrite <- Rk, with_refs_back.
        set (h4 := set_cell h3 kv (Some ck)).
        pose proof (up_lent h w _ L P xv v cv H (global_lent _ _ _ _ _ _ _ HH G Ek Bk) Rv Ev eq_refl) as HU.
        set (hu := set_cell h xv (Some (with_refs cv (S (refs cv))))) in *.
        assert (SAME : forall a, cells h4 a = cells hu a).
        { intro a. unfold h4, hu. destruct (N.eq_dec a kv) as [->|NA].
          - rewrite set_same, set_other; auto.
          - rewrite set_other by auto. unfold h3, h2. cbn [cells]. destruct (N.eq_dec a xv) as [->|NV].
            + rewrite !set_same. auto.
            + rewrite !set_other by auto. unfold h1. rewrite set_other; auto. }
        assert (LH : lisp hu w) by apply HU.
        apply (vat_aux hu w h4 w _ P HU); auto; cbn [h4 set_cell aux h3 with_caches opens h2 h1 hu]; try lia.
        { apply (holds_same hu); auto; try apply HU. cbn [h4 set_cell aux h3 with_caches caches binds]. intros a e [Q|Q].
          - injection Q as <- <-. apply in_map_iff. exists (k, kv). auto.
          - apply (h_caches _ _ HH _ _ Q). }
        eapply lisp_aux; [exact LH|exact SAME|reflexivity|reflexivity|reflexivity|reflexivity| |reflexivity|apply LI|apply LI|reflexivity|reflexivity].
        cbn [h4 set_cell aux h3 with_caches caches assq]. intros a e. destruct (N.eqb_spec a x) as [->|NA].
        -- intro Q. injection Q as <-. destruct (reads_shows _ _ _ (proj1 Ax)) as [cx [Ex [Bx _]]].
           split; [unfold hu; cbn; eapply own_bounded; eauto|]. intros c1 s Ec Bc. unfold global_at. cbn. fold (global_at h s).
           assert (c1 = cx \/ stored c1 = stored cx) as Q.
           { unfold hu in Ec. destruct (N.eq_dec x xv) as [Y|Y]; [subst xv; rewrite set_same in Ec; rewrite Ex in Ev; injection Ev as <-; injection Ec as <-; auto|].
             rewrite set_other in Ec by auto. left. congruence. }
           assert (s = k).
           { destruct Q as [->|Q]; [congruence|]. apply stored_eq in Q. destruct Q as [Q _]. congruence. }
           subst s. exact G.
        -- apply LH.
      * assert (E : env_get (Eval.globals w) k = None).
        { destruct (env_get (Eval.globals w) k) as [v|] eqn:E; auto. destruct (g_bound _ _ LI k v E) as [kv [c1 [k1 [x1 [G' _]]]]]. congruence. }
        rewrite E.
        xnil H elt. xcdr H res. xX H elt. exact H.
Qed.
End Steps.
