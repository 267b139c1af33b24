(** * HEvalProofs: evaluation keeps counts correct. *)
From Verif Require Import Value Tails Print Heap HeapSpec HeapProofs HeapOps HEval HEvalSpec HEvalBase HEvalTails ValueProofs.
Import Eval(prim(..), shape(..), args_of, prim_table, prim_of_addr, numbered, arith, compare, pops_two, proper, builtins).
Open Scope nat_scope.
Open Scope heap_scope.

(** ** Changing struct lisp *)
Lemma aux_step0 : forall h R r', own h R -> step0 h (mkheap (cells h) (nxt h) r').
Proof.
  intros h R r' O. constructor; cbn; eauto; [|lia|].
  - exists R. apply (own_ext _ _ _ O); auto.
  - intros a c c' E E'. left. congruence.
Qed.
Lemma aux_holds : forall h R R' r', holds h R ->
  (forall b, cnt b R' + cnt b (held_by_lisp r') = cnt b R + cnt b (held_by_lisp (aux h))) ->
  (forall s kv, In (s, kv) (binds r') -> In (s, kv) (binds (aux h)) \/ named_pair h s kv) ->
  (forall a e, In (a, e) (caches r') -> In e (map snd (binds r'))) ->
  (opens r' <> 0%N -> forall a, a = ichan r' \/ a = ochan r' -> exists c, cells h a = Some c /\ is_pair_c c = true) ->
  holds (mkheap (cells h) (nxt h) r') R'.
Proof.
  intros h R R' r' H P G C Z. destruct (holds_own _ _ H) as [Co St].
  assert (Co' : correct h (R' ++ held_by_lisp r')).
  { apply (correct_perm _ _ _ Co). intro b. rewrite !cnt_app. symmetry. auto. }
  assert (O : own (mkheap (cells h) (nxt h) r') (R' ++ held_by_lisp r')).
  { apply (own_ext h); auto. split; auto. }
  constructor; cbn; auto; try apply O.
  intros s kv I. destruct (G s kv I) as [I1|N1]; [apply (h_globals _ _ H _ _ I1)|exact N1].
Qed.
Lemma held_globals : forall h R s kv, holds h R -> In (s, kv) (binds (aux h)) -> In kv (held_by_lisp (aux h)).
Proof. intros h R s kv H I. apply in_or_app. left. apply in_map_iff. exists (s, kv). auto. Qed.
Lemma assq_in : forall {A B} (t : A -> bool) (l : list (A * B)) v, assq t l = Some v -> exists k, In (k, v) l /\ t k = true.
Proof.
  intros A B t l v. induction l as [|[k w] l IH]; cbn; [discriminate|]. destruct (t k) eqn:T.
  - intro E. injection E as <-. eauto.
  - intro E. destruct (IH E) as [k' [I T']]. eauto.
Qed.
Lemma global_spec : forall s h R, holds h R ->
  wp (global s) (fun g h' => h' = h /\ forall kv, g = Some kv -> In (s, kv) (binds (aux h))) h.
Proof.
  intros s h R H. unfold wp, global, get_aux, hbind_, done. split; auto. intros kv E.
  destruct (assq_in _ _ _ E) as [k [I M]]. apply sym_match_eq in M. subst. auto.
Qed.
Lemma global_alive : forall h R kv, holds h R -> In kv (map snd (binds (aux h))) -> alive h kv.
Proof.
  intros h R kv H I. eapply own_alive; [apply (holds_own _ _ H)|]. apply in_or_app. right. apply in_or_app. auto.
Qed.

Ltac heldp := let b := fresh in intro b; unfold held_by_lisp;
  cbn [with_binds with_ichan with_ochan with_opens with_outs with_caches with_lost with_strays binds ichan ochan lost map snd app cnt];
  rewrite ?cnt_app; cbn [cnt app]; rewrite ?cnt_app; lia.

Section Allowed.
Variable allowed : event -> bool.
Hypothesis NoAny : allowed AssignsAny = false.
Notation step := (step allowed).

Lemma bar_any_spec : forall s h, wp (bar_any allowed s) (fun _ h' => h' = h /\ is_any s = false) h.
Proof.
  intros s h. unfold bar_any, bar, is_any. destruct (sym_match s (sy "ANY")); [rewrite NoAny; exact I|]. apply wp_done. auto.
Qed.
Lemma bar_spec : forall e h, wp (bar allowed e) (fun _ h' => h' = h /\ allowed e = true) h.
Proof. intros e h. unfold bar. destruct (allowed e); [apply wp_done; auto|exact I]. Qed.

Lemma CDR_run : forall h a c x y, cells h a = Some c -> body c = KPair x y -> CDR a h = Done y h.
Proof. intros h a c x y E B. unfold CDR, rd, hbind_. rewrite E, B. auto. Qed.
Lemma set_cdr_run : forall h a c x y z, cells h a = Some c -> body c = KPair x y ->
  set_cdr a z h = Done tt (set_cell h a (Some (with_body c (KPair x z)))).
Proof. intros h a c x y z E B. unfold set_cdr, rd, wr, hbind_. rewrite E, B, E. auto. Qed.

Lemma swap_spec : forall data kv s h R, holds h R -> named_pair h s data -> named_pair h s kv -> is_any s = false ->
  wp (swap_values data kv) (fun _ h' => holds h' R /\ step h h') h.
Proof.
  intros data kv s h R H [c [k [v [ck [Ec [Bc [Ek Bk]]]]]]] [d [m [w [dm [Ed [Bd [Em Bm]]]]]]] NA.
  pose proof (holds_own _ _ H) as O.
  unfold wp, swap_values, hbind_. rewrite (CDR_run _ _ _ _ _ Ed Bd), (CDR_run _ _ _ _ _ Ec Bc), (set_cdr_run _ _ _ _ _ w Ec Bc).
  set (c' := with_body c (KPair k w)). set (h1 := set_cell h data (Some c')).
  assert (Wc : weak c = false) by (apply (proj2 O _ _ Ec)). assert (Wd : weak d = false) by (apply (proj2 O _ _ Ed)).
  assert (Pc : 0 < refs c) by (apply (counted _ _ (proj1 O) _ _ Ec)).
  assert (Pd : 0 < refs d) by (apply (counted _ _ (proj1 O) _ _ Ed)).
  set (A := R ++ held_by_lisp (aux h)) in *.
  destruct (N.eq_dec kv data) as [->|NE].
  - rewrite Ec in Ed. injection Ed as <-. rewrite Bc in Bd. injection Bd as <- <-.
    rewrite (set_cdr_run h1 data c' k v v); [|unfold h1; apply set_same|auto].
    set (h2 := set_cell _ _ _).
    assert (EX : forall a, cells h2 a = cells h a).
    { intro a. unfold h2, h1. destruct (N.eq_dec a data) as [->|X].
      - rewrite set_same, Ec. unfold c', with_body. cbn. rewrite <- Bc. destruct c; auto.
      - rewrite !set_other; auto. }
    assert (O2 : own h2 A) by (apply (own_ext h); auto).
    assert (S2 : step0 h h2).
    { constructor; eauto; [unfold h2, h1; cbn; lia|intros a _; rewrite EX; auto|]. intros a q q' E E'. rewrite EX in E'. left. congruence. }
    split; [eapply holds_keep; eauto|]. split; auto. apply later_eq. auto.
  - assert (E1 : cells h1 kv = Some d) by (unfold h1; rewrite set_other; auto).
    rewrite (set_cdr_run _ _ _ _ _ v E1 Bd). set (d' := with_body d (KPair m v)). set (h2 := set_cell h1 kv (Some d')).
    assert (O2 : own h2 A).
    { set (ha := set_cell h data (Some (with_body c KNil))).
      assert (Oa : own ha (k :: v :: A)).
      { apply (own_set h data c _ A _ O Ec); auto. intro b. unfold fields. cbn. rewrite Bc, Wc. cbn. lia. }
      assert (Ea : cells ha kv = Some d) by (unfold ha; rewrite set_other; auto).
      set (hb := set_cell ha kv (Some (with_body d KNil))).
      assert (Ob : own hb (m :: w :: k :: v :: A)).
      { apply (own_set ha kv d _ _ _ Oa Ea); auto. intro b. unfold fields. cbn. rewrite Bd, Wd. cbn. lia. }
      assert (Eb : cells hb data = Some (with_body c KNil)).
      { unfold hb. rewrite set_other by auto. unfold ha. rewrite set_same. auto. }
      set (hc := set_cell hb data (Some c')).
      assert (Oc : own hc (m :: v :: A)).
      { apply (own_set hb data _ c' _ _ Ob Eb); auto. intro b. unfold fields. cbn. rewrite Wc. cbn. lia. }
      assert (Ecc : cells hc kv = Some (with_body d KNil)).
      { unfold hc. rewrite set_other by auto. unfold hb. rewrite set_same. auto. }
      assert (Od : own (set_cell hc kv (Some d')) A).
      { apply (own_set hc kv _ d' _ _ Oc Ecc); auto. intro b. unfold fields. cbn. rewrite Wd. cbn. lia. }
      apply (own_ext _ _ _ Od); auto. intro a. unfold h2, h1, hc, hb, ha.
      destruct (N.eq_dec a kv) as [->|X1]; [rewrite !set_same; auto|]. rewrite !(set_other _ kv) by auto.
      destruct (N.eq_dec a data) as [->|X2]; [rewrite !set_same; auto|]. rewrite !set_other; auto. }
    assert (S2 : step0 h h2).
    { constructor; eauto; [unfold h2, h1; cbn; lia| |].
      - intros a _ E. unfold h2, h1. rewrite !set_other; auto; congruence.
      - intros a q q' E E'. unfold h2, h1 in E'. destruct (N.eq_dec a kv) as [->|X1].
        + rewrite set_same in E'. injection E' as <-. rewrite Ed in E. injection E as <-.
          right. exists m, w, v. split; auto. split; auto. right. eauto.
        + rewrite (set_other _ kv) in E' by auto. destruct (N.eq_dec a data) as [->|X2].
          * rewrite set_same in E'. injection E' as <-. rewrite Ec in E. injection E as <-.
            right. exists k, v, w. split; auto. split; auto. right. eauto.
          * rewrite set_other in E' by auto. left. congruence. }
    split; [eapply holds_keep; eauto|]. split; auto. apply later_eq. auto.
Qed.

Lemma setq_spec : forall pair h R, holds h (pair :: R) ->
  wp (hsetq allowed pair) (fun _ h' => holds h' R /\ step h h') h.
Proof.
  intros pair h R H. assert (A : alive h pair) by (eapply holds_alive; [exact H|apply in_eq]).
  assert (DX : wp (X pair) (fun _ h' => holds h' R /\ step h h') h).
  { apply wp_tail. apply (hs_X allowed _ _ _ _ _ H). intros h' H' S'. apply wp_done. auto. }
  apply hs_test; auto. intros c E. destruct (is_pair_c c); cbn [negb]; auto.
  apply hs_CAR; auto. intros c0 k v E0 B0. destruct (own_pair _ _ _ _ _ _ (holds_own _ _ H) E0 B0) as [Ak _].
  apply hs_test; auto. intros ck Ek. destruct (is_sym_c ck); cbn [negb]; auto.
  apply hs_symbol; auto. intros ck' s Ek' Bk.
  assert (NP : named_pair h s pair) by (exists c0, k, v, ck'; auto).
  apply wp_bind. eapply wp_mono; [apply bar_any_spec|]. intros _ h' [-> NA].
  apply wp_bind. eapply wp_mono; [apply (global_spec s h _ H)|]. intros g h' [-> G]. destruct g as [data|].
  - specialize (G data eq_refl). apply wp_bind. eapply wp_mono; [apply (swap_spec data pair s h _ H); auto|].
    { exact (h_globals _ _ H _ _ G). }
    intros _ h1 [H1 S1]. apply wp_tail. apply (hs_X allowed _ _ _ _ _ H1). intros h2 H2 S2. apply wp_done.
    split; auto. eapply step_trans; eauto.
  - unfold wp, set_aux. split.
    + apply (aux_holds h (pair :: R)); auto; cbn.
      * heldp.
      * intros s' kv [J|J]; auto. injection J as <- <-. auto.
      * intros a e J. right. eapply h_caches; eauto.
      * apply H.
    + split; [eapply aux_step0; apply (holds_own _ _ H)|]. constructor; cbn; auto; [|lia]. apply incl_tl, incl_refl.
Qed.

Lemma lookup_spec : forall n c x h R, holds h R -> alive h c -> alive h x ->
  wp (hlookup n c x) (fun r h' => holds h' (r :: R) /\ step h h') h.
Proof.
  intros n c x h R H Ac Ax. pose proof (holds_own _ _ H) as O.
  assert (FIN : forall kv, alive h kv -> wp (v <- CDR kv ;; up v) (fun r h' => holds h' (r :: R) /\ step h h') h).
  { intros kv A. apply hs_CDR; auto. intros c1 k v E B. destruct (own_pair _ _ _ _ _ _ O E B) as [_ Av].
    apply wp_tail. apply (hs_up allowed _ _ _ _ _ H Av). intros h' H' S' Ad. apply wp_done. auto. }
  apply hs_symbol; auto. intros cx s Ex Bx.
  apply wp_bind. eapply wp_mono; [apply (find_local_spec h _ O n c s Ac)|]. intros l h' [-> L].
  destruct l as [kv|].
  { destruct L as [c1 [k [v [ck [E1 _]]]]]. apply FIN. unfold alive. congruence. }
  apply wp_bind. unfold wp at 1, cached, get_aux, hbind_ at 1, done at 1.
  destruct (assq (N.eqb x) (caches (aux h))) as [e|] eqn:Q.
  { destruct (assq_in _ _ _ Q) as [a [I _]]. apply FIN. eapply global_alive; eauto. eapply h_caches; eauto. }
  apply wp_bind. eapply wp_mono; [apply (global_spec s h _ H)|]. intros g h' [-> G]. destruct g as [kv|].
  - specialize (G kv eq_refl). assert (Ag : alive h kv).
    { eapply global_alive; eauto. apply in_map_iff. exists (s, kv). auto. }
    apply (hs_up allowed _ _ _ _ _ H Ag). intros h1 H1 S1 A1.
    apply (hs_cdr allowed _ _ _ _ _ H1); [eapply holds_alive; [exact H1|apply in_eq]|]. intros r h2 H2 S2 A2 _.
    assert (B2 : binds (aux h2) = binds (aux h)) by (rewrite (a_aux _ _ A2), (a_aux _ _ A1); auto).
    apply wp_bind. unfold wp at 1, remember, set_aux. set (h3 := mkheap _ _ _).
    assert (H3 : holds h3 (kv :: r :: R)).
    { apply (aux_holds h2 (r :: kv :: R)); auto; cbn [with_caches binds caches opens ichan ochan]; auto.
      - heldp.
      - intros a e [J|J]; [|eapply h_caches; eauto]. injection J as <- <-. rewrite B2. apply in_map_iff. exists (s, kv). auto.
      - apply H2. }
    assert (S3 : step h2 h3).
    { split; [eapply aux_step0; apply (holds_own _ _ H2)|]. constructor; cbn; auto; [apply incl_refl|lia]. }
    apply wp_bind. assert (OX : own h3 (kv :: (r :: R) ++ held_by_lisp (aux h3))) by (apply (holds_own _ _ H3)).
    assert (A3' : cells h3 = cells h2) by auto.
    apply (wp_X _ _ _ _ OX). intros h4 O4 S4. apply wp_done.
    assert (ST4 : step h3 h4) by (eapply shrinks_step; eauto).
    assert (H4 : holds h4 (r :: R)).
    { apply (holds_keep h3 _ _ (r :: R) H3 (proj1 ST4)); [apply S4|exact O4]. }
    split; auto. eauto using step_trans.
  - apply (hs_nil allowed _ _ _ _ H). intros z h1 H1 S1 A1 G1.
    apply (hs_cdr allowed _ _ _ _ _ H1); [eapply holds_alive; [exact H1|apply in_eq]|]. intros r h2 H2 S2 A2 _.
    apply (hs_X allowed z _ _ _ (r :: R)); [rehold|]. intros h3 H3 S3. apply wp_done.
    split; auto. eauto using step_trans.
Qed.

Lemma set_local_spec : forall kv s val c k old h R, holds h (val :: R) -> named_pair h s kv -> is_any s = false ->
  cells h kv = Some c -> body c = KPair k old ->
  wp (set_cdr kv val) (fun _ h' => holds h' (old :: R) /\ step h h') h.
Proof.
  intros kv s val c k old h R H [d [m [w [dm [Ed [Bd [Em Bm]]]]]]] NA E B.
  rewrite E in Ed. injection Ed as <-. rewrite B in Bd. injection Bd as <- <-.
  pose proof (holds_own _ _ H) as O. unfold wp. rewrite (set_cdr_run _ _ _ _ _ val E B).
  assert (W : weak c = false) by (apply (proj2 O _ _ E)).
  assert (O' : own (set_cell h kv (Some (with_body c (KPair k val)))) ((old :: R) ++ held_by_lisp (aux h))).
  { apply (own_set h kv c _ _ _ O E); auto; [apply (counted _ _ (proj1 O) _ _ E)|].
    intro b. unfold fields. cbn [with_body body weak refs]. rewrite B, W. cbn [cnt app]. lia. }
  assert (S : step0 h (set_cell h kv (Some (with_body c (KPair k val))))).
  { constructor; eauto; [cbn; lia| |].
    - intros a _ Ea. rewrite set_other; auto; congruence.
    - intros a q q' Eq Eq'. destruct (N.eq_dec a kv) as [->|X1].
      + rewrite set_same in Eq'. injection Eq' as <-. rewrite E in Eq. injection Eq as <-.
        right. exists k, old, val. split; auto. split; auto. right. eauto.
      + rewrite set_other in Eq' by auto. left. congruence. }
  split; [eapply holds_keep; eauto|]. split; auto. apply later_eq. auto.
Qed.

Lemma forget_spec : forall a h R, holds h (a :: R) -> allowed UsesSet = true \/ allowed DefinesNonSymbol = true ->
  wp (forget a) (fun _ h' => holds h' R /\ step h h') h.
Proof.
  intros a h R H AL. unfold wp, forget, set_aux. split.
  - apply (aux_holds h (a :: R)); auto; cbn [with_lost binds caches opens ichan ochan]; auto; [heldp|apply H|apply H].
  - split; [eapply aux_step0; apply (holds_own _ _ H)|]. constructor; cbn; auto; [apply incl_refl|lia|].
    intros U D. destruct AL; congruence.
Qed.

(** Making NIL and dropping it. *)
Lemma nil_drop : forall {B} (k : unit -> HM B) Q h R, holds h R ->
  (forall h', holds h' R -> step h h' -> (forall a c, cells h a = Some c -> cells h' a = Some c) -> wp (k tt) Q h') ->
  wp (z <- make_nil ;; hbind_ (X z) k) Q h.
Proof.
  intros B k Q h R H K. apply (hs_nil allowed _ _ _ _ H). intros z h1 H1 S1 A1 G1.
  pose proof (holds_own _ _ H1) as O1. destruct (X_leaf h1 z _ _ O1 (g_new _ _ _ _ G1) eq_refl) as [h2 [D [N2 [A2 C2]]]].
  assert (W : wp (X z) (fun _ h' => h' = h2 /\ holds h' R /\ step h1 h') h1).
  { unfold wp. rewrite D. split; auto.
    assert (W : wp (X z) (fun _ h' => holds h' R /\ step h1 h') h1).
    { apply wp_tail. apply (hs_X allowed _ _ _ _ _ H1). intros h' H' S'. apply wp_done. auto. }
    unfold wp in W. rewrite D in W. auto. }
  apply wp_bind. eapply wp_mono; [exact W|]. intros [] h3 [-> [H2 S2]]. apply K; auto; [eauto using step_trans|].
  intros a c E. rewrite C2. assert (a <> z).
  { intro Y. subst a. assert (L : (z < nxt h)%N) by (eapply own_bounded; [apply (holds_own _ _ H)|unfold alive; congruence]).
    rewrite (g_addr _ _ _ _ G1) in L. lia. }
  destruct (N.eqb_spec a z); [congruence|]. rewrite (g_old _ _ _ _ G1); auto.
Qed.

Lemma abandon_spec : forall elt x y h R, holds h (elt :: R) -> cells h elt = Some (mkcell 1 false false (KPair x y)) ->
  allowed UsesSet = true \/ allowed DefinesNonSymbol = true ->
  wp (abandon elt) (fun _ h' => holds h' (x :: y :: R) /\ step h h') h.
Proof.
  intros elt x y h R H E AL. pose proof (holds_own _ _ H) as O.
  unfold abandon. unfold wp, hbind_, release, set_aux. rewrite E.
  set (h1 := set_cell h elt None).
  assert (O1 : own h1 ((x :: y :: R) ++ held_by_lisp (aux h))).
  { set (c0 := mkcell 1 false false KNil). set (ha := set_cell h elt (Some c0)).
    assert (Oa : own ha (elt :: (x :: y :: R) ++ held_by_lisp (aux h))).
    { apply (own_set h elt _ c0 _ _ O E); auto. intro b. unfold fields. cbn. lia. }
    assert (Ea : cells ha elt = Some c0) by (unfold ha; apply set_same).
    destruct (X_leaf ha elt c0 _ Oa Ea eq_refl) as [h2 [D [N2 [A2 C2]]]].
    assert (W : wp (X elt) (fun _ h' => own h' ((x :: y :: R) ++ held_by_lisp (aux h))) ha).
    { apply (wp_X _ _ _ _ Oa). auto. }
    unfold wp in W. rewrite D in W. apply (own_ext _ _ _ W); [unfold h1; cbn; rewrite N2; auto|].
    intro a. rewrite C2. unfold h1, ha. cbn. destruct (N.eqb a elt); auto. }
  assert (S1 : step0 h h1).
  { constructor; eauto; [unfold h1; cbn; lia| |].
    - intros a _ Ea. unfold h1. cbn. destruct (N.eqb a elt); auto.
    - intros a q q' Eq Eq'. unfold h1 in Eq'. cbn in Eq'. destruct (N.eqb a elt); [discriminate|]. left. congruence. }
  assert (H1 : holds h1 (x :: y :: R)) by (eapply holds_keep; eauto).
  set (h2 := mkheap _ _ _).
  assert (H2 : holds h2 (x :: y :: R)).
  { apply (aux_holds h1 (x :: y :: R)); auto; try apply H1. }
  split; auto. split.
  - eapply step0_trans; [exact S1|]. eapply aux_step0; apply (holds_own _ _ H1).
  - constructor; cbn; auto; [apply incl_refl|lia|]. intros U D. destruct AL; congruence.
Qed.

(** ** Channels *)
Lemma emit_spec : forall b h R, holds h R -> wp (hemit b) (fun _ h' => holds h' R /\ step h h') h.
Proof.
  intros b h R H. pose proof (holds_own _ _ H) as O. apply wp_bind. unfold wp at 1, get_aux.
  assert (A : alive h (ochan (aux h))).
  { eapply own_alive; [exact O|]. apply in_or_app. right. apply in_or_app. right. cbn. auto. }
  apply hs_CAR; auto. intros c x y E B. destruct (own_pair _ _ _ _ _ _ O E B) as [Ax _].
  apply hs_CAR; auto. intros c1 k y1 E1 B1. destruct (own_pair _ _ _ _ _ _ O E1 B1) as [Ak _].
  apply hs_pure; [eapply pure_number; eauto|]. intro z. unfold wp, set_aux. split.
  - apply (aux_holds h R); auto; try apply H.
  - split; [eapply aux_step0; eauto|]. constructor; cbn; auto; [apply incl_refl|lia].
Qed.
Lemma print_spec : forall n a lit h R, holds h R -> alive h a ->
  wp (hprint n a lit) (fun _ h' => holds h' R /\ step h h') h.
Proof.
  intros n a lit h R H A. apply hs_pure; [eapply pure_value; [apply (holds_own _ _ H)|auto]|]. intro v.
  destruct (lisp_prin _ _ _ _); [apply emit_spec; auto|apply wp_wild].
Qed.

Lemma holds_from : forall h h' R R', holds h R -> step0 h h' -> own h' (R' ++ held_by_lisp (aux h')) ->
  binds (aux h') = binds (aux h) -> caches (aux h') = caches (aux h) ->
  (opens (aux h') <> 0%N -> forall a, a = ichan (aux h') \/ a = ochan (aux h') -> exists c, cells h' a = Some c /\ is_pair_c c = true) ->
  holds h' R'.
Proof.
  intros h h' R R' H ST O' EB EC Z. constructor; try apply O'; auto.
  - rewrite EB. intros s kv I. destruct (h_globals _ _ H _ _ I) as [c [k [v [ck [Ec [Bc [Ek Bk]]]]]]].
    assert (Al : alive h' kv).
    { eapply own_alive; [exact O'|]. apply in_or_app. right. unfold held_by_lisp. apply in_or_app. left.
      apply in_map_iff. exists (s, kv). rewrite EB. auto. }
    unfold alive in Al. destruct (cells h' kv) as [c'|] eqn:E'; [|congruence].
    assert (B' : exists v', body c' = KPair k v').
    { destruct (s_body _ _ ST _ _ _ Ec E') as [T|[x [y [y' [T1 [T2 _]]]]]]; [eexists; rewrite T; eauto|].
      rewrite Bc in T1. injection T1 as <- <-. eauto. }
    destruct B' as [v' B']. destruct (own_pair _ _ _ _ _ _ O' E' B') as [Ak _].
    unfold alive in Ak. destruct (cells h' k) as [ck'|] eqn:Ek'; [|congruence].
    exists c', k, v', ck'. split; auto. split; auto. split; auto.
    destruct (s_body _ _ ST _ _ _ Ek Ek') as [T|[x [y [y' [T1 [T2 _]]]]]]; congruence.
  - rewrite EB, EC. apply H.
Qed.
Definition chan (output : bool) (r : rest) : N := if output then ochan r else ichan r.
Definition with_chan (output : bool) (r : rest) (a : N) : rest := if output then with_ochan r a else with_ichan r a.
Definition a_pair (h : heap) (a : N) : Prop := exists c, cells h a = Some c /\ is_pair_c c = true.
Lemma a_pair_step : forall h h' a, step0 h h' -> alive h' a -> a_pair h a -> a_pair h' a.
Proof.
  intros h h' a S A [c [E P]]. unfold alive in A. destruct (cells h' a) as [c'|] eqn:E'; [|congruence]. exists c'. split; auto.
  unfold is_pair_c in *. destruct (s_body _ _ S _ _ _ E E') as [T|[x [y [y' [T1 [T2 _]]]]]]; [rewrite T; auto|rewrite T2; auto].
Qed.
Lemma chan_alive : forall output h R, holds h R -> alive h (chan output (aux h)).
Proof.
  intros output h R H. eapply own_alive; [apply (holds_own _ _ H)|]. apply in_or_app. right. apply in_or_app. right.
  destruct output; cbn; auto.
Qed.
Lemma push_spec : forall output k dir h R, holds h R ->
  wp (hpush output k dir) (fun _ h' => holds h' R /\ step0 h h' /\ exists e c y,
    aux h' = with_chan output (aux h) e /\ cells h' e = Some c /\ body c = KPair y (chan output (aux h)) /\ a_pair h' y /\ (forall a, alive h a -> alive h' a)) h.
Proof.
  intros output k dir h R H.
  apply (hs_plant allowed _ _ _ _ _ H). intros p h1 H1 S1 A1.
  apply (hs_nil allowed _ _ _ _ H1). intros z h2 H2 S2 A2 _.
  apply (hs_cons allowed p z _ _ _ R); [rehold|]. intros x h3 H3 S3 A3 _.
  apply (hs_alloc allowed _ _ _ _ (x :: R)); auto. intros n h4 H4 S4 A4 _.
  apply (hs_cons allowed n x _ _ _ R); auto. intros y h5 H5 S5 A5 G5.
  assert (EA : aux h5 = aux h) by (rewrite (a_aux _ _ A5), (a_aux _ _ A4), (a_aux _ _ A3), (a_aux _ _ A2), (a_aux _ _ A1); auto).
  assert (S : step h h5) by eauto using step_trans.
  apply wp_bind. unfold wp at 1, get_aux. rewrite EA. pose proof (holds_own _ _ H5) as O5. rewrite EA in O5.
  fold (chan output (aux h)).
  set (rst := map snd (binds (aux h)) ++ [if output then ichan (aux h) else ochan (aux h)] ++ lost (aux h)).
  apply wp_bind. apply (wp_cons y (chan output (aux h)) _ h5 (R ++ rst)).
  { apply (own_perm _ _ _ O5). intro b. unfold held_by_lisp, rst, chan. destruct output; cbn [cnt app]; rewrite !cnt_app; cbn [cnt app]; lia. }
  intros e h6 O6 G6. assert (A6 : adds h5 h6) by (eapply grown_adds; eauto).
  assert (EA6 : aux h6 = aux h) by (rewrite (a_aux _ _ A6); auto).
  unfold wp, set_aux. rewrite EA6. set (h7 := mkheap _ _ _).
  assert (EA7 : aux h7 = with_chan output (aux h) e) by (unfold h7, with_chan; cbn; destruct output; auto).
  assert (O7 : own h7 (R ++ held_by_lisp (aux h7))).
  { rewrite EA7. apply (own_ext h6); auto. apply (own_perm _ _ _ O6). intro b. unfold with_chan, rst. destruct output; unfold held_by_lisp; cbn [cnt app with_ochan with_ichan binds ichan ochan lost]; rewrite !cnt_app; cbn [cnt app]; lia. }
  assert (S7 : step0 h h7).
  { eapply step0_trans; [apply (proj1 S)|]. eapply step0_trans; [eapply frozen_step0; [exact O5|exact O6|apply adds_frozen; auto]|].
    eapply aux_step0; eauto. }
  assert (E7 : cells h7 e = Some (mkcell 1 false false (KPair y (chan output (aux h))))) by apply (g_new _ _ _ _ G6).
  split; [|split; auto].
  - apply (holds_from h h7 R R H S7 O7); rewrite EA7; try (destruct output; reflexivity).
    intros Z a Ia. assert (Z0 : opens (aux h) <> 0%N) by (destruct output; auto).
    assert (CP : a = e \/ (a = chan (negb output) (aux h))) by (destruct output; cbn in *; tauto).
    destruct CP as [->| ->].
    + eexists. split; [exact E7|auto].
    + apply (a_pair_step h h7); auto.
      * eapply own_alive; [exact O7|]. apply in_or_app. right. rewrite EA7. apply in_or_app. right. destruct output; cbn; auto.
      * apply (h_chans _ _ H Z0). destruct output; cbn; auto.
  - exists e, (mkcell 1 false false (KPair y (chan output (aux h)))), y. split; auto. split; auto. split; auto.
    assert (Ey : a_pair h5 y) by (eexists; split; [apply (g_new _ _ _ _ G5)|auto]).
    split.
    2:{ intros a A. unfold h7, alive. cbn. do 6 (eapply adds_alive; [eassumption|]). auto. }
    destruct Ey as [cy [Ey Py]]. destruct (adds_body _ _ _ _ A6 Ey) as [cy' [Ey' By]]. exists cy'. split; auto.
    unfold is_pair_c in *. rewrite By. auto.
Qed.
Lemma pop_spec : forall output h R c y d, holds h R -> cells h (chan output (aux h)) = Some c -> body c = KPair y d ->
  a_pair h d ->
  wp (hpop output) (fun _ h' => holds h' R /\ step0 h h' /\ aux h' = with_chan output (aux h) d) h.
Proof.
  intros output h R c y d H E B P. apply wp_bind. unfold wp at 1, get_aux.
  fold (chan output (aux h)). apply hs_CDR; [unfold alive; congruence|]. intros c' y' d' E' B'.
  rewrite E in E'. injection E' as <-. rewrite B in B'. injection B' as <- <-.
  assert (Ad : alive h d) by (destruct P as [cd [Ed _]]; unfold alive; congruence).
  apply (hs_up allowed _ _ _ _ _ H Ad). intros h1 H1 S1 A1.
  apply wp_bind. unfold wp at 1, set_aux. set (h2 := mkheap _ _ _).
  assert (EA : aux h1 = aux h) by apply A1.
  assert (E2 : aux h2 = with_chan output (aux h) d) by (unfold h2, with_chan; cbn; rewrite EA; destruct output; auto).
  pose proof (holds_own _ _ H1) as O1. rewrite EA in O1.
  assert (O2 : own h2 ((chan output (aux h) :: R) ++ held_by_lisp (aux h2))).
  { rewrite E2. apply (own_ext h1); auto. apply (own_perm _ _ _ O1). intro b. unfold with_chan, chan. destruct output; unfold held_by_lisp; cbn [cnt app with_ochan with_ichan binds ichan ochan lost]; rewrite !cnt_app; cbn [cnt app]; lia. }
  assert (S2 : step0 h1 h2) by (eapply aux_step0; eauto).
  assert (H2 : holds h2 (chan output (aux h) :: R)).
  { apply (holds_from h1 h2 _ _ H1 S2 O2); rewrite E2, ?EA; try (destruct output; reflexivity).
    intros Z a Ia. assert (Z0 : opens (aux h1) <> 0%N) by (rewrite EA; destruct output; auto).
    assert (CP : a = d \/ (a = chan (negb output) (aux h))) by (destruct output; cbn in *; tauto).
    destruct CP as [->| ->].
    + apply (a_pair_step h h1); auto; [apply S1|]. eapply holds_alive; [exact H1|apply in_eq].
    + apply (h_chans _ _ H1 Z0). rewrite EA. destruct output; cbn; auto. }
  apply (wp_X _ _ _ _ O2). intros h3 O3 S3.
  assert (ST3 : step h2 h3) by (eapply shrinks_step; eauto).
  assert (E3 : aux h3 = aux h2) by apply S3.
  split; [apply (holds_keep h2 _ _ R H2 (proj1 ST3) E3); exact O3|].
  split; [eapply step0_trans; [apply S1|]; eapply step0_trans; [exact S2|apply ST3]|congruence].
Qed.
End Allowed.
