(** * HReadChan: the channel keeps the expressions read, in order and counted. *)
From Verif Require Import Value Heap HeapSpec HeapProofs HeapOps HEval HEvalSpec HEvalBase HEvalProofs HEvalRun HSimList HRead.
Open Scope nat_scope.
Open Scope heap_scope.

(** The list at [q] has the elements [l]. *)
Inductive queue (h : heap) : N -> list N -> Prop :=
| queue_nil : forall q c, cells h q = Some c -> body c = KNil -> queue h q []
| queue_cons : forall q c x y l, cells h q = Some c -> body c = KPair x y -> queue h y l -> queue h q (x :: l).
(** The current input channel is (HANDLE PWD . l). *)
Record waiting (h : heap) (l : list N) : Prop := mkwaiting {
  w_chan : exists c0 c1 chn r hd q pw, cells h (ichan (aux h)) = Some c0 /\ body c0 = KPair chn r /\
    cells h chn = Some c1 /\ body c1 = KPair hd q /\ queue h q (pw :: l)
}.

Lemma queue_cell : forall h q x l, queue h q (x :: l) -> exists c y, cells h q = Some c /\ body c = KPair x y /\ queue h y l.
Proof. intros h q x l H. inversion H; subst. eauto. Qed.

(** The end of a list some pair refers to is replaced. *)
Lemma conc_field : forall n a b h R c0, own h (b :: R) -> cells h a = Some c0 -> is_pair_c c0 = true ->
  wp (hconc n a b) (fun r h' => r = a /\ own h' R /\ exists p x, relinked h h' a b p x) h.
Proof.
  intros n a b h R c0 O E0 P0. unfold hconc.
  apply wp_bind. apply (wp_rd' _ c0); auto. rewrite P0.
  assert (Aa : alive h a) by (unfold alive; congruence).
  apply wp_bind. eapply wp_mono; [apply (last_pair_spec n a h _ O Aa)|].
  intros p h0 [-> [SP [c [x [y [cy [E [B [Ey Py]]]]]]]]].
  apply wp_bind. apply wp_CDR; [unfold alive; congruence|]. intros c1 x1 y1 E1 B1. rewrite E in E1. injection E1 as <-.
  rewrite B in B1. injection B1 as <- <-.
  assert (Yp : p <> y). { intro Q. subst y. rewrite E in Ey. injection Ey as <-. unfold is_pair_c in Py. rewrite B in Py. discriminate. }
  assert (W : weak c = false) by (apply (proj2 O _ _ E)).
  set (h1 := set_cell h p (Some (with_body c (KPair x b)))).
  assert (O1 : own h1 (y :: R)).
  { eapply own_set; eauto; [apply (counted _ _ (proj1 O) _ _ E)|]. intro q. unfold fields. cbn [body with_body weak refs]. rewrite B, W. cbn [cnt]. lia. }
  assert (E1y : cells h1 y = Some cy) by (unfold h1; rewrite set_other; auto).
  destruct (X_leaf h1 y cy _ O1 E1y Py) as [h2 [D2 [Nx2 [Au2 C2]]]].
  assert (O2 : own h2 R).
  { destruct (X_spec h1 y R (proj1 O1)) as [h2' [D2' [C2' Sh]]]. rewrite D2 in D2'. injection D2' as <-. split; auto.
    intros q cq Eq. destruct Sh as [_ [_ Sh]]. destruct (Sh _ _ Eq) as [c' [E' T]]. apply stored_eq in T. destruct T as [_ [_ ->]].
    apply (proj2 O1 _ _ E'). }
  destruct (X_leaf h y cy _ O Ey Py) as [h3 [D3 [Nx3 [Au3 C3]]]].
  apply wp_bind. unfold wp at 1. rewrite D3.
  assert (E3 : cells h3 p = Some c). { rewrite C3. apply N.eqb_neq in Yp. rewrite Yp. auto. }
  apply wp_bind. apply (wp_rd' _ c); auto. rewrite B. apply wp_bind. apply wp_wr; [unfold alive; congruence|]. apply wp_done.
  set (h4 := set_cell h3 p (Some (with_body c (KPair x b)))).
  assert (C4 : forall q, cells h4 q = cells h2 q).
  { intro q. unfold h4. rewrite C2. destruct (N.eq_dec q p) as [Q|Q].
    - subst q. rewrite set_same. assert (T := Yp). apply N.eqb_neq in T. rewrite T. unfold h1. rewrite set_same. auto.
    - rewrite set_other by auto. rewrite C3. unfold h1. rewrite set_other by auto. auto. }
  assert (O4 : own h4 R).
  { apply (own_ext h2); auto. rewrite Nx2. unfold h4. cbn. rewrite Nx3. auto. }
  split; [reflexivity|]. split; [exact O4|]. exists p, x. constructor; auto.
  - exists c, y, cy. repeat (split; auto). exists (with_body c (KPair x b)). unfold h4. rewrite set_same. auto.
  - intros q cq cq' Q Eq Eq'. unfold h4 in Eq'. rewrite set_other in Eq' by auto. rewrite C3 in Eq'.
    destruct (N.eqb_spec q y) as [Z|Z]; [|congruence]. subst q. rewrite Ey in Eq. injection Eq as <-.
    unfold dropped in Eq'. destruct (refs cy) as [|[|r]]; try discriminate. injection Eq' as <-. auto.
  - intros q Eq. assert (q <> p) by congruence. unfold h4. rewrite set_other by auto. rewrite C3. destruct (N.eqb_spec q y); auto. congruence.
Qed.
Lemma relinked_step0 : forall h h' a b p x R R', own h R -> own h' R' -> relinked h h' a b p x -> step0 h h'.
Proof.
  intros h h' a b p x R R' O O' K. constructor; eauto; [rewrite (k_nxt _ _ _ _ _ _ K); lia| |].
  - intros q _ E. eapply k_dead; eauto.
  - intros q c c' E E'. destruct (N.eq_dec q p) as [->|Q].
    + destruct (k_last _ _ _ _ _ _ K) as [c1 [y [cy [E1 [B1 [Ey [Py [c2 [E2 [B2 _]]]]]]]]]].
      rewrite E in E1. injection E1 as <-. rewrite E' in E2. injection E2 as <-. right. exists x, y, b. split; [auto|]. split; [auto|]. left. eauto.
    + left. pose proof (k_same _ _ _ _ _ _ K _ _ _ Q E E') as T. apply stored_eq in T. tauto.
Qed.

(** A list keeps its elements when nothing it consists of changes. *)
Lemma queue_same : forall h h' R q l, own h' R -> queue h q l -> alive h' q ->
  (forall a c c', cells h a = Some c -> cells h' a = Some c' -> body c' = body c) -> queue h' q l.
Proof.
  intros h h' R q l O H A S. induction H as [q c E B|q c x y l E B H IH].
  - unfold alive in A. destruct (cells h' q) as [c'|] eqn:E'; [|congruence]. eapply queue_nil; [exact E'|]. rewrite (S _ _ _ E E'). exact B.
  - unfold alive in A. destruct (cells h' q) as [c'|] eqn:E'; [|congruence].
    assert (B' : body c' = KPair x y) by (rewrite (S _ _ _ E E'); exact B).
    eapply queue_cons; [exact E'|exact B'|]. apply IH. apply (own_pair _ _ _ _ _ _ O E' B').
Qed.
(** The list grows at its end. *)
Lemma queue_grown : forall h h' R a b p x l l', own h' R -> relinked h h' a b p x ->
  forall q, queue h q l -> on_spine h q p -> alive h' q -> queue h' b l' -> queue h' q (l ++ l').
Proof.
  intros h h' R a b p x l l' O K q H. induction H as [q c E B|q c u y l E B H IH]; intros SP A QB.
  - exfalso. inversion SP; subst; congruence.
  - unfold alive in A. destruct (cells h' q) as [c'|] eqn:E'; [|congruence].
    destruct (k_last _ _ _ _ _ _ K) as [c1 [y1 [cy [E1 [B1 [Ey [Py [c2 [E2 [B2 _]]]]]]]]]].
    destruct (N.eq_dec q p) as [->|Q].
    + rewrite E in E1. injection E1 as <-. rewrite B in B1. injection B1 as <- <-. rewrite E' in E2. injection E2 as <-.
      inversion H as [? cz Ez Bz|? cz ? ? ? Ez Bz]; subst.
      * cbn [app]. eapply queue_cons; eauto.
      * exfalso. rewrite Ey in Ez. injection Ez as <-. unfold is_pair_c in Py. rewrite Bz in Py. discriminate.
    + pose proof (k_same _ _ _ _ _ _ K _ _ _ Q E E') as T. apply stored_eq in T. destruct T as [T _]. rewrite B in T.
      cbn [app]. eapply queue_cons; [exact E'|exact T|]. apply IH; auto.
      * inversion SP as [? ? ? ? E3 B3|? ? ? ? ? E3 B3 S3]; subst; [congruence|]. rewrite E in E3. injection E3 as <-. rewrite B in B3. injection B3 as <- <-. exact S3.
      * apply (own_pair _ _ _ _ _ _ O E' T).
Qed.

Lemma queue_spine : forall h h' q l p, queue h q l ->
  (forall a c c', cells h a = Some c -> cells h' a = Some c' -> body c' = body c) -> on_spine h' q p -> alive h p.
Proof.
  intros h h' q l p H S SP. induction H as [q c E B|q c x y l E B H IH].
  - unfold alive. inversion SP as [? c' ? ? E' B'|? c' ? ? ? E' B' _]; subst; pose proof (S _ _ _ E E'); congruence.
  - inversion SP as [? c' ? ? E' B'|? c' ? ? ? E' B' SP']; subst; [unfold alive; congruence|].
    pose proof (S _ _ _ E E') as T. rewrite B, B' in T. injection T as <- <-. auto.
Qed.

Section Chan.
Variable allowed : event -> bool.

Lemma consumer_ok : forall n cell l h R, holds h (cell :: R) -> waiting h l ->
  wp (hconsumer n cell) (fun _ h' => holds h' R /\ waiting h' (l ++ [cell]) /\ step allowed h h') h.
Proof.
  intros n cell l h R H [[c0 [c1 [chn [r [hd [q [pw [E0 [B0 [E1 [B1 Q]]]]]]]]]]]]. unfold hconsumer.
  apply wp_bind. unfold wp at 1, get_aux.
  apply wp_bind. eapply (wp_CAR _ _ h); [unfold alive; congruence|]. intros c x y E B. rewrite E0 in E. injection E as <-. rewrite B0 in B. injection B as <- <-.
  apply wp_bind. eapply (wp_CDR _ _ h); [unfold alive; congruence|]. intros c x y E B. rewrite E1 in E. injection E as <-. rewrite B1 in B. injection B as <- <-.
  unfold happend. apply wp_assoc. apply (hs_nil allowed _ _ _ _ H). intros z h1 H1 S1 A1 G1.
  apply wp_assoc. apply (hs_cons allowed cell z _ _ _ R); [rehold|]. intros k h2 H2 S2 A2 G2.
  pose proof (adds_trans _ _ _ A1 A2) as A. pose proof (holds_own _ _ H2) as O2. cbn [app] in O2.
  destruct (queue_cell _ _ _ _ Q) as [cq [yq [Eq [Bq _]]]].
  destruct (adds_body _ _ _ _ A Eq) as [cq2 [Eq2 Bq2]]. destruct (adds_body _ _ _ _ A E1) as [c12 [E12 B12]]. destruct (adds_body _ _ _ _ A E0) as [c02 [E02 B02]].
  rewrite Bq in Bq2. rewrite B1 in B12. rewrite B0 in B02.
  assert (P2 : is_pair_c cq2 = true) by (unfold is_pair_c; rewrite Bq2; reflexivity).
  assert (Q2 : queue h2 q (pw :: l)).
  { eapply queue_same; [exact O2|exact Q|unfold alive; congruence|]. intros a c c' E E'. destruct (adds_body _ _ _ _ A E) as [c3 [E3 B3]]. rewrite E' in E3. injection E3 as <-. exact B3. }
  apply wp_bind. eapply wp_mono; [apply (conc_field n q k h2 _ cq2 O2 Eq2 P2)|].
  intros r0 h3 [-> [O3 [p [x K]]]]. cbv beta.
  pose proof (relinked_step0 _ _ _ _ _ _ _ _ O2 O3 K) as S3. pose proof (k_aux _ _ _ _ _ _ K) as X3.
  assert (H3 : holds h3 R) by (eapply (holds_keep h2 h3); eauto).
  destruct (k_last _ _ _ _ _ _ K) as [cp [yp [cyp [Ep [Bp [Eyp [Pyp [cp' [Ep' [Bp' _]]]]]]]]]].
  assert (NP : chn <> p). { intros ->. rewrite E12 in Ep. injection Ep as <-. rewrite B12 in Bp. injection Bp as <- <-. rewrite Eq2 in Eyp. injection Eyp as <-. congruence. }
  assert (XA : ichan (aux h3) = ichan (aux h)) by (rewrite X3, (a_aux _ _ A); reflexivity).
  assert (AI : alive h3 (ichan (aux h))).
  { rewrite <- XA. eapply correct_alive; [apply (h_correct _ _ H3)|]. apply in_or_app. right. unfold held_by_lisp. apply in_or_app. right. cbn. auto. }
  assert (KB : forall a c c', a <> p -> cells h2 a = Some c -> cells h3 a = Some c' -> body c' = body c).
  { intros a c c' Na E E'. pose proof (k_same _ _ _ _ _ _ K _ _ _ Na E E') as T. apply stored_eq in T. tauto. }
  assert (I3 : exists c03, cells h3 (ichan (aux h)) = Some c03 /\ exists r3, body c03 = KPair chn r3).
  { unfold alive in AI. destruct (cells h3 (ichan (aux h))) as [c03|] eqn:E03; [|congruence]. exists c03. split; auto.
    destruct (N.eq_dec (ichan (aux h)) p) as [T|T].
    - rewrite T in *. rewrite E02 in Ep. injection Ep as <-. rewrite B02 in Bp. injection Bp as <- <-. rewrite E03 in Ep'. injection Ep' as <-. eauto.
    - exists r. rewrite (KB _ _ _ T E02 E03). exact B02. }
  destruct I3 as [c03 [E03 [r3 B03]]].
  assert (AC : alive h3 chn) by (apply (own_pair _ _ _ _ _ _ O3 E03 B03)).
  unfold alive in AC. destruct (cells h3 chn) as [c13|] eqn:E13; [|congruence].
  assert (B13 : body c13 = KPair hd q) by (rewrite (KB _ _ _ NP E12 E13); exact B12).
  assert (Aq : alive h3 q) by (apply (own_pair _ _ _ _ _ _ O3 E13 B13)).
  assert (NK : k <> p).
  { assert (Ap : alive h p) by (eapply (queue_spine h h2); [exact Q|intros a c c' E E'; destruct (adds_body _ _ _ _ A E) as [c3 [E3 B3]]; rewrite E' in E3; injection E3 as <-; exact B3|apply K]).
    intros ->. pose proof (bounded _ _ (h_correct _ _ H) _ Ap) as L. pose proof (g_addr _ _ _ _ G2). pose proof (a_nxt _ _ A1). lia. }
  assert (Ak : alive h3 k) by (apply (own_pair _ _ _ _ _ _ O3 Ep' Bp')).
  unfold alive in Ak. destruct (cells h3 k) as [ck|] eqn:Ek; [|congruence].
  assert (Bk : body ck = KPair cell z) by (rewrite (KB _ _ _ NK (g_new _ _ _ _ G2) Ek); reflexivity).
  assert (Az : alive h3 z) by (apply (own_pair _ _ _ _ _ _ O3 Ek Bk)).
  unfold alive in Az. destruct (cells h3 z) as [cz|] eqn:Ez; [|congruence].
  assert (Nzk : z <> k). { intros ->. pose proof (g_addr _ _ _ _ G2). pose proof (g_addr _ _ _ _ G1). pose proof (g_nxt _ _ _ _ G1). lia. }
  assert (Ez2 : cells h2 z = Some (Heap.mkcell 1 false false KNil)) by (rewrite (g_old _ _ _ _ G2) by exact Nzk; apply (g_new _ _ _ _ G1)).
  assert (Nzp : z <> p) by (intros ->; rewrite Ep in Ez2; injection Ez2 as ->; discriminate Bp).
  assert (Bz : body cz = KNil) by (rewrite (KB _ _ _ Nzp Ez2 Ez); reflexivity).
  assert (Q3 : queue h3 q ((pw :: l) ++ [cell])).
  { eapply queue_grown; [exact O3|exact K|exact Q2|apply K|exact Aq|]. eapply queue_cons; [exact Ek|exact Bk|]. eapply queue_nil; eauto. }
  unfold wp. rewrite (set_cdr_run _ _ _ _ _ q E13 B13).
  assert (SC : forall a, cells (set_cell h3 chn (Some (with_body c13 (KPair hd q)))) a = cells h3 a).
  { intro a. destruct (N.eq_dec a chn) as [->|T]; [|apply set_other; auto]. rewrite set_same, E13. f_equal. destruct c13 as [? ? ? ?]. cbn in B13. subst. reflexivity. }
  set (h4 := set_cell h3 chn (Some (with_body c13 (KPair hd q)))) in *.
  assert (O4 : own h4 (R ++ held_by_lisp (aux h3))) by (apply (own_ext h3); [apply holds_own; exact H3|reflexivity|exact SC]).
  assert (S4 : step0 h3 h4).
  { constructor; [eauto|eauto|cbn; lia| |].
    - intros a _ E. rewrite SC. exact E.
    - intros a c c' E E'. rewrite SC in E'. left. congruence. }
  assert (H4 : holds h4 R) by (eapply (holds_keep h3 h4); eauto).
  split; [exact H4|]. split.
  - constructor. change (aux h4) with (aux h3). rewrite XA. exists c03, c13, chn, r3, hd, q, pw. rewrite !SC.
    split; [exact E03|]. split; [exact B03|]. split; [exact E13|]. split; [exact B13|].
    eapply queue_same; [exact O4|exact Q3|unfold alive; rewrite SC; exact Aq|]. intros a c c' E E'. rewrite SC in E'. congruence.
  - eapply step_trans; [exact S1|]. eapply step_trans; [exact S2|]. eapply step_trans; [split; [exact S3|apply later_eq; exact X3]|].
    split; [exact S4|apply later_eq; reflexivity].
Qed.
Lemma deliver_ok : forall n cells_ l h R, holds h (cells_ ++ R) -> waiting h l ->
  wp (hdeliver n cells_) (fun _ h' => holds h' R /\ waiting h' (l ++ cells_) /\ step allowed h h') h.
Proof.
  intros n. induction cells_ as [|a r IH]; intros l h R H W; cbn [hdeliver].
  - apply wp_done. rewrite app_nil_r. split; [exact H|]. split; [exact W|]. eapply step_refl; eauto.
  - apply wp_bind. eapply wp_mono; [apply (consumer_ok n a l h (r ++ R) H W)|]. intros _ h1 [H1 [W1 S1]]. cbv beta.
    eapply wp_mono; [apply (IH _ _ _ H1 W1)|]. intros _ h2 [H2 [W2 S2]]. rewrite <- app_assoc in W2. split; [exact H2|]. split; [exact W2|]. eapply step_trans; eauto.
Qed.
End Chan.

(** Taking the first value out of the channel: the rest of the channel list is
    linked to PWD; no other live pair changes. *)
Definition unlinks (h h' : heap) : Prop :=
  aux h' = aux h /\
  forall a c c', cells h a = Some c -> cells h' a = Some c' ->
    body c' = body c \/ exists x y y', body c = KPair x y /\ body c' = KPair x y'.
Lemma holds_unlinks : forall h h' R R', holds h R -> unlinks h h' -> own h' (R' ++ held_by_lisp (aux h)) -> holds h' R'.
Proof.
  intros h h' R R' H [E U] [C S]. constructor; rewrite ?E; auto; [|apply H|].
  2:{ intros Z a Ia. destruct (h_chans _ _ H Z a Ia) as [c [Ec Pc]].
      assert (Al : alive h' a).
      { eapply correct_alive; [exact C|]. apply in_or_app. right. unfold held_by_lisp. apply in_or_app. right.
        destruct Ia as [->| ->]; cbn; auto. }
      unfold alive in Al. destruct (cells h' a) as [c'|] eqn:E'; [|congruence]. exists c'. split; auto.
      unfold is_pair_c in *. destruct (U _ _ _ Ec E') as [T|[x [y [y' [T1 T2]]]]]; [rewrite T; auto|]. rewrite T2. auto. }
  intros s kv I. destruct (h_globals _ _ H _ _ I) as [c [k [v [ck [Ec [Bc [Ek Bk]]]]]]].
  assert (Al : alive h' kv).
  { eapply correct_alive; [exact C|]. apply in_or_app. right. unfold held_by_lisp. apply in_or_app. left.
    apply in_map_iff. exists (s, kv). auto. }
  unfold alive in Al. destruct (cells h' kv) as [c'|] eqn:E'; [|congruence].
  assert (B' : exists v', body c' = KPair k v').
  { destruct (U _ _ _ Ec E') as [T|[x [y [y' [T1 T2]]]]]; [exists v; congruence|]. rewrite Bc in T1. injection T1 as <- <-. eauto. }
  destruct B' as [v' B']. assert (Ak : alive h' k) by (apply (own_pair _ _ _ _ _ _ (conj C S) E' B')).
  unfold alive in Ak. destruct (cells h' k) as [ck'|] eqn:Ek'; [|congruence].
  exists c', k, v', ck'. split; auto. split; auto. split; auto.
  destruct (U _ _ _ Ek Ek') as [T|[x [y [y' [T1 T2]]]]]; congruence.
Qed.

Lemma queue_fun : forall h q l l', queue h q l -> queue h q l' -> l = l'.
Proof.
  intros h q l l' H. revert l'. induction H as [q c E B|q c x y l E B H IH]; intros l' H'; inversion H' as [? c' E' B'|? c' x' y' l0 E' B' H'']; subst.
  - reflexivity.
  - rewrite E in E'. injection E' as <-. congruence.
  - rewrite E in E'. injection E' as <-. congruence.
  - rewrite E in E'. injection E' as <-. rewrite B in B'. injection B' as <- <-. f_equal. auto.
Qed.
Lemma queue_set : forall h x c q l l', queue h x l' -> queue h q l -> length l < length l' -> queue (set_cell h x c) q l.
Proof.
  intros h x c q l l' X H. induction H as [q c' E B|q c' u y l E B H IH]; intro L; cbn [length] in L.
  - eapply queue_nil; [rewrite set_other; [exact E|]|exact B]. intros ->.
    assert (T : l' = []) by (eapply queue_fun; [exact X|eapply queue_nil; eauto]). subst. cbn in L. lia.
  - eapply queue_cons; [rewrite set_other; [exact E|]|exact B|apply IH; lia]. intros ->.
    assert (T : l' = u :: l) by (eapply queue_fun; [exact X|eapply queue_cons; eauto]). subst. cbn in L. lia.
Qed.
Lemma queue_adds : forall h h' q l, adds h h' -> queue h q l -> queue h' q l.
Proof.
  intros h h' q l A H. induction H as [q c E B|q c x y l E B H IH]; destruct (adds_body _ _ _ _ A E) as [c' [E' B']].
  - eapply queue_nil; [exact E'|]. congruence.
  - eapply queue_cons; [exact E'|rewrite B'; exact B|exact IH].
Qed.

Lemma pop_ok : forall a l h R, holds h R -> waiting h (a :: l) ->
  wp hread_pop (fun r h' => r = a /\ holds h' (a :: R) /\ waiting h' l) h.
Proof.
  intros a l h R H [[c0 [c1 [chn [r [hd [x [pw [E0 [B0 [E1 [B1 Q]]]]]]]]]]]].
  destruct (queue_cell _ _ _ _ Q) as [cx [vls [Ex [Bx Qv]]]].
  destruct (queue_cell _ _ _ _ Qv) as [cv [d [Ev [Bv Qd]]]].
  pose proof (holds_own _ _ H) as O. set (A := R ++ held_by_lisp (aux h)) in *.
  unfold hread_pop. apply get_aux_run.
  apply wp_bind. apply wp_CAR; [unfold alive; congruence|]. intros c x1 y1 E B. rewrite E0 in E. injection E as <-. rewrite B0 in B. injection B as <- <-.
  apply wp_bind. apply wp_CDR; [unfold alive; congruence|]. intros c x1 y1 E B. rewrite E1 in E. injection E as <-. rewrite B1 in B. injection B as <- <-.
  apply wp_bind. apply wp_CDR; [unfold alive; congruence|]. intros c x1 y1 E B. rewrite Ex in E. injection E as <-. rewrite Bx in B. injection B as <- <-.
  apply wp_bind. apply wp_CAR; [unfold alive; congruence|]. intros c x1 y1 E B. rewrite Ev in E. injection E as <-. rewrite Bv in B. injection B as <- <-.
  apply wp_bind. apply (wp_up _ _ _ A O); [apply (own_pair _ _ _ _ _ _ O Ev Bv)|]. intros h1 O1 A1.
  destruct (adds_body _ _ _ _ A1 Ev) as [cv1 [Ev1 Bv1]]. rewrite Bv in Bv1.
  apply wp_bind. apply wp_CDR; [unfold alive; congruence|]. intros c x1 y1 E B. rewrite Ev1 in E. injection E as <-. rewrite Bv1 in B. injection B as <- <-.
  apply wp_bind. apply (wp_up _ _ _ _ O1); [apply (own_pair _ _ _ _ _ _ O1 Ev1 Bv1)|]. intros h2 O2 A2.
  assert (A3 : adds h h2) by (eapply adds_trans; eauto).
  destruct (adds_body _ _ _ _ A3 Ex) as [cx2 [Ex2 Bx2]]. rewrite Bx in Bx2.
  destruct (adds_body _ _ _ _ A3 E1) as [c12 [E12 B12]]. rewrite B1 in B12.
  destruct (adds_body _ _ _ _ A3 E0) as [c02 [E02 B02]]. rewrite B0 in B02.
  pose proof (queue_adds _ _ _ _ A3 Q) as Q2. pose proof (queue_adds _ _ _ _ A3 Qd) as Qd2. pose proof (queue_adds _ _ _ _ A3 Qv) as Qv2.
  apply wp_bind. unfold wp at 1. rewrite (set_cdr_run _ _ _ _ _ d Ex2 Bx2).
  assert (W : weak cx2 = false) by (apply (proj2 O2 _ _ Ex2)).
  set (h3 := set_cell h2 x (Some (with_body cx2 (KPair pw d)))).
  assert (O3 : own h3 (vls :: a :: A)).
  { eapply own_set; [exact O2|exact Ex2|exact W|apply (counted _ _ (proj1 O2) _ _ Ex2)|]. intro q. unfold fields. cbn [body with_body weak refs]. rewrite Bx2, W. cbn [cnt]. lia. }
  apply wp_bind. apply (wp_X _ _ _ _ O3). intros h4 O4 S4. apply wp_done. split; [reflexivity|].
  assert (X4 : aux h4 = aux h) by (destruct S4 as [_ [-> _]]; unfold h3; cbn [aux set_cell]; apply (a_aux _ _ A3)).
  assert (U : unlinks h h4).
  { split; [exact X4|]. intros q c c' E E'. destruct S4 as [_ [_ S4]]. destruct (S4 _ _ E') as [c3 [E3 T]]. apply stored_eq in T. destruct T as [T _].
    destruct (adds_body _ _ _ _ A3 E) as [c2 [E2 B2]]. rewrite T. unfold h3 in E3. destruct (N.eq_dec q x) as [->|Nq].
    - rewrite set_same in E3. injection E3 as <-. right. exists pw, vls, d. rewrite Ex in E. injection E as <-. split; [exact Bx|reflexivity].
    - rewrite set_other in E3 by exact Nq. rewrite E2 in E3. injection E3 as <-. left. exact B2. }
  split; [eapply holds_unlinks; eauto|].
  (* the channel *)
  assert (K4 : forall q c c', cells h3 q = Some c -> cells h4 q = Some c' -> body c' = body c).
  { intros q c c' E E'. destruct S4 as [_ [_ S4]]. destruct (S4 _ _ E') as [c3 [E3 T]]. apply stored_eq in T. destruct T as [T _]. congruence. }
  assert (Nc : chn <> x).
  { intros ->. rewrite E1 in Ex. injection Ex as <-. rewrite B1 in Bx. injection Bx as -> Bx. subst vls.
    pose proof (queue_fun _ _ _ _ Q Qv) as T. apply (f_equal (@length N)) in T. cbn [length] in T. lia. }
  assert (Al0 : alive h4 (ichan (aux h4))).
  { eapply correct_alive; [apply (proj1 O4)|]. right. apply in_or_app. right. rewrite X4. unfold held_by_lisp. apply in_or_app. right. cbn; auto. }
  constructor. unfold alive in Al0. destruct (cells h4 (ichan (aux h4))) as [c04|] eqn:E04; [|congruence].
  assert (B04 : exists r', body c04 = KPair chn r').
  { rewrite X4 in E04. destruct (proj2 U _ _ _ E0 E04) as [T|[u [v [v' [T1 T2]]]]]; [exists r; congruence|]. rewrite B0 in T1. injection T1 as <- <-. eauto. }
  destruct B04 as [r' B04].
  assert (Al1 : alive h4 chn) by (apply (own_pair _ _ _ _ _ _ O4 E04 B04)).
  unfold alive in Al1. destruct (cells h4 chn) as [c14|] eqn:E14; [|congruence].
  assert (E13 : cells h3 chn = Some c12) by (unfold h3; rewrite set_other; auto).
  assert (B14 : body c14 = KPair hd x) by (rewrite (K4 _ _ _ E13 E14); exact B12).
  assert (Alx : alive h4 x) by (apply (own_pair _ _ _ _ _ _ O4 E14 B14)).
  exists c04, c14, chn, r', hd, x, pw. split; [reflexivity|]. split; [exact B04|]. split; [exact E14|]. split; [exact B14|].
  eapply (queue_same h3 h4); [exact O4| |exact Alx|exact K4].
  eapply queue_cons; [unfold h3; apply set_same|reflexivity|]. eapply queue_set; [exact Q2|exact Qd2|cbn [length]; lia].
Qed.

Lemma pops_ok : forall l l2 h R, holds h R -> waiting h (l ++ l2) ->
  wp (hpops (length l)) (fun r h' => r = l /\ holds h' (l ++ R) /\ waiting h' l2) h.
Proof.
  induction l as [|a l IH]; intros l2 h R H W; cbn [length hpops].
  - apply wp_done. split; [reflexivity|]. split; auto.
  - apply wp_bind. eapply wp_mono; [apply (pop_ok a (l ++ l2) h R H W)|]. intros r h1 [-> [H1 W1]]. cbv beta.
    apply wp_bind. eapply wp_mono; [apply (IH l2 _ _ H1 W1)|]. intros r h2 [-> [H2 W2]]. cbv beta. apply wp_done.
    split; [reflexivity|]. split; [|exact W2]. rehold.
Qed.

(** What is delivered after the expressions already waiting comes out after them,
    in the order it was delivered, each with the reference it came with. *)
Lemma fifo_ok : forall n l new h R,
  holds h (new ++ R) -> waiting h l ->
  wp (hdeliver n new ;;; hpops (length (l ++ new)))
    (fun r h' => r = l ++ new /\ holds h' (r ++ R) /\ waiting h' []) h.
Proof.
  intros n l new h R H W. apply wp_bind. eapply wp_mono; [apply (deliver_ok (fun _ => false) n new l h R H W)|].
  intros _ h1 [H1 [W1 _]]. cbv beta. eapply wp_mono; [apply (pops_ok (l ++ new) [] h1 R H1); rewrite app_nil_r; exact W1|].
  intros r h2 [-> [H2 W2]]. auto.
Qed.
