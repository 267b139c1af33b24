(** * RSimTop: whole sessions in memory that is used again. *)
From Verif Require Import Value Tails Heap HeapSpec HEvalSpec HSimSpec RSimSpec RSim RSim2.
From Verif Require Slab RHeap HEval HEvalBoot HEvalBase HSimTop REval Eval EvalSpec HBars.
Open Scope N_scope.

(** ** What is read *)
Section Transfer.
Variables (W : world) (h : heap) (r : R.heap).
Hypothesis M : mirrors W h r.
Lemma cell_at : forall a c, cells h a = Some c -> exists c', R.cells r (place W a) = Some c' /\ crel W c c'.
Proof. intros a c E. apply (m_cells _ _ _ M a c E). Qed.
Lemma body_at : forall a c, cells h a = Some c -> (forall x y, body c <> KPair x y) -> exists c', R.cells r (place W a) = Some c' /\ body c' = body c /\ tail c' = tail c.
Proof.
  intros a c E N0. destruct (cell_at a c E) as [c' [E' C]]. exists c'. split; auto.
  destruct (crel_case _ _ _ C) as [(rf & t & w & x & y & x' & y' & -> & -> & _)|[-> _]]; auto. exfalso. eapply N0. reflexivity.
Qed.
Lemma pair_at : forall a c x y, cells h a = Some c -> body c = KPair x y ->
  exists c', R.cells r (place W a) = Some c' /\ body c' = KPair (place W x) (place W y) /\ tail c' = tail c.
Proof.
  intros a c x y E B. destruct (cell_at a c E) as [c' [E' C]]. exists c'. split; auto.
  destruct (crel_case _ _ _ C) as [(rf & t & w & x0 & y0 & x' & y' & -> & -> & [_ ->] & [_ ->])|[-> U]]; [|exfalso; eapply U; eauto].
  cbn in B. injection B as -> ->. auto.
Qed.
Lemma held_at : forall a v, reads h a v -> held (R.cells r) (place W a) v.
Proof.
  intros a v H. induction H as [a c E B|a c E B|a c E B|a c z E B|a c z E B|a c s E B|a c x y v w E B H1 I1 H2 I2];
    try (destruct (body_at a c E) as [c' [E' [B' T]]]; [rewrite B; discriminate|]; rewrite B in B'; try rewrite <- T).
  - eapply held_nil; eauto.
  - eapply held_true; eauto.
  - eapply held_wild; eauto.
  - eapply held_char; eauto.
  - eapply held_num; eauto.
  - eapply held_sym; eauto.
  - destruct (pair_at a c x y E B) as [c' [E' [B' T]]]. rewrite <- T. eapply held_pair; eauto.
Qed.
Lemma handles_at : forall a l, chans h a l -> handles (R.cells r) (place W a) l.
Proof.
  intros a l H. induction H as [a c E B|a c e d ce k x ck n l E B E1 B1 E2 B2 H IH].
  - destruct (body_at a c E) as [c' [E' [B' T]]]; [rewrite B; discriminate|]. rewrite B in B'. eapply handles_nil; eauto.
  - destruct (pair_at a c e d E B) as [c' [E' [B' _]]]. destruct (pair_at e ce k x E1 B1) as [ce' [E1' [B1' _]]].
    destruct (body_at k ck E2) as [ck' [E2' [B2' _]]]; [rewrite B2; discriminate|]. rewrite B2 in B2'. eapply handles_cons; eauto.
Qed.
Lemma global_same : forall s, match global_at h s, bound_at r s with Some a, Some b => b = place W a | None, None => True | _, _ => False end.
Proof.
  intro s. unfold global_at, bound_at. destruct (m_aux _ _ _ M) as [B _ _ _ _].
  induction B as [|[k v] [k' v'] l l' [E H] B IH]; cbn; [exact I|]. cbn in E. subst k'. destruct (sym_match k s); auto. apply H.
Qed.
Lemma shows_at : forall a v w L, open W = true -> stands h w ((a, v) :: L) -> shows r (place W a) v w.
Proof.
  intros a v w L O [_ R [G1 G2 _ _ G5 G6 G7 G8]]. destruct (m_aux _ _ _ M) as [B I C P X]. constructor.
  - apply held_at. apply R. left. auto.
  - intros s u E. destruct (G1 s u E) as (kv & c & k & x & E1 & E2 & E3 & E4). pose proof (global_same s) as S. rewrite E1 in S.
    destruct (bound_at r s) as [b|]; [|contradiction]. subst b. destruct (pair_at kv c k x E2 E3) as [c' [E2' [E3' _]]].
    exists (place W kv), c', (place W k), (place W x). repeat (split; auto). apply held_at; auto.
  - intros s E. pose proof (global_same s) as S. rewrite (G2 s E) in S. destruct (bound_at r s); [contradiction|auto].
  - congruence.
  - congruence.
  - destruct (I O) as [_ ->]. apply handles_at; auto.
  - destruct (C O) as [_ ->]. apply handles_at; auto.
Qed.
Lemma fields_in : forall a b, In b (fields_at h a) -> In (place W b) (RSimSpec.fields (R.cells r) (place W a)).
Proof.
  intros a b. unfold fields_at, RSimSpec.fields. destruct (cells h a) as [c|] eqn:E; [|contradiction]. unfold HeapSpec.fields.
  destruct (body c) as [| | | | | |x y] eqn:B; try contradiction. destruct (pair_at a c x y E B) as [c' [-> [-> _]]].
  destruct (weak c); cbn; intuition (subst; auto).
Qed.
Lemma acyclic_at : loop_free (R.cells r) -> acyclic h.
Proof. intros [rk H]. exists (fun a => rk (place W a)). intros a b I. apply H. apply fields_in. auto. Qed.
Lemma reached_at : forall roots a, reach h roots a -> reached (R.cells r) (map (place W) roots) (place W a).
Proof.
  intros roots a H. induction H as [a I|a b H IH I]; [apply reached_root; apply in_map; auto|].
  eapply reached_step; [exact IH|]. apply fields_in. auto.
Qed.
Lemma roots_at : open W = true -> lost (aux h) = [] -> map (place W) (held_by_lisp (aux h)) = roots_of (R.aux r).
Proof.
  intros O L. unfold held_by_lisp, roots_of. rewrite L. destruct (m_aux _ _ _ M) as [B I C _ _]. rewrite app_nil_r, map_app. f_equal.
  - clear -B. induction B as [|p q l l' [_ [_ E]] B IH]; cbn; congruence.
  - destruct (I O) as [_ ->]. destruct (C O) as [_ ->]. reflexivity.
Qed.
End Transfer.

(** ** Sessions *)
Lemma boot_first : forall st allowed opened pwd n l (ST : st = true -> allowed OddScope = true /\ allowed MarksCode = true) W,
  tracks_ st (fun W' a b => open W' = true /\ pt W' a b) (HEvalBoot.session allowed opened pwd n l) (E.session opened pwd n l) W.
Proof.
  intros st allowed opened pwd n l ST W. unfold HEvalBoot.session, E.session. eapply t_bind; [apply t_boot; auto|].
  intros W1 [] [] L1 O1. eapply t_bind; [apply t_nil|]. intros W2 a b L2 P. pose proof (open_le _ _ L2 O1) as O2.
  intros W3 h r L3 M3. pose proof (t_run st allowed ST opened pwd n l W2 a b O2 P W3 h r L3 M3) as T.
  destruct (HEval.hrun allowed opened pwd n l a h); auto. destruct (E.hrun opened pwd n l b r); auto.
  destruct T as [W' [L' [M' Q]]]. exists W'. split; auto. split; auto. split; auto.
  eapply open_le; [|exact O2]. eapply wle_trans; eauto.
Qed.
Lemma session_mirrors : forall st allowed opened pwd n l, (st = true -> allowed OddScope = true /\ allowed MarksCode = true) ->
  match HEvalBoot.session allowed opened pwd n l empty with
  | Done a h =>
      match E.session opened pwd n l E.empty with
      | R.Done b r => exists W, mirrors W h r /\ open W = true /\ b = place W a
      | o => exhausted o
      end
  | Wild => st = true -> E.session opened pwd n l E.empty = R.Wild \/ exhausted (E.session opened pwd n l E.empty)
  | Dry => st = true -> E.session opened pwd n l E.empty = R.Dry \/ exhausted (E.session opened pwd n l E.empty)
  | _ => True
  end.
Proof.
  intros st allowed opened pwd n l ST.
  pose proof (boot_first st allowed opened pwd n l ST nowhere nowhere empty E.empty (wle_refl _) mirrors_empty) as T.
  revert T. generalize (HEvalBoot.session allowed opened pwd n l empty) (E.session opened pwd n l E.empty).
  intros o o' T. destruct o; try exact T. destruct o'; try exact T. destruct T as [W [_ [M [O [_ P]]]]]. exists W. auto.
Qed.
