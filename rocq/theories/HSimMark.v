(** * HSimMark: marking the tail calls of code whose calls are marked already. *)
From Verif Require Import Value Tails Print Heap HeapSpec HeapProofs HeapOps HEval HEvalSpec HEvalBase HEvalProofs ValueProofs TailsProofs HSimSpec HSimBase HSimOps HSimList HSimMix HSimPure HSimLisp HSimState.
From Verif Require Eval.
Open Scope nat_scope.
Open Scope heap_scope.

(** The last element of a list. *)
Inductive ends : atom -> atom -> Prop :=
| ends_here : forall t x y, is_pair y = false -> ends (Pair t x y) x
| ends_next : forall t x y z, ends y z -> ends (Pair t x y) z.
Lemma ends_pair : forall y z, ends y z -> is_pair y = true.
Proof. intros y z H. destruct H; auto. Qed.
Lemma ends_body : forall f args b x, mark_body f args b = Some b -> ends b x -> mark_expr f args x = x.
Proof.
  intros f args b x M E. induction E as [t x y NP|t x y z E IH].
  - destruct y; try discriminate NP; cbn [mark_body] in M; injection M as M; auto.
  - pose proof (ends_pair _ _ E) as PY. destruct y as [| | | | | |t1 x1 y1]; try discriminate PY.
    remember (Pair t1 x1 y1) as y eqn:Ey. cbn [mark_body] in M. rewrite Ey in M at 1. apply IH.
    destruct (mark_body f args y) as [r|]; [|discriminate]. injection M as ->. auto.
Qed.
Lemma ends_tlast : forall g b x, tlast g b = b -> ends b x -> tmap g x = x.
Proof.
  intros g b x M E. induction E as [t x y NP|t x y z E IH].
  - destruct y; try discriminate NP; cbn [tlast] in M; injection M as M; auto.
  - pose proof (ends_pair _ _ E) as PY. destruct y as [| | | | | |t1 x1 y1]; try discriminate PY.
    remember (Pair t1 x1 y1) as y eqn:Ey. cbn [tlast] in M. rewrite Ey in M at 1. apply IH. injection M as M. auto.
Qed.
Lemma g_CDR2 : forall h a v, reads h a v ->
  gives (CDR a) h (fun q => exists c p t x y, cells h a = Some c /\ body c = KPair p q /\ v = Pair t x y /\ reads h p x /\ reads h q y).
Proof.
  intros h a v R. eapply gives_bind; [apply (g_rd _ _ _ R)|]. intros c [E S].
  destruct v as [| | | | |t0 s0|t x y]; cbn in S; try (rewrite S; exact I); [destruct S as [-> _]; exact I|].
  destruct S as [p [q [Bc [T [Rp Rq]]]]]. rewrite Bc. apply gives_done. exists c, p, t, x, y. auto.
Qed.
Lemma g_CAR2 : forall h a v, reads h a v ->
  gives (CAR a) h (fun p => exists c q t x y, cells h a = Some c /\ body c = KPair p q /\ v = Pair t x y /\ reads h p x /\ reads h q y).
Proof.
  intros h a v R. eapply gives_bind; [apply (g_rd _ _ _ R)|]. intros c [E S].
  destruct v as [| | | | |t0 s0|t x y]; cbn in S; try (rewrite S; exact I); [destruct S as [-> _]; exact I|].
  destruct S as [p [q [Bc [T [Rp Rq]]]]]. rewrite Bc. apply gives_done. exists c, q, t, x, y. auto.
Qed.
Lemma g_last : forall h n a v, reads h a v ->
  gives (last_pair n a) h (fun p => exists t x y, ends v x /\ reads h p (Pair t x y) /\ (strong h -> reach h [a] p)).
Proof.
  intros h. induction n as [|n IH]; intros a v R; [exact I|]. cbn [last_pair].
  eapply gives_bind; [apply (g_CDR2 _ _ _ R)|]. intros q [c [p [t [x [y [E [Bc [-> [Rp Rq]]]]]]]]].
  eapply gives_bind; [apply (g_rd _ _ _ Rq)|]. intros cy [Ey Sy]. rewrite (shows_pair _ _ _ Sy).
  destruct (is_pair y) eqn:PY.
  - eapply gives_mono; [apply (IH _ _ Rq)|]. intros r [t1 [x1 [y1 [EN [Rr RE]]]]]. exists t1, x1, y1.
    split; [apply ends_next; auto|]. split; auto. intro St. eapply reach_incl; [|apply (RE St)].
    intros z [<-|[]]. eapply reach_step; [apply reach_root; cbn; auto|]. eapply field_cdr; eauto.
  - apply gives_done. exists t, x, y. split; [apply ends_here; auto|]. split; auto. intros _. apply reach_root. cbn. auto.
Qed.

(** All elements of a list. *)
Fixpoint each (g : atom -> Prop) (v : atom) : Prop :=
  match v with Pair _ x y => g x /\ each g y | _ => True end.
Lemma each_joined : forall g a b, each g a -> each g b -> each g (joined a b).
Proof. intros g a b. induction a; cbn; auto. intros [A C] D. auto. Qed.

Section Steps.
Variables (h0 : heap) (F : list N) (B : list (N * atom)) (V0 : list N).
Notation at_ := (vat h0 F B V0).
Variable g : atom -> atom.
Hypothesis gleaf : forall y, is_pair y = false -> g y = y.
Notation fixes v := (each (fun p => g p = p) v).

Lemma o_wrap : forall h w L P a v, at_ h w ((a, v) :: L) P -> g v = v ->
  wpv (wrap a) (fun r h' => exists lv, at_ h' w L ((r, lv) :: P) /\ fixes lv) h.
Proof.
  intros h w L P a v H G. unfold wrap. xnil H z. apply vat_leaf in H; auto.
  eapply wpv_mono; [apply (o_pcons _ _ _ _ _ _ _ _ _ _ _ _ H)|]. intros r h' H'. exists (Cons v Nil). split; auto. cbn. auto.
Qed.

Definition collects (col : N -> HM N) : Prop := forall a h w L P v, at_ h w ((a, v) :: L) P -> tmap g v = v ->
  wpv (col a) (fun r h' => exists lv, at_ h' w L ((r, lv) :: P) /\ fixes lv) h.

Lemma o_assoc : forall col, collects col -> forall n a h w L P v, at_ h w ((a, v) :: L) P -> tassoc g v = v ->
  wpv (hcollect_assoc col n a) (fun r h' => exists lv, at_ h' w L ((r, lv) :: P) /\ fixes lv) h.
Proof.
  intros col CO. induction n as [|n IH]; intros a h w L P v H T; [exact I|]. cbn [hcollect_assoc].
  assert (Ra : avail h ((a, v) :: L) B a v) by av H.
  eapply gives_wpv; [apply (g_rd _ _ _ (proj1 Ra))|]. intros c [Ec Sc]. rewrite (shows_nil _ _ _ Sc), (shows_pair _ _ _ Sc). clear Sc Ec c.
  destruct v as [| | | | |t0 s0|t x y]; cbn [is_null is_pair negb];
    try (apply vat_leaf in H; [|reflexivity]; unfold wpv, done; eexists; split; [exact H|exact I]);
    try (xX H a; op ltac:(eapply o_nil; exact H); clear H; intros zz h2 H; apply vat_leaf in H; [|reflexivity]; exists Nil; split; [exact H|exact I]).
  assert (Tx : tmap g (cdr x) = cdr x /\ tassoc g y = y).
  { destruct x; cbn [tassoc] in T; injection T; auto. }
  destruct Tx as [Tx Ty].
  xcar H x1. xcdr H y1. xX H a. xcdr H e. op ltac:(eapply CO; [exact H|exact Tx]). clear H. intros hd h5 [lv [H G1]].
  xX H x1. op ltac:(eapply IH; [exact H|exact Ty]). clear H. intros tl h7 [lv2 [H G2]].
  apply vat_swap in H. eapply wpv_mono; [apply (o_pconc _ _ _ _ _ _ _ _ _ _ _ _ _ H)|]. intros r h8 H8. eexists. split; [exact H8|]. apply each_joined; auto.
Qed.

Lemma o_collect : forall n, collects (hcollect n).
Proof.
  induction n as [|n IH]; intros a h w L P v H T; [exact I|]. cbn [hcollect].
  assert (Ra : avail h ((a, v) :: L) B a v) by av H.
  eapply gives_wpv; [apply (g_rd _ _ _ (proj1 Ra))|]. intros c [Ec Sc].
  destruct v as [| | | | |t0 s0|t x y]; cbn in Sc; try (rewrite Sc; apply (o_wrap _ _ _ _ _ _ H); apply gleaf; reflexivity).
  - rewrite Sc. apply vat_leaf in H; [|reflexivity]. unfold wpv, done. eexists. split; [exact H|exact I].
  - destruct Sc as [-> _]. apply (o_wrap _ _ _ _ _ _ H); apply gleaf; reflexivity.
  - destruct Sc as [p [q [-> [_ [Rp Rq]]]]]. eapply gives_wpv; [apply (g_rd _ _ _ Rp)|]. intros ca [Ea Sa].
    destruct x as [| | | | |t1 s|t1 x1 x2]; cbn in Sa; try (rewrite Sa; apply (o_wrap _ _ _ _ _ _ H); rewrite <- tmap_other by reflexivity; exact T).
    2:{ destruct Sa as [p1 [q1 [-> _]]]. apply (o_wrap _ _ _ _ _ _ H). rewrite <- tmap_other by reflexivity. exact T. }
    destruct Sa as [-> _]. clear Ec Ea.
    destruct (named s "if") eqn:N1; [|destruct (named s "cond" || named s "match") eqn:N2; [|destruct (named s "prog" || named s "|>") eqn:N3;
      [|destruct (named s "unless" || named s "when") eqn:N4]]].
    + assert (TT : tmap g (car (cdr y)) = car (cdr y) /\ tmap g (car (cdr (cdr y))) = car (cdr (cdr y))).
      { cbn [tmap] in T. rewrite N1 in T. destruct y as [| | | | | |t2 y1 y2]; cbn; auto. destruct y2 as [| | | | | |t3 y2 y3]; cbn; auto.
        destruct y3 as [| | | | | |t4 y3 y4]; cbn; injection T; auto. }
      destruct TT as [T1 T2].
      xcdr H cd0. xcdr H cd1. xcar H tt_. cbn [cdr] in H. op ltac:(eapply IH; [exact H|exact T1]). clear H. intros thn h5 [lv1 [H G1]].
      xcdr H cd2. xcar H e. op ltac:(eapply IH; [exact H|exact T2]). clear H. intros els h8 [lv2 [H G2]].
      xX H a. xX H cd0. xX H cd1. xX H cd2. apply vat_swap in H.
      eapply wpv_mono; [apply (o_pconc _ _ _ _ _ _ _ _ _ _ _ _ _ H)|]. intros r h99 H99. eexists. split; [exact H99|]. apply each_joined; auto.
    + assert (TT : tassoc g (cdr y) = cdr y).
      { cbn [tmap] in T. rewrite N1, N2 in T. destruct y as [| | | | | |t2 y1 y2]; cbn; auto. injection T. auto. }
      xcdr H cd0. xcdr H cd1. cbn [cdr] in H. op ltac:(eapply (o_assoc _ IH); [exact H|exact TT]). clear H. intros res h5 [lv [H G1]].
      xX H a. xX H cd0. unfold wpv, done. eexists. split; [exact H|auto].
    + eapply gives_wpv; [apply (g_last _ _ _ _ (proj1 Ra))|]. intros lp [t2 [x [y2 [EN [Rl RE]]]]].
      assert (TT : tmap g x = x).
      { cbn [tmap] in T. rewrite N1, N2, N3 in T. injection T as T. inversion EN as [? ? ? NP|? ? ? ? EN']; subst; auto.
        apply (ends_tlast g y); auto. }
      eapply gives_wpv; [apply (g_CAR2 _ _ _ Rl)|]. intros l [cl [ql [t3 [x3 [y3 [El [Bl [Q [Rx _]]]]]]]]]. injection Q as <- <- <-.
      assert (Al : avail h ((a, Pair t (Sym t1 s) y) :: L) B l x).
      { split; auto. pose proof (vat_strong _ _ _ _ _ _ _ _ H) as St. eapply reach_step; [|eapply field_car; eauto].
        eapply reach_incl; [|apply (RE St)]. intros z [<-|[]]. apply Ra. }
      op ltac:(eapply o_up; [exact H|exact Al]). clear H. intros r h2 [-> H].
      op ltac:(eapply IH; [exact H|exact TT]). clear H. intros res h3 [lv [H G1]].
      xX H a. unfold wpv, done. eexists. split; [exact H|auto].
    + assert (TT : tmap g (car (cdr y)) = car (cdr y)).
      { cbn [tmap] in T. rewrite N1, N2, N3, N4 in T. destruct y as [| | | | | |t2 y1 y2]; cbn; auto. destruct y2 as [| | | | | |t3 y2 y3]; cbn; auto.
        injection T. auto. }
      xcdr H cd0. xcdr H cd1. xcar H e. cbn [cdr] in H. op ltac:(eapply IH; [exact H|exact TT]). clear H. intros res h5 [lv [H G1]].
      xX H a. xX H cd0. xX H cd1. unfold wpv, done. eexists. split; [exact H|auto].
    + apply (o_wrap _ _ _ _ _ _ H). cbn [tmap] in T. rewrite N1, N2, N3, N4 in T. exact T.
Qed.
End Steps.

(** Nothing is changed. *)
Definition stays (h h' : heap) : Prop := (forall a, cells h' a = cells h a) /\ nxt h' = nxt h /\ aux h' = aux h.
Lemma stays_refl : forall h, stays h h.
Proof. intro h. repeat split. Qed.
Lemma stays_trans : forall h h1 h2, stays h h1 -> stays h1 h2 -> stays h h2.
Proof. intros h h1 h2 [A [C D]] [A' [C' D']]. split; [intro a; rewrite A'; auto|]. split; congruence. Qed.
Lemma set_tail_stays : forall h a s, reads h a (Sym true s) -> wpv (set_tail a) (fun _ h' => stays h h') h.
Proof.
  intros h a s R. unfold set_tail. eapply gives_wpv; [apply (g_rd _ _ _ R)|]. intros c [E [Bc T]].
  unfold wpv, wr. rewrite E. split; [|split; reflexivity]. intro x. cbn. destruct (N.eqb_spec x a) as [->|]; auto.
  rewrite E. unfold with_tail. rewrite <- T. destruct c; reflexivity.
Qed.

Lemma loop_stays : forall k av n symb args pt t tv h, reads h symb (Sym t k) -> reads h args av -> reads h pt tv ->
  each (fun p => mark_cell k av p = p) tv -> wpv (hmark_loop n symb args pt) (fun _ h' => stays h h') h.
Proof.
  intros k av. induction n as [|n IH]; intros symb args pt t tv h Rs Ra Rt E; [exact I|]. cbn [hmark_loop].
  eapply gives_wpv; [apply (g_CAR2 _ _ _ Rt)|]. intros x [c [y [t1 [xv [yv [Ec [Bc [-> [Rx Ry]]]]]]]]]. destruct E as [Ex Ey].
  eapply gives_wpv; [eapply (g_test h x _ is_pair_c); [exact Rx|intros c0 Sc; apply (shows_pair _ _ _ Sc)]|]. intros b ->.
  apply wpv_bind. apply (wpv_mono _ (fun (_ : unit) h' => stays h h')).
  - destruct (is_pair xv) eqn:PX; [|apply stays_refl]. destruct xv as [| | | | | |t2 kv dv]; try discriminate PX.
    eapply gives_wpv; [apply (g_CAR2 _ _ _ Rx)|]. intros kk [c1 [q [t3 [? [? [E1 [B1 [Q [Rk Rd]]]]]]]]]. injection Q as <- <- <-.
    eapply gives_wpv; [apply (g_same_key _ _ _ _ _ Rk Rs)|]. intros b ->.
    destruct kv as [| | | | |u s|]; try apply stays_refl. destruct (sym_match s k) eqn:SM; [|apply stays_refl].
    eapply gives_wpv; [apply (g_CDR2 _ _ _ Rx)|]. intros d [c2 [p2 [? [? [? [E2 [B2 [Q [_ Rd2]]]]]]]]]. injection Q as <- <- <-.
    eapply gives_wpv; [apply (g_may_apply _ _ _ _ _ _ Ra Rd2)|]. intros b ->.
    destruct (may_apply av dv) eqn:MA; [|apply stays_refl].
    cbn [mark_cell] in Ex. rewrite SM, MA in Ex. injection Ex as <-. apply (set_tail_stays _ _ _ Rk).
  - intros u0 h1 ST. assert (ST1 := ST). destruct ST1 as [C1 _].
    eapply gives_wpv; [apply (g_CDR2 h1 pt _ (same_reads _ _ _ _ C1 Rt))|]. intros y2 [c2 [p2 [? [? [? [E2 [B2 [Q [_ Ry2]]]]]]]]]. injection Q as <- <- <-.
    eapply gives_wpv; [eapply (g_test h1 y2 _ is_pair_c); [exact Ry2|intros c0 Sc; apply (shows_pair _ _ _ Sc)]|]. intros b ->.
    destruct (is_pair yv); [|exact ST].
    eapply wpv_mono; [apply (IH symb args y2 t yv h1); auto; eapply same_reads; eauto|]. intros u2 h2 ST2. eapply stays_trans; eauto.
Qed.

Section Mark.
Variables (h0 : heap) (F : list N) (B : list (N * atom)) (V0 : list N).
Notation at_ := (vat h0 F B V0).
Lemma vat_stays : forall h w h' L P, at_ h w L P -> stays h h' -> at_ h' w L P.
Proof.
  intros h w h' L P H [C [N1 A]]. pose proof (v_lisp _ _ _ _ _ _ _ _ H) as LI. pose proof (v_holds _ _ _ _ _ _ _ _ H) as HO.
  apply (vat_aux _ _ _ _ _ _ _ _ _ _ H); rewrite ?A; auto; try reflexivity.
  - apply (holds_same _ _ _ HO); rewrite ?A; auto. destruct HO; auto.
  - apply (lisp_aux h w); rewrite ?A; auto; destruct LI; auto.
Qed.

Lemma avail_in : forall h w l L P a v, at_ h w (l ++ L) P -> In (a, v) (L ++ B) -> avail h L B a v.
Proof.
  intros h w l L P a v H I. apply in_app_or in I. destruct I as [I|I].
  - split; [|apply reach_root; apply in_or_app; left; eapply heads_in; eauto].
    eapply (avail_L _ _ _ _ _ _ _ _ _ _ H). apply in_or_app. auto.
  - split; [|apply reach_root; apply in_or_app; right; eapply heads_in; eauto]. eapply (avail_B _ _ _ _ _ _ _ _ _ _ H). auto.
Qed.
Lemma reads_in : forall h w L P a v, at_ h w L P -> In (a, v) (L ++ B) -> reads h a v.
Proof. intros h w L P a v H I. apply (avail_in _ _ [] _ _ _ _ H I). Qed.

Lemma o_mark : forall n h w L P symb args bdy t k av bv, at_ h w L P ->
  In (symb, Sym t k) (L ++ B) -> In (args, av) (L ++ B) -> In (bdy, bv) (L ++ B) ->
  mark_body k av bv = None \/ mark_body k av bv = Some bv ->
  wpv (hmark n symb args bdy) (fun _ h' => at_ h' w L P /\ mark_body k av bv = Some bv) h.
Proof.
  intros n h w L P symb args bdy t k av bv H Is Ia Ib M. unfold hmark. pose proof (avail_in _ _ [] _ _ _ _ H Ib) as Rb.
  eapply gives_wpv; [eapply (g_test h bdy _ is_nil_c); [apply Rb|intros c0 Sc; apply (shows_nil _ _ _ Sc)]|]. intros b ->.
  destruct (is_null bv); [exact I|].
  eapply gives_wpv; [apply (g_last _ _ _ _ (proj1 Rb))|]. intros lp [t2 [x [y2 [EN [Rl RE]]]]].
  assert (MB : mark_body k av bv = Some bv).
  { destruct M as [M|M]; auto. exfalso. clear - EN M. revert M. induction EN as [t x y NP|t x y z E IH]; intro M.
    - destruct y; try discriminate NP; discriminate M.
    - pose proof (ends_pair _ _ E) as PY. destruct y as [| | | | | |t1 x1 y1]; try discriminate PY.
      remember (Pair t1 x1 y1) as y eqn:Ey. cbn [mark_body] in M. rewrite Ey in M at 1.
      destruct (mark_body k av y); [discriminate|auto]. }
  pose proof (ends_body _ _ _ _ MB EN) as TT. rewrite mark_tmap in TT.
  eapply gives_wpv; [apply (g_CAR2 _ _ _ Rl)|]. intros l [cl [ql [t3 [x3 [y3 [El [Bl [Q [Rx _]]]]]]]]]. injection Q as <- <- <-.
  assert (Al : avail h L B l x).
  { split; auto. pose proof (vat_strong _ _ _ _ _ _ _ _ H) as St. eapply reach_step; [|eapply field_car; eauto].
    eapply reach_incl; [|apply (RE St)]. intros z [<-|[]]. apply Rb. }
  op ltac:(eapply o_up; [exact H|exact Al]). intros r h2 [-> H2].
  op ltac:(eapply o_collect; [|exact H2|exact TT]; intros y NP; destruct y; try discriminate NP; reflexivity). intros tails h3 [lv [H3 G]].
  assert (Rt : reads h3 tails lv). { pose proof (v_P _ _ _ _ _ _ _ _ H3) as A. inversion A; auto. }
  eapply gives_wpv; [eapply (g_test h3 tails _ is_nil_c); [apply Rt|intros c0 Sc; apply (shows_nil _ _ _ Sc)]|]. intros b ->.
  apply wpv_bind. apply (wpv_mono _ (fun (_ : unit) h' => stays h3 h')).
  - destruct (is_null lv); [apply stays_refl|].
    apply (loop_stays k av n symb args tails t lv h3); auto; eapply (reads_in _ _ _ _ _ _ H3); eauto.
  - intros u0 h4 ST. pose proof (vat_stays _ _ _ _ _ H3 ST) as H4. apply vat_demote in H4.
    op ltac:(eapply o_X; exact H4). intros u h5 H5. auto.
Qed.
End Mark.
