(** * HSimList: conc, dup, bind, merge and their values. *)
From Verif Require Import Value Tails Print Heap HeapSpec HeapProofs HeapOps HEval HEvalSpec HEvalBase HEvalProofs ValueProofs HSimSpec HSimBase HSimOps.
From Verif Require Eval.
Open Scope nat_scope.
Open Scope heap_scope.

(** ** conc: the last pair is changed *)
Record relinked (h h' : heap) (a b p x : N) : Prop := mkrelinked {
  k_spine : on_spine h a p;
  k_last : exists c y cy, cells h p = Some c /\ body c = KPair x y /\ cells h y = Some cy /\ is_pair_c cy = false /\
           (exists c', cells h' p = Some c' /\ body c' = KPair x b /\ tail c' = tail c);
  k_same : forall q c c', q <> p -> cells h q = Some c -> cells h' q = Some c' -> stored c' = stored c;
  k_dead : forall q, cells h q = None -> cells h' q = None;
  k_nxt : nxt h' = nxt h;
  k_aux : aux h' = aux h
}.
Lemma conc_cells : forall n a b h R c0, own h (a :: b :: R) -> cells h a = Some c0 -> is_pair_c c0 = true ->
  wpv (hconc n a b) (fun r h' => r = a /\ exists p x, relinked h h' a b p x) h.
Proof.
  intros n a b h R c0 O E0 P0. unfold hconc. assert (Aa : alive h a) by (eapply own_alive; [exact O|cbn; auto]).
  apply wpv_bind. unfold wpv at 1, rd. rewrite E0, P0.
  apply wpv_bind. eapply wpv_mono; [apply wp_wpv; apply (last_pair_spec n a h _ O Aa)|].
  intros p h1 [-> [SP [c [x [y [cy [E [Bc [Ey Py]]]]]]]]].
  apply wpv_bind. unfold wpv at 1. rewrite (CDR_run _ _ _ _ _ E Bc).
  destruct (X_leaf h y cy _ O Ey Py) as [h3 [D3 [Nx3 [Au3 C3]]]].
  apply wpv_bind. unfold wpv at 1. rewrite D3.
  assert (Yp : p <> y). { intro Q. subst y. rewrite E in Ey. injection Ey as <-. unfold is_pair_c in Py. rewrite Bc in Py. discriminate. }
  assert (E3 : cells h3 p = Some c). { rewrite C3. apply N.eqb_neq in Yp. rewrite Yp. auto. }
  unfold wpv, hbind_, rd, wr, done. rewrite E3, Bc, E3. split; auto. exists p, x. constructor; auto.
  - exists c, y, cy. repeat (split; auto). exists (with_body c (KPair x b)). rewrite set_same. auto.
  - intros q cq cq' Q Eq Eq'. rewrite set_other in Eq' by auto. rewrite C3 in Eq'.
    destruct (N.eqb_spec q y) as [Z|Z]; [|congruence]. subst q. rewrite Ey in Eq. injection Eq as <-.
    unfold dropped in Eq'. destruct (refs cy) as [|[|r]]; try discriminate. injection Eq' as <-. auto.
  - intros q Eq. assert (q <> p) by congruence. rewrite set_other by auto. rewrite C3. destruct (N.eqb_spec q y); auto. congruence.
Qed.
(** Its effect on the list, on other data, and on the pairs of the list. *)
Lemma relinked_reads : forall h h' a b p x R R' va vb, own h R -> own h' R' -> relinked h h' a b p x ->
  (forall q c e y, on_spine h a q -> cells h q = Some c -> body c = KPair e y -> ~ reach h [e] p) ->
  ~ reach h [b] p -> alive h b -> alive h' b -> alive h' a -> reads h a va -> reads h b vb ->
  reads h' a (joined va vb).
Proof.
  intros h h' a b p x R R' va vb O O' K NE NB Ab Ab' Aa Ra Rb.
  assert (OFF : forall e v, alive h e -> alive h' e -> ~ reach h [e] p -> reads h e v -> reads h' e v).
  { intros e v A1 A2 N Re. eapply (kept_reads [e]); [apply O| |apply reach_root; cbn; auto|exact Re].
    apply (kept_of [e] R R'); auto; try (intros r [<-|[]]; auto).
    intros q c c' Rq. apply (k_same _ _ _ _ _ _ K). intros ->. auto. }
  pose proof (k_spine _ _ _ _ _ _ K) as SP. revert va Ra Aa NE.
  induction SP as [p c x1 y1 E1 B1|a c x1 y1 p E1 B1 SP IH]; intros va Ra Aa NE.
  - destruct (k_last _ _ _ _ _ _ K) as [c0 [y [cy [E [Bc [Ey [Py [c' [E' [B' T']]]]]]]]]].
    rewrite E1 in E. injection E as <-. rewrite B1 in Bc. injection Bc as -> ->.
    inversion Ra as [? ? E2 B2|? ? E2 B2|? ? E2 B2|? ? ? E2 B2|? ? ? E2 B2|? ? ? E2 B2|? c2 x2 y2 vx vy E2 B2 Rx Ry]; subst;
      rewrite E1 in E2; injection E2 as <-; try congruence. rewrite B1 in B2. injection B2 as <- <-.
    assert (J : joined vy vb = vb).
    { unfold is_pair_c in Py. inversion Ry; subst; auto. rewrite Ey in H. injection H as <-. rewrite H0 in Py. discriminate. }
    cbn [joined]. rewrite J, <- T'. destruct (own_pair _ _ _ _ _ _ O E1 B1) as [Ax _]. destruct (own_pair _ _ _ _ _ _ O' E' B') as [Ax' _].
    eapply reads_pair; [exact E'|exact B'| |]; apply OFF; auto. apply (NE p c x y); auto. eapply spine_here; eauto.
  - destruct (N.eq_dec a p) as [->|Q].
    { (* impossible: the spine of p stops at p *)
      destruct (k_last _ _ _ _ _ _ K) as [c0 [y [cy [E [Bc [Ey [Py _]]]]]]]. exfalso.
      rewrite E1 in E. injection E as <-. rewrite B1 in Bc. injection Bc as -> ->.
      unfold is_pair_c in Py. inversion SP; subst; rewrite Ey in H; injection H as <-; rewrite H0 in Py; discriminate. }
    inversion Ra as [? ? E2 B2|? ? E2 B2|? ? E2 B2|? ? ? E2 B2|? ? ? E2 B2|? ? ? E2 B2|? c2 x2 y2 vx vy E2 B2 Rx Ry]; subst;
      rewrite E1 in E2; injection E2 as <-; try congruence. rewrite B1 in B2. injection B2 as <- <-.
    unfold alive in Aa. destruct (cells h' a) as [c'|] eqn:E'; [|congruence].
    pose proof (k_same _ _ _ _ _ _ K _ _ _ Q E1 E') as T. apply stored_eq in T. destruct T as [T1 [T2 _]]. rewrite B1 in T1.
    destruct (own_pair _ _ _ _ _ _ O E1 B1) as [Ax Ay]. destruct (own_pair _ _ _ _ _ _ O' E' T1) as [Ax' Ay'].
    cbn [joined]. rewrite <- T2. eapply reads_pair; [exact E'|exact T1| |].
    + apply OFF; auto. apply (NE a c x1 y1); auto. eapply spine_here; eauto.
    + apply IH; auto.
      * destruct K. constructor; auto.
      * intros q cq e y Hq. apply NE. eapply spine_next; eauto.
Qed.
Lemma relinked_spine : forall h h' a b p x R R' q, own h R -> own h' R' -> relinked h h' a b p x ->
  ~ reach h [b] p -> alive h b -> alive h' b -> on_spine h' a q -> on_spine h a q \/ on_spine h b q.
Proof.
  intros h h' a b p x R R' q O O' K NB Ab Ab' SQ.
  assert (KB : kept [b] h h').
  { apply (kept_of [b] R R'); auto; try (intros r [<-|[]]; auto).
    intros z c c' Rz. apply (k_same _ _ _ _ _ _ K). intros ->. auto. }
  assert (GB : forall q, on_spine h' b q -> on_spine h b q).
  { intros z Hz. eapply kept_spine; [apply O|exact KB|apply reach_root; cbn; auto|exact Hz]. }
  pose proof (k_spine _ _ _ _ _ _ K) as SP.
  destruct (k_last _ _ _ _ _ _ K) as [c0 [y [cy [E [Bc [Ey [Py [c' [E' [B' T']]]]]]]]]].
  assert (G : forall s q, on_spine h' s q -> on_spine h s p -> on_spine h s q \/ on_spine h b q).
  { clear q SQ. intros s q SQ. induction SQ as [s cs xs ys Es Bs|s cs xs ys q Es Bs SQ IH]; intro Hs.
    - left. inversion Hs; subst; eapply spine_here; eauto.
    - destruct (N.eq_dec s p) as [->|Q].
      + rewrite E' in Es. injection Es as <-. rewrite B' in Bs. injection Bs as <- <-. auto.
      + inversion Hs as [? c1 x1 y1 E1 B1|? c1 x1 y1 ? E1 B1 Hs']; subst; [congruence|].
        pose proof (k_same _ _ _ _ _ _ K _ _ _ Q E1 Es) as T. apply stored_eq in T. destruct T as [T1 _].
        rewrite B1, Bs in T1. injection T1 as -> ->. destruct (IH Hs') as [H|H]; auto. left. eapply spine_next; eauto. }
  apply G; auto.
Qed.

Section Steps.
Variables (h0 : heap) (F : list N) (B : list (N * atom)) (V0 : list N).
Notation at_ := (vat h0 F B V0).

(** What the last pair of a private list is not reachable from. *)
Lemma off_spine : forall h R w S O a p, holds h R -> lisp h w -> clear h S O -> In a R -> on_spine h a p -> S p ->
  forall q, reach h (held_by_lisp (aux h)) q -> q <> p.
Proof.
  intros h R w S O a p H L C Ia SP Spp q Rq.
  assert (NG : ~ In p (map snd (binds (aux h)))).
  { intro J. apply in_map_iff in J. destruct J as [[s kv] [E J]]. cbn in E. subst kv.
    destruct (alone_counts _ _ _ _ _ H L J) as [N1 [N2 _]].
    assert (G : forall a p, on_spine h a p -> p = a \/ exists z, In p (fields_at h z)).
    { intros a0 p0 S0. induction S0 as [a0 c x y E B0|a0 c x y p0 E B0 S0 IH]; auto. right.
      destruct IH as [->|Z]; auto. exists a0. eapply field_cdr; eauto. apply H. }
    destruct (G _ _ SP) as [->|[z Iz]]; auto. exact (N2 _ Iz). }
  assert (G : In q (map snd (binds (aux h))) \/ ~ S q).
  { induction Rq as [q I|q b Rq IH I].
    - unfold held_by_lisp in I. apply in_app_or in I. destruct I as [I|I]; auto. right. apply (c_lisp _ _ _ C). exact I.
    - right. destruct IH as [J|J].
      + apply in_map_iff in J. destruct J as [[s kv] [E J]]. cbn in E. subst kv. eapply c_glob; eauto.
      + intro Sb. apply J. eapply c_in; eauto. }
  intros ->. destruct G; auto.
Qed.

Lemma o_conc_core : forall n h w L P a va b vb, at_ h w ((a, va) :: (b, vb) :: L) P -> is_pair va = true ->
  solo h a (b :: heads L ++ heads P ++ F) ->
  wpv (hconc n a b) (fun r h' => r = a /\ at_ h' w ((a, joined va vb) :: L) P /\
    exists p x, relinked h h' a b p x /\ ~ reach h [b] p /\ alive h b /\ alive h' b) h.
Proof.
  intros n h w L P a va b vb H PV [S [C [Sp Ca]]].
  pose proof (vat_own _ _ _ _ _ _ _ _ H) as O. pose proof (v_holds _ _ _ _ _ _ _ _ H) as HH.
  pose proof (v_L _ _ _ _ _ _ _ _ H) as FL. inversion FL as [|? ? Ra FL1]; subst. inversion FL1 as [|? ? Rb _]; subst.
  unfold says in Ra, Rb. cbn [fst snd] in Ra, Rb.
  destruct (reads_shows _ _ _ Ra) as [c0 [E0 S0]]. pose proof (shows_pair _ _ _ S0) as P0. rewrite PV in P0.
  assert (O1 : own h (a :: b :: heads L ++ heads P ++ F ++ held_by_lisp (aux h))) by hown.
  eapply wpv_mono; [apply wpv_and; [exact (conc_cells n a b h _ c0 O1 E0 P0)|apply wp_wpv; apply (conc_spec n a b h _ 0%N O1 (young_zero _ _)); lia]|].
  intros r h' [[-> [p [x K]]] [O' [FZ _]]]. split; auto.
  pose proof (k_spine _ _ _ _ _ _ K) as SP. pose proof (Sp p SP) as Spp.
  assert (NB : ~ reach h [b] p).
  { intro Rp. apply (clear_reach h S [b] p); auto. eapply clear_sub; [|exact C]. intros z [<-|[]]. apply reach_root. cbn. auto. }
  assert (Ab : alive h b) by (eapply own_alive; [exact O1|cbn; auto]).
  destruct (k_last _ _ _ _ _ _ K) as [c1 [y [cy [E1 [B1 [Ey [Py [c1' [E1' [B1' T1']]]]]]]]]].
  assert (Ab' : alive h' b) by (apply (own_pair _ _ _ _ _ _ O' E1' B1')).
  assert (Aa' : alive h' a) by (eapply own_alive; [exact O'|cbn; auto]).
  assert (SP' : sep h [a; b] h' [a]).
  { split; [rewrite (k_nxt _ _ _ _ _ _ K); lia|]. intros T CT.
    assert (FP : forall q z, In z (fields_at h' q) -> In z (fields_at h q) \/ z = b).
    { intros q z I. unfold fields_at in I. destruct (cells h' q) as [c'|] eqn:E'; [|destruct I].
      destruct (N.eq_dec q p) as [->|Q].
      - rewrite E1' in E'. injection E' as <-. unfold fields in I. rewrite B1' in I.
        rewrite (proj2 O' _ _ E1') in I. destruct I as [<-|[<-|[]]]; auto. left. eapply field_car; eauto. apply O.
      - destruct (cells h q) as [c|] eqn:E; [|rewrite (k_dead _ _ _ _ _ _ K _ E) in E'; discriminate].
        left. rewrite <- (fields_stored h h' q c c' E E' (k_same _ _ _ _ _ _ K _ _ _ Q E E')). unfold fields_at. rewrite E'. auto. }
    assert (NTb : ~ T b) by (apply (c_held _ _ _ CT); cbn; auto).
    constructor.
    - intros q Tq. rewrite (k_nxt _ _ _ _ _ _ K). apply (c_below _ _ _ CT). auto.
    - intros q z I Tz. destruct (FP _ _ I) as [J| ->]; [eapply c_in; eauto|tauto].
    - intros q [<-|[]]. apply (c_held _ _ _ CT). cbn. auto.
    - rewrite (k_aux _ _ _ _ _ _ K). intros s kv z I Iz. destruct (FP _ _ Iz) as [J| ->]; auto. eapply c_glob; eauto.
    - rewrite (k_aux _ _ _ _ _ _ K). apply CT. }
  assert (SM : forall R, incl R ((heads ((a, va) :: (b, vb) :: L) ++ heads P ++ F) ++ held_by_lisp (aux h)) ->
             incl R (a :: heads L ++ heads P ++ F ++ held_by_lisp (aux h)) -> (forall q, reach h R q -> q <> p) -> kept R h h').
  { intros R I I' N. apply (kept_roots R _ _ _ _ O O' I I'). intros q c c' Rq. apply (k_same _ _ _ _ _ _ K). auto. }
  assert (KL : kept (held_by_lisp (aux h)) h h').
  { apply SM; [apply incl_appr, incl_refl|apply incl_tl, incl_appr, incl_appr, incl_appr, incl_refl|].
    apply (off_spine h _ w S _ a p HH (v_lisp _ _ _ _ _ _ _ _ H) C); auto. cbn. auto. }
  split.
  - apply (vat_step h0 F B V0 h w h' w [(a, va); (b, vb)] [(a, joined va vb)] L P [a; b]); auto.
    + intros z [<-|[<-|[]]]; apply reach_root; cbn; auto.
    + apply SM.
      * intros z I. apply in_or_app. left. cbn. auto.
      * intros z I. right. rewrite !app_assoc. apply in_or_app. left. rewrite <- app_assoc. exact I.
      * intros q Rq ->. eapply clear_reach; [exact C| |exact Spp]. eapply reach_sub; [|exact Rq]. apply incl_tl, incl_refl.
    + eapply holds_keep; [exact HH| |apply K|hown].
      constructor; eauto; [rewrite (k_nxt _ _ _ _ _ _ K); lia|intros q _; apply K|].
      intros q c c' E E'. destruct (N.eq_dec q p) as [->|Q].
      * right. rewrite E1 in E. injection E as <-. rewrite E1' in E'. injection E' as <-. exists x, y, b. split; auto. split; auto. left. eauto.
      * left. pose proof (k_same _ _ _ _ _ _ K _ _ _ Q E E') as T. apply stored_eq in T. tauto.
    + constructor; auto. unfold says. cbn [fst snd]. apply (relinked_reads h h' a b p x _ _ va vb O O' K); auto.
      intros q c e z Hq Eq Bq Re. eapply clear_reach; [|exact Re|exact Spp]. constructor; try apply C.
      intros t [<-|[]]. eapply Ca; eauto.
    + apply (lisp_same h w h' _ HH (v_lisp _ _ _ _ _ _ _ _ H)); auto; try apply K.
      * rewrite (k_nxt _ _ _ _ _ _ K). lia.
      * intros q c' s Lq E' Bs. destruct (cells h q) as [c|] eqn:E; [|rewrite (k_dead _ _ _ _ _ _ K _ E) in E'; discriminate].
        exists c. split; auto. destruct (N.eq_dec q p) as [->|Q]; [congruence|].
        pose proof (k_same _ _ _ _ _ _ K _ _ _ Q E E') as T. apply stored_eq in T. destruct T. congruence.
      * apply (alone_after h w h' [a; b] [a] _ (heads L ++ heads P ++ F) HH (v_lisp _ _ _ _ _ _ _ _ H) SP').
        -- intros z [<-|[<-|[]]]; apply reach_root; cbn; auto.
        -- intros z I. cbn. auto.
        -- apply K.
        -- hown.
    + rewrite (k_aux _ _ _ _ _ _ K). lia.
  - exists p, x. auto.
Qed.
Lemma joined_leaf : forall v w, is_pair v = false -> joined v w = w.
Proof. intros v w H. destruct v; auto; discriminate. Qed.
Lemma wpv_rd_leaf : forall {A} h a v (m1 m2 : HM A) Q, reads h a v -> is_pair v = false -> wpv m2 Q h ->
  wpv (c <- rd a ;; if is_pair_c c then m1 else m2) Q h.
Proof.
  intros A h a v m1 m2 Q R P W. apply wpv_bind. eapply wpv_mono; [apply (wpv_rd _ _ _ R)|]. intros c h' [-> [_ S]].
  rewrite (shows_pair _ _ _ S), P. exact W.
Qed.
Lemma o_conc : forall n h w L P a va b vb, at_ h w ((b, vb) :: L) ((a, va) :: P) ->
  wpv (hconc n a b) (fun r h' => at_ h' w ((r, joined va vb) :: L) P) h.
Proof.
  intros n h w L P a va b vb H. pose proof (v_P _ _ _ _ _ _ _ _ H) as FP. inversion FP as [|? ? Ra _]; subst.
  pose proof (v_solo _ _ _ _ _ _ _ _ H [] _ _ _ eq_refl) as SO. cbn [app] in SO.
  pose proof (vat_demote _ _ _ _ _ _ _ _ _ H) as H1. destruct (is_pair va) eqn:PV.
  - eapply wpv_mono; [apply (o_conc_core n _ _ _ _ _ _ _ _ H1 PV SO)|]. intros r h' [-> [H' _]]. exact H'.
  - eapply wpv_rd_leaf; [exact Ra|exact PV|]. apply wpv_bind. eapply wpv_mono; [apply (o_X _ _ _ _ _ _ _ _ _ _ H1)|].
    intros u h' H'. unfold wpv, done. rewrite joined_leaf; auto.
Qed.
(** Two private lists: so is the result. *)
Lemma o_pconc : forall n h w L P a va b vb, at_ h w L ((a, va) :: (b, vb) :: P) ->
  wpv (hconc n a b) (fun r h' => at_ h' w L ((r, joined va vb) :: P)) h.
Proof.
  intros n h w L P a va b vb H. pose proof (v_P _ _ _ _ _ _ _ _ H) as FP. inversion FP as [|? ? Ra _]; subst.
  pose proof (v_solo _ _ _ _ _ _ _ _ H [] _ _ _ eq_refl) as SA. cbn [app] in SA.
  pose proof (v_solo _ _ _ _ _ _ _ _ H [(a, va)] _ _ _ eq_refl) as SB. cbn [app] in SB.
  destruct (is_pair va) eqn:PV.
  2:{ apply vat_demote in H. eapply wpv_rd_leaf; [exact Ra|exact PV|]. apply wpv_bind. eapply wpv_mono; [apply (o_X _ _ _ _ _ _ _ _ _ _ H)|].
      intros u h' H'. unfold wpv, done. rewrite joined_leaf; auto. }
  pose proof (vat_swap _ _ _ _ _ _ _ _ _ _ H) as H1. apply vat_demote in H1. apply vat_demote in H1.
  pose proof (vat_own _ _ _ _ _ _ _ _ H1) as O. pose proof (v_holds _ _ _ _ _ _ _ _ H1) as HH.
  assert (SA' : solo h a (b :: heads L ++ heads P ++ F)).
  { destruct SA as [S [C R]]. exists S. split; auto. eapply clear_sub; [|exact C]. intros x Ix. apply reach_root.
    destruct Ix as [<-|Ix]; [apply in_or_app; right; cbn; auto|]. apply in_app_or in Ix. apply in_or_app. destruct Ix; auto. right. cbn. auto. }
  eapply wpv_mono; [apply (o_conc_core n _ _ _ _ _ _ _ _ H1 PV SA')|]. intros r h' [-> [H' [p [x [K [NB [Ab Ab']]]]]]].
  apply vat_promote; auto. pose proof (vat_own _ _ _ _ _ _ _ _ H') as O'.
  destruct SA' as [S [C [Sp Ca]]]. destruct SB as [S' [C' [Sp' Ca']]].
  assert (Ra' : reach h (heads L ++ heads ((a, va) :: P) ++ F) a) by (apply reach_root; apply in_or_app; right; cbn; auto).
  assert (Rb' : reach h (b :: heads L ++ heads P ++ F) b) by (apply reach_root; cbn; auto).
  assert (St : strong h) by apply O.
  assert (NL : forall c e y q, on_spine h a q -> cells h q = Some c -> body c = KPair e y -> ~ S e /\ ~ S' e).
  { intros c e y q Hq Eq Bq. split; [eapply Ca; eauto|]. eapply clear_reach; [exact C'|].
    eapply reach_step; [eapply spine_reach; [exact St|exact Ra'|exact Hq]|]. eapply field_car; eauto. }
  assert (NL' : forall c e y q, on_spine h b q -> cells h q = Some c -> body c = KPair e y -> ~ S e /\ ~ S' e).
  { intros c e y q Hq Eq Bq. split; [|eapply Ca'; eauto]. eapply clear_reach; [exact C|].
    eapply reach_step; [eapply spine_reach; [exact St|exact Rb'|exact Hq]|]. eapply field_car; eauto. }
  destruct (k_last _ _ _ _ _ _ K) as [c1 [y [cy [E1 [B1 [Ey [Py [c1' [E1' [B1' T1']]]]]]]]]].
  pose proof (k_spine _ _ _ _ _ _ K) as SP. pose proof (Sp p SP) as Spp.
  exists (fun q => S q \/ S' q). split; [constructor|split].
  - intros q [Q|Q]; rewrite (k_nxt _ _ _ _ _ _ K); [apply (c_below _ _ _ C)|apply (c_below _ _ _ C')]; auto.
  - intros q z I Tz. destruct (N.eq_dec q p) as [->|Q]; auto.
    unfold fields_at in I. destruct (cells h' q) as [c'|] eqn:E'; [|destruct I].
    destruct (cells h q) as [c|] eqn:E; [|rewrite (k_dead _ _ _ _ _ _ K _ E) in E'; discriminate].
    assert (J : In z (fields_at h q)).
    { rewrite <- (fields_stored h h' q c c' E E' (k_same _ _ _ _ _ _ K _ _ _ Q E E')). unfold fields_at. rewrite E'. auto. }
    destruct Tz as [Tz|Tz]; [left|right]; eapply c_in; eauto.
  - intros q Iq [Q|Q].
    + apply (c_held _ _ _ C q); auto. cbn. auto.
    + apply (c_held _ _ _ C' q); auto. apply in_app_or in Iq. apply in_or_app. destruct Iq; auto. right. cbn. auto.
  - rewrite (k_aux _ _ _ _ _ _ K). intros s kv z I Iz.
    destruct (N.eq_dec kv p) as [->|Q].
    { exfalso. apply (off_spine h _ w S _ a p HH (v_lisp _ _ _ _ _ _ _ _ H1) C) with (q := p); auto; [cbn; auto|].
      apply reach_root. eapply held_globals; eauto. }
    unfold fields_at in Iz. destruct (cells h' kv) as [c'|] eqn:E'; [|destruct Iz].
    destruct (cells h kv) as [c|] eqn:E; [|rewrite (k_dead _ _ _ _ _ _ K _ E) in E'; discriminate].
    assert (J : In z (fields_at h kv)).
    { rewrite <- (fields_stored h h' kv c c' E E' (k_same _ _ _ _ _ _ K _ _ _ Q E E')). unfold fields_at. rewrite E'. auto. }
    intros [Tz|Tz]; [eapply (c_glob _ _ _ C); eauto|eapply (c_glob _ _ _ C'); eauto].
  - rewrite (k_aux _ _ _ _ _ _ K). intros q Iq [Q|Q]; [eapply (c_lisp _ _ _ C); eauto|eapply (c_lisp _ _ _ C'); eauto].
  - intros q Hq. destruct (relinked_spine _ _ _ _ _ _ _ _ _ O O' K NB Ab Ab' Hq); auto.
  - intros q c e z Hq E Bc.
    assert (G : exists c0 z0, cells h q = Some c0 /\ body c0 = KPair e z0).
    { destruct (N.eq_dec q p) as [->|Q].
      - rewrite E1' in E. injection E as <-. rewrite B1' in Bc. injection Bc as <- <-. eauto.
      - destruct (cells h q) as [c0|] eqn:E0; [|rewrite (k_dead _ _ _ _ _ _ K _ E0) in E; discriminate].
        pose proof (k_same _ _ _ _ _ _ K _ _ _ Q E0 E) as T. apply stored_eq in T. destruct T as [T _]. rewrite Bc in T. eauto. }
    destruct G as [c0 [z0 [E0 B0]]].
    destruct (relinked_spine _ _ _ _ _ _ _ _ _ O O' K NB Ab Ab' Hq) as [Hs|Hs].
    + destruct (NL _ _ _ _ Hs E0 B0). tauto.
    + destruct (NL' _ _ _ _ Hs E0 B0). tauto.
Qed.

(** ** bind *)
Definition hasl (pv : bool) (h : heap) (w : Eval.world) (e : N * atom) (L P : list (N * atom)) : Prop :=
  if pv then at_ h w L (e :: P) else at_ h w (e :: L) P.
Lemma o_bind : forall pv n h w L P clos e arg av_ val vv,
  hasl pv h w (clos, atom_of_env e) ((arg, av_) :: (val, vv) :: L) P -> plain_names av_ = true ->
  wpv (hbind n clos arg val) (fun r h' => hasl pv h' w (r, atom_of_env (bind e av_ vv)) L P) h.
Proof.
  intros pv. induction n as [|n IH]; intros h w L P clos e arg av_ val vv H PN; [exact I|]. cbn [hbind].
  assert (Ra : reads h arg av_).
  { destruct pv; unfold hasl in H; pose proof (v_L _ _ _ _ _ _ _ _ H) as FL; rewrite Forall_forall in FL.
    - apply (FL (arg, av_)). cbn. auto.
    - apply (FL (arg, av_)). cbn. auto. }
  apply wpv_bind. eapply wpv_mono; [apply (wpv_rd _ _ _ Ra)|]. intros c h' [-> [Ec Sc]].
  assert (LEAF : is_pair av_ = false -> is_symb av_ = false ->
    wpv (X arg ;;; X val ;;; done clos) (fun r h' => hasl pv h' w (r, atom_of_env (bind e av_ vv)) L P) h).
  { intros NP NS. assert (E : bind e av_ vv = e) by (destruct av_; auto; discriminate). rewrite E.
    destruct pv; unfold hasl in *.
    - xX H arg. xX H val. exact H.
    - xX H arg. xX H val. exact H. }
  destruct av_ as [| | | | |t k|t s oth]; cbn in Sc; try (rewrite Sc; apply LEAF; reflexivity).
  - destruct Sc as [-> Tc]. cbn in PN. destruct t; [discriminate|]. cbn [bind atom_of_env].
    destruct pv; unfold hasl in *.
    + xcons H arg val kv. apply o_pcons. exact H.
    + xcons H arg val kv. eapply wpv_mono; [eapply o_cons; exact H|]. intros r h2 [_ [_ H2]]. exact H2.
  - destruct Sc as [p [q [-> _]]]. cbn in PN. apply andb_prop in PN. destruct PN as [P1 P2]. cbn [bind].
    destruct pv; unfold hasl in *.
    + xcar H s1. xcar H v1. xcdr H oth1. xcdr H rem1. xX H arg. xX H val.
      focus v1 H. focus s1 H. apply wpv_bind. eapply wpv_mono; [apply (IH _ _ _ _ _ _ _ _ _ _ H P1)|].
      intros cl0 h7 H7. cbv beta iota delta [hasl] in H7. focus oth1 H7. apply (IH _ _ _ _ _ _ _ _ _ _ H7 P2).
    + xcar H s1. xcar H v1. xcdr H oth1. xcdr H rem1. xX H arg. xX H val.
      focus v1 H. focus s1 H. focus clos H. apply wpv_bind. eapply wpv_mono; [apply (IH _ _ _ _ _ _ _ _ _ _ H P1)|].
      intros cl0 h7 H7. cbv beta iota delta [hasl] in H7. focus oth1 H7. focus cl0 H7. apply (IH _ _ _ _ _ _ _ _ _ _ H7 P2).
Qed.

(** ** dup *)
Fixpoint unflagged (v : atom) : atom := match v with Pair _ x y => Cons x (unflagged y) | _ => v end.
Lemma unflagged_env : forall e, unflagged (atom_of_env e) = atom_of_env e.
Proof. induction e as [|[k v] e IH]; cbn; congruence. Qed.
Lemma avail_adds : forall h h' R L a v, own h R -> (forall r, In r (heads L ++ heads B) -> alive h r) -> adds h h' ->
  avail h L B a v -> avail h' L B a v.
Proof.
  intros h h' R L a v O Al A [Rd Re]. split; [eapply reads_adds; eauto|]. eapply reach_kept; [|exact Re].
  eapply adds_kept; eauto.
Qed.
Lemma vat_roots : forall h w L P, at_ h w L P -> forall r, In r (heads L ++ heads B) -> alive h r.
Proof.
  intros h w L P H r I. apply in_app_or in I. destruct I as [I|I]; apply in_map_iff in I; destruct I as [[x v] [<- I]].
  - eapply avail_alive; [exact H|]. eapply avail_L; eauto.
  - eapply avail_alive; [exact H|]. eapply avail_B; eauto.
Qed.
Lemma o_dup : forall n h w L P a v, at_ h w L P -> avail h L B a v ->
  wpv (hdup n a) (fun r h' => at_ h' w L ((r, unflagged v) :: P)) h.
Proof.
  induction n as [|n IH]; intros h w L P a v H A; [exact I|]. cbn [hdup].
  apply wpv_bind. eapply wpv_mono; [apply (wpv_rd _ _ _ (proj1 A))|]. intros c h' [-> [Ec Sc]].
  assert (LEAF : is_pair v = false -> wpv (up a) (fun r h' => at_ h' w L ((r, unflagged v) :: P)) h).
  { intro NP. eapply wpv_mono; [apply (o_up _ _ _ _ _ _ _ _ _ _ H A)|]. intros r h' [-> H']. 
    assert (E : unflagged v = v) by (destruct v; auto; discriminate). rewrite E. apply vat_leaf; auto. }
  destruct v as [| | | | |t k|t x y]; cbn in Sc; try (rewrite Sc; apply LEAF; reflexivity); [destruct Sc as [-> _]; apply LEAF; reflexivity|].
  clear LEAF. destruct (avail_parts _ _ _ _ _ _ _ _ _ _ _ _ H A) as [c1 [p [q [E1 [B1 [T [Ap Aq]]]]]]].
  rewrite Ec in E1. injection E1 as <-. rewrite B1. pose proof (vat_own _ _ _ _ _ _ _ _ H) as O.
  apply wpv_bind. eapply wpv_mono.
  { apply wpv_and; [exact (IH _ _ _ _ _ _ H Aq)|apply wp_wpv; apply (dup_spec n q h _ O (avail_alive _ _ _ _ _ _ _ _ _ _ H Aq))]. }
  intros r h1 [H1 [_ [A1 _]]]. pose proof (avail_adds _ _ _ _ _ _ O (vat_roots _ _ _ _ H) A1 Ap) as Ap1.
  apply wpv_bind. eapply wpv_mono; [apply (o_up _ _ _ _ _ _ _ _ _ _ H1 Ap1)|]. intros p' h2 [-> H2].
  cbn [unflagged]. apply o_pcons. exact H2.
Qed.
End Steps.
