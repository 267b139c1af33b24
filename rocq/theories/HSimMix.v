(** * HSimMix: merging two scopes, and the resulting value. *)
From Verif Require Import Value Tails Print Heap HeapSpec HeapProofs HeapOps HEval HEvalSpec HEvalBase HEvalProofs ValueProofs HSimSpec HSimBase HSimOps HSimList.
From Verif Require Eval.
Open Scope nat_scope.
Open Scope heap_scope.

(** Dropping a reference changes nothing but counts, whatever the heap. *)
Lemma drop_shrinks : forall n a h h', drop n a h = Done tt h' -> shrinks h h'.
Proof.
  induction n as [|n IH]; intros a h h' D; [discriminate|]. cbn [drop] in D. unfold hbind_ at 1, rd in D.
  destruct (cells h a) as [c|] eqn:E; [|discriminate]. destruct (refs c) as [|r]; [discriminate|].
  unfold hbind_ at 1, wr in D. rewrite E in D. set (h1 := set_cell h a (Some (with_refs c r))) in D.
  assert (S1 : shrinks h h1).
  { split; auto. split; auto. intros q cq Eq. destruct (N.eq_dec q a) as [->|Q].
    - unfold h1 in Eq. rewrite set_same in Eq. injection Eq as <-. exists c. auto.
    - unfold h1 in Eq. rewrite set_other in Eq by auto. eauto. }
  assert (RL : forall h2 h3, release a h2 = Done tt h3 -> shrinks h2 h3).
  { intros h2 h3 R. unfold release in R. destruct (cells h2 a) as [ca|] eqn:Ea; [|discriminate]. injection R as <-.
    split; auto. split; auto. intros q cq Eq. destruct (N.eq_dec q a) as [->|Q].
    - rewrite set_same in Eq. discriminate.
    - rewrite set_other in Eq by auto. eauto. }
  destruct r as [|r]; [|injection D as <-; exact S1].
  destruct (body c) as [| | | | | |x y]; try (eapply shrinks_trans; [exact S1|apply RL; exact D]).
  unfold hbind_ at 1 in D.
  assert (exists h2, shrinks h1 h2 /\ hbind_ (rd a) (fun c' => match body c' with KPair _ y0 => drop n y0;;; release a | _ => wild end) h2 = Done tt h') as [h2 [S2 D2]].
  { destruct (weak c).
    - exists h1. split; [apply shrinks_refl|exact D].
    - destruct (drop n x h1) as [[] h2| | | | |] eqn:Dx; try discriminate. exists h2. split; [eapply IH; eauto|exact D]. }
  clear D. unfold hbind_ at 1, rd in D2. destruct (cells h2 a) as [c2|]; [|discriminate]. destruct (body c2) as [| | | | | |x2 y2]; try discriminate.
  unfold hbind_ in D2. destruct (drop n y2 h2) as [[] h3| | | | |] eqn:Dy; try discriminate.
  eapply shrinks_trans; [exact S1|]. eapply shrinks_trans; [exact S2|]. eapply shrinks_trans; [eapply IH; eauto|]. apply RL. exact D2.
Qed.
Lemma X_shrinks : forall a h, wpv (X a) (fun _ h' => shrinks h h') h.
Proof. intros a h. unfold wpv. destruct (X a h) as [[] h'| | | | |] eqn:D; auto. eapply drop_shrinks. exact D. Qed.

Section Merge.
(** The heap before, and what the scopes are reachable from. *)
Variables (h0 : heap) (V : list N) (z : N).
Hypothesis BD0 : forall a, alive h0 a -> (a < nxt h0)%N.
Hypothesis Rz : reads h0 z Nil.
Definition ent (kv : N) (p : symbol * atom) : Prop := reads h0 kv (Cons (Symb (fst p)) (snd p)) /\ reach h0 V kv.
(** The list of pairs [ps] with elements [kvs], as far as it is in use. *)
Fixpoint wl (h : heap) (a : N) (ps kvs : list N) : Prop :=
  match ps, kvs with
  | [], [] => a = z
  | p :: ps', kv :: kvs' => a = p /\ forall c, cells h a = Some c -> tail c = false /\ exists y, body c = KPair kv y /\ wl h y ps' kvs'
  | _, _ => False
  end.
Lemma wl_keep : forall h h' ps a kvs, (forall p c', In p ps -> cells h' p = Some c' -> exists c, cells h p = Some c /\ stored c' = stored c) ->
  wl h a ps kvs -> wl h' a ps kvs.
Proof.
  intros h h' ps. induction ps as [|p ps IH]; intros a [|kv kvs] K W; auto.
  destruct W as [-> W]. split; auto. intros c' E'. destruct (K p c') as [c [E T]]; [cbn; auto|auto|].
  apply stored_eq in T. destruct T as [T1 [T2 _]]. destruct (W c E) as [W1 [y [W2 W3]]]. split; [congruence|]. exists y. split; [congruence|].
  apply IH; auto. intros q cq Iq. apply K. cbn; auto.
Qed.
Lemma wl_in : forall h ps a kvs, wl h a ps kvs -> a = z /\ ps = [] \/ In a ps.
Proof. intros h [|p ps] a [|kv kvs] W; cbn in W; try tauto. destruct W as [-> _]. right. cbn. auto. Qed.

(** What the cells of the heap before are now. *)
Record old (h : heap) : Prop := mkold {
  o_nxt : (nxt h0 <= nxt h)%N;
  o_aux : aux h = aux h0;
  o_bounded : forall a, alive h a -> (a < nxt h)%N;
  o_same : forall q c', (q < nxt h0)%N -> cells h q = Some c' -> exists c, cells h0 q = Some c /\ stored c' = stored c
}.
Record listed (h : heap) (r : N) (ps kvs : list N) (e : env) : Prop := mklisted {
  l_wl : wl h r ps kvs;
  l_nodup : NoDup ps;
  l_new : forall p, In p ps -> (nxt h0 <= p < nxt h)%N;
  l_ents : Forall2 ent kvs e
}.
Lemma z_old : (z < nxt h0)%N.
Proof. apply BD0. destruct (reads_alive _ _ _ Rz) as [c E]. unfold alive. congruence. Qed.

(** A cell of the heap before, read now. *)
Lemma old_reads : forall h a v, old h -> reads h0 a v -> wpv (rd a) (fun c h' => h' = h /\ cells h a = Some c /\ shows h0 c v) h.
Proof.
  intros h a v O R. destruct (reads_shows _ _ _ R) as [c [E S]]. unfold wpv, rd. destruct (cells h a) as [c'|] eqn:E'; [|exact I].
  split; auto. split; auto. destruct (o_same _ O a c') as [c1 [E1 T]]; auto; [apply BD0; unfold alive; congruence|].
  rewrite E in E1. injection E1 as <-. apply stored_eq in T. destruct T as [T1 [T2 _]].
  destruct v; cbn in *; try (rewrite T1; exact S).
  - rewrite T1, T2. exact S.
  - destruct S as [p [q [S1 [S2 S3]]]]. exists p, q. split; [congruence|]. split; [congruence|auto].
Qed.
Lemma old_key : forall h kv p k, old h -> ent kv p ->
  wpv (CAR kv) (fun k' h' => h' = h /\ reads h0 k' (Symb (fst p))) h /\
  (reads h0 k (Symb (fst p)) -> wpv (symbol_of k) (fun s h' => h' = h /\ s = fst p) h).
Proof.
  intros h kv p k O [R _]. split.
  - apply wpv_bind. eapply wpv_mono; [apply (old_reads _ _ _ O R)|]. intros c h' [-> [E S]].
    destruct S as [x [y [-> [_ [Rx _]]]]]. unfold wpv, done. auto.
  - intro Rk. apply wpv_bind. eapply wpv_mono; [apply (old_reads _ _ _ O Rk)|]. intros c h' [-> [E S]]. destruct S as [-> _].
    unfold wpv, done. auto.
Qed.

(** A new pair in front. *)
Lemma cons_run : forall h root ps kvs e kv p, old h -> listed h root ps kvs e -> ent kv p ->
  wpv (hcons kv root) (fun r h' => old h' /\ listed h' r (r :: ps) (kv :: kvs) (p :: e) /\ r = nxt h /\ nxt h' = N.succ (nxt h) /\
    forall q, q <> r -> cells h' q = cells h q) h.
Proof.
  intros h root ps kvs e kv p O L K. unfold wpv, hcons, alloc.
  assert (NQ : forall q, q <> nxt h -> cells (fresh_heap h (KPair kv root)) q = cells h q).
  { intros q Q. cbn. apply N.eqb_neq in Q. rewrite Q. auto. }
  split; [constructor; cbn; auto; try apply O|split; [constructor|]].
  - pose proof (o_nxt _ O). lia.
  - intros a A. unfold alive in A. cbn in A. destruct (N.eqb_spec a (nxt h)); [lia|]. apply (o_bounded _ O) in A. lia.
  - intros q c' Lq E'. destruct (N.eqb_spec q (nxt h)); [pose proof (o_nxt _ O); lia|]. apply (o_same _ O); auto.
  - cbn [wl]. split; auto. intros c E. cbn in E. rewrite N.eqb_refl in E. injection E as <-. split; auto. exists root. split; auto.
    eapply wl_keep; [|apply (l_wl _ _ _ _ _ L)]. intros q c' Iq Eq. exists c'. split; auto.
    apply (l_new _ _ _ _ _ L) in Iq. cbn in Eq. destruct (N.eqb_spec q (nxt h)); [lia|]. auto.
  - constructor; [|apply L]. intro J. apply (l_new _ _ _ _ _ L) in J. lia.
  - cbn. intros q [<-|Iq]; [pose proof (o_nxt _ O); lia|]. apply (l_new _ _ _ _ _ L) in Iq. lia.
  - constructor; auto. apply L.
  - cbn. auto.
Qed.

Lemma sss_run : forall n h root ps kvs e kv k v, old h -> listed h root ps kvs e -> ent kv (k, v) ->
  wpv (hsss n root kv) (fun r h' => old h' /\ (nxt h <= nxt h')%N /\ exists ps' kvs', listed h' r ps' kvs' (sss e k v) /\
    incl ps ps' /\ (forall p, In p ps' -> In p ps \/ (nxt h <= p)%N) /\
    (forall q c', cells h' q = Some c' -> (q < nxt h)%N -> ~ In q ps -> exists c, cells h q = Some c /\ stored c' = stored c) /\
    (forall q, alive h' q -> (nxt h <= q)%N -> In q ps') /\
    (forall q c', (q < nxt h)%N -> cells h' q = Some c' -> alive h q)) h.
Proof.
  induction n as [|n IH]; intros h root ps kvs e kv k v O L K; [exact I|]. cbn [hsss].
  assert (CONS : sss e k v = (k, v) :: e -> wpv (hcons kv root) (fun r h' => old h' /\ (nxt h <= nxt h')%N /\ exists ps' kvs', listed h' r ps' kvs' (sss e k v) /\
    incl ps ps' /\ (forall p, In p ps' -> In p ps \/ (nxt h <= p)%N) /\
    (forall q c', cells h' q = Some c' -> (q < nxt h)%N -> ~ In q ps -> exists c, cells h q = Some c /\ stored c' = stored c) /\
    (forall q, alive h' q -> (nxt h <= q)%N -> In q ps') /\
    (forall q c', (q < nxt h)%N -> cells h' q = Some c' -> alive h q)) h).
  { intro ES. rewrite ES. eapply wpv_mono; [apply (cons_run _ _ _ _ _ _ _ O L K)|]. intros r h' [O' [L' [-> [N' Q']]]].
    split; auto. split; [lia|]. exists (nxt h :: ps), (kv :: kvs). split; auto. split; [apply incl_tl, incl_refl|].
    split; [intros p [<-|Ip]; auto; right; lia|]. split; [|split].
    - intros q c' E' Lq _. rewrite Q' in E' by lia. eauto.
    - intros q A Lq. apply (o_bounded _ O') in A. left. lia.
    - intros q c' Lq E'. rewrite Q' in E' by lia. unfold alive. congruence. }
  destruct ps as [|p ps].
  { pose proof (l_wl _ _ _ _ _ L) as W. destruct kvs; cbn in W; [|destruct W]. subst root.
    apply wpv_bind. eapply wpv_mono; [apply (old_reads _ _ _ O Rz)|]. intros c h' [-> [E S]].
    rewrite (shows_nil _ _ _ S). cbn [is_null]. apply CONS.
    pose proof (l_ents _ _ _ _ _ L) as FE. inversion FE. auto. }
  destruct kvs as [|kv1 kvs]; [destruct (l_wl _ _ _ _ _ L)|]. destruct (l_wl _ _ _ _ _ L) as [-> W].
  pose proof (l_ents _ _ _ _ _ L) as FE. inversion FE as [|? [k1 v1] ? e1 K1 FE1]; subst.
  pose proof (l_nodup _ _ _ _ _ L) as ND. inversion ND as [|? ? NI ND1]; subst.
  apply wpv_bind. unfold wpv at 1, rd. destruct (cells h p) as [c|] eqn:E; [|exact I].
  destruct (W c eq_refl) as [W1 [y [W2 W3]]]. unfold is_nil_c. rewrite W2.
  apply wpv_bind. unfold wpv at 1, CAR, rd, hbind_. rewrite E, W2. unfold done at 1.
  apply wpv_bind. unfold wpv at 1. rewrite (CDR_run _ _ _ _ _ E W2).
  apply wpv_bind. eapply wpv_mono; [apply (proj1 (old_key h kv1 _ 0%N O K1))|]. intros k' h' [-> Rk'].
  apply wpv_bind. eapply wpv_mono; [apply (proj2 (old_key h kv1 _ k' O K1) Rk')|]. intros s' h' [-> ->].
  apply wpv_bind. eapply wpv_mono; [apply (proj1 (old_key h kv _ 0%N O K))|]. intros k2 h' [-> Rk2].
  apply wpv_bind. eapply wpv_mono; [apply (proj2 (old_key h kv _ k2 O K) Rk2)|]. intros s2 h' [-> ->]. cbn [fst] in *.
  assert (LP : (nxt h0 <= p < nxt h)%N) by (apply (l_new _ _ _ _ _ L); cbn; auto).
  assert (LT : listed h y ps kvs e1).
  { constructor; auto. intros q Iq. apply (l_new _ _ _ _ _ L). cbn; auto. }
  cbn [sss] in CONS |- *. destruct (sym_compare k1 k) eqn:CMP; [|clear CONS|apply CONS; auto].
  - clear CONS. apply wpv_bind. unfold wpv at 1, rd. rewrite E, W2. apply wpv_bind. unfold wpv at 1, wr. rewrite E.
    set (h1 := set_cell h p (Some (with_body c (KPair kv y)))).
    apply wpv_bind. eapply wpv_mono; [apply X_shrinks|]. intros u h2 [S1 [S2 S3]]. unfold wpv, done.
    assert (C2 : forall q c', cells h2 q = Some c' -> q <> p -> exists c0, cells h q = Some c0 /\ stored c' = stored c0).
    { intros q c' Eq Q. destruct (S3 _ _ Eq) as [c1 [E1 T1]]. unfold h1 in E1. rewrite set_other in E1 by auto. eauto. }
    assert (O2 : old h2).
    { constructor.
      - rewrite S1. apply O.
      - rewrite S2. apply O.
      - intros a A. rewrite S1. unfold alive in A. destruct (cells h2 a) as [ca|] eqn:Ea; [|congruence]. unfold h1; cbn.
        destruct (N.eq_dec a p) as [->|Q]; [lia|]. destruct (C2 _ _ Ea Q) as [c0 [E0 _]]. apply (o_bounded _ O). unfold alive; congruence.
      - intros q c' Lq Eq. destruct (C2 _ _ Eq) as [c0 [E0 T0]]; [lia|]. destruct (o_same _ O q c0 Lq E0) as [c1 [E1 T1]]. exists c1. split; congruence. }
    assert (N2 : nxt h2 = nxt h) by (rewrite S1; auto).
    split; auto. split; [lia|]. exists (p :: ps), (kv :: kvs). split; [constructor|]; auto.
    + cbn [wl]. split; auto. intros c' E'. destruct (S3 _ _ E') as [c1 [E1 T1]]. unfold h1 in E1. rewrite set_same in E1. injection E1 as <-.
      apply stored_eq in T1. destruct T1 as [T1 [T2 _]]. split; [rewrite T2; exact W1|]. exists y. split; auto.
      eapply wl_keep; [|exact W3]. intros q cq Iq Eq. apply C2; auto. intros ->. auto.
    + intros q Iq. rewrite N2. apply (l_new _ _ _ _ _ L); auto.
    + split; [apply incl_refl|]. split; auto. split; [|split].
      * intros q c' Eq Lq NQ. apply C2; auto. intros ->. apply NQ. cbn. auto.
      * intros q A Lq. apply (o_bounded _ O2) in A. lia.
      * intros q c' Lq Eq. destruct (N.eq_dec q p) as [->|Q]; [unfold alive; congruence|]. destruct (C2 _ _ Eq Q) as [c0 [E0 _]]. unfold alive; congruence.
  - apply wpv_bind. eapply wpv_mono; [apply (IH _ _ _ _ _ _ _ _ O LT K)|].
    intros r h1 [O1 [N1 [ps1 [kvs1 [L1 [I1 [J1 [C1 [A1 D1]]]]]]]]].
    apply wpv_bind. unfold wpv at 1, rd. destruct (cells h1 p) as [c1|] eqn:E1; [|exact I].
    destruct (C1 p c1 E1) as [c0 [E0 T0]]; [lia|auto|]. rewrite E in E0. injection E0 as <-.
    apply stored_eq in T0. destruct T0 as [T1 [T2 _]]. rewrite T1, W2.
    assert (NP1 : ~ In p ps1). { intro J. destruct (J1 _ J) as [J2|J2]; [auto|lia]. }
    unfold wpv, hbind_, wr, done. rewrite E1. set (h2 := set_cell h1 p (Some (with_body c1 (KPair kv1 r)))).
    assert (C2 : forall q, q <> p -> cells h2 q = cells h1 q) by (intros q Q; unfold h2; rewrite set_other; auto).
    assert (O2 : old h2).
    { constructor; try apply O1.
      - intros a A. apply (o_bounded _ O1). unfold alive in *. destruct (N.eq_dec a p) as [->|Q]; [congruence|]. rewrite C2 in A; auto.
      - intros q c' Lq Eq. rewrite C2 in Eq by lia. apply (o_same _ O1); auto. }
    split; auto. split; [exact N1|]. exists (p :: ps1), (kv1 :: kvs1). split; [constructor|].
    + cbn [wl]. split; auto. intros c' E'. unfold h2 in E'. rewrite set_same in E'. injection E' as <-. cbn. split; [congruence|].
      exists r. split; auto. eapply wl_keep; [|apply (l_wl _ _ _ _ _ L1)]. intros q cq Iq Eq. rewrite C2 in Eq by congruence. eauto.
    + constructor; auto. apply L1.
    + intros q [<-|Iq]; [change (nxt h2) with (nxt h1); lia|apply (l_new _ _ _ _ _ L1); auto].
    + constructor; auto. apply L1.
    + split; [apply incl_cons; [cbn; auto|apply incl_tl; auto]|]. split; [|split; [|split]].
      * intros q [<-|Iq]; [left; cbn; auto|]. destruct (J1 _ Iq); auto. left. cbn. auto.
      * intros q c' Eq Lq NQ. rewrite C2 in Eq by (intros ->; apply NQ; cbn; auto). apply C1; auto. intro J. apply NQ. cbn; auto.
      * intros q A Lq. destruct (N.eq_dec q p) as [->|Q]; [cbn; auto|]. right. apply A1; auto. unfold alive in *. rewrite C2 in A; auto.
      * intros q c' Lq Eq. destruct (N.eq_dec q p) as [->|Q]; [unfold alive; congruence|]. rewrite C2 in Eq by auto. eapply D1; eauto.
Qed.

(** Every cell added belongs to the list. *)
Definition full (h : heap) (ps : list N) : Prop := forall q, alive h q -> (nxt h0 <= q)%N -> In q ps.

Lemma up_run : forall h a, old h ->
  wpv (up a) (fun r h' => r = a /\ old h' /\ nxt h' = nxt h /\ forall q c', cells h' q = Some c' -> exists c, cells h q = Some c /\ stored c' = stored c) h.
Proof.
  intros h a O. unfold wpv, up, rd, wr, hbind_, done. destruct (cells h a) as [c|] eqn:E; [|exact I]. rewrite E.
  split; auto. set (h' := set_cell h a (Some (with_refs c (S (refs c))))).
  assert (C : forall q c', cells h' q = Some c' -> exists c0, cells h q = Some c0 /\ stored c' = stored c0).
  { intros q c' Eq. unfold h' in Eq. destruct (N.eq_dec q a) as [->|Q]; [rewrite set_same in Eq; injection Eq as <-; eauto|].
    rewrite set_other in Eq by auto. eauto. }
  split; [|split; auto]. constructor; try apply O.
  - intros q A. unfold alive in A. destruct (cells h' q) as [cq|] eqn:Eq; [|congruence]. destruct (C _ _ Eq) as [c0 [E0 _]].
    apply (o_bounded _ O). unfold alive. congruence.
  - intros q c' Lq Eq. destruct (C _ _ Eq) as [c0 [E0 T0]]. destruct (o_same _ O q c0 Lq E0) as [c1 [E1 T1]]. exists c1. split; congruence.
Qed.
Lemma listed_keep : forall h h' r ps kvs e, listed h r ps kvs e -> nxt h' = nxt h ->
  (forall q c', cells h' q = Some c' -> exists c, cells h q = Some c /\ stored c' = stored c) -> listed h' r ps kvs e.
Proof.
  intros h h' r ps kvs e [A B C D] N K. constructor; auto; [|rewrite N; auto]. eapply wl_keep; [|exact A]. auto.
Qed.
Lemma merge_run : forall n h root ps kvs e elt a, old h -> listed h root ps kvs e -> full h ps ->
  reads h0 elt (atom_of_env a) -> reach h0 V elt -> strong h0 -> a <> [] ->
  wpv (hmerge_loop n root elt) (fun r h' => old h' /\ exists ps' kvs', listed h' r ps' kvs' (merge e a) /\ full h' ps') h.
Proof.
  induction n as [|n IH]; intros h root ps kvs e elt a O L FU R RV St NE; [exact I|]. cbn [hmerge_loop].
  destruct a as [|[k v] a]; [congruence|]. cbn [atom_of_env] in R.
  destruct (reads_shows _ _ _ R) as [c [E S]]. destruct S as [x [y [Bc [_ [Rx Ry]]]]].
  assert (RVx : reach h0 V x) by (eapply reach_step; [exact RV|eapply field_car; eauto]).
  assert (RVy : reach h0 V y) by (eapply reach_step; [exact RV|eapply field_cdr; eauto]).
  assert (PR : forall h, old h -> wpv (CAR elt) (fun q h' => h' = h /\ q = x) h /\ wpv (CDR elt) (fun q h' => h' = h /\ q = y) h).
  { intros h1 O1. assert (G : forall c', cells h1 elt = Some c' -> body c' = KPair x y).
    { intros c' E'. destruct (o_same _ O1 elt c') as [c1 [E1 T1]]; auto; [apply BD0; unfold alive; congruence|].
      rewrite E in E1. injection E1 as <-. apply stored_eq in T1. destruct T1. congruence. }
    split; unfold wpv, CAR, CDR, rd, hbind_; (destruct (cells h1 elt) as [c'|] eqn:E'; [|exact I]); rewrite (G c' eq_refl); cbn; auto. }
  apply wpv_bind. eapply wpv_mono; [apply (proj1 (PR h O))|]. intros q h1 [-> ->].
  apply wpv_bind. eapply wpv_mono; [apply (up_run h x O)|]. intros x' h1 [-> [O1 [N1 C1]]].
  pose proof (listed_keep _ _ _ _ _ _ L N1 C1) as L1.
  assert (KX : ent x (k, v)) by (split; auto).
  apply wpv_bind. eapply wpv_mono; [apply (sss_run n h1 root ps kvs e x k v O1 L1 KX)|].
  intros r h2 [O2 [N2 [ps2 [kvs2 [L2 [I2 [J2 [C2 [A2 D2]]]]]]]]].
  assert (FU2 : full h2 ps2).
  { intros q A Lq. destruct (N.lt_ge_cases q (nxt h1)) as [Q|Q]; [|apply A2; auto]. apply I2. apply FU; auto.
    unfold alive in A. destruct (cells h2 q) as [cq|] eqn:Eq; [|congruence]. pose proof (D2 _ _ Q Eq) as A1.
    unfold alive in A1. destruct (cells h1 q) as [c1|] eqn:E1; [|congruence]. destruct (C1 _ _ E1) as [c0 [E0 _]]. unfold alive. congruence. }
  apply wpv_bind. eapply wpv_mono; [apply (proj2 (PR h2 O2))|]. intros q h3 [-> ->].
  apply wpv_bind. eapply wpv_mono; [apply (old_reads _ _ _ O2 Ry)|]. intros cy h3 [-> [Ey Sy]].
  rewrite (shows_pair _ _ _ Sy). cbn [merge]. destruct a as [|[k1 v1] a]; cbn [atom_of_env is_pair].
  - unfold wpv, done. split; auto. exists ps2, kvs2. auto.
  - apply (IH _ _ _ _ _ _ _ O2 L2 FU2 Ry RVy St). congruence.
Qed.

End Merge.

(** The copy of a scope. *)
Lemma dup_run : forall h0 V e a, (forall a, alive h0 a -> (a < nxt h0)%N) -> strong h0 -> reads h0 a (atom_of_env e) -> reach h0 V a ->
  exists z, reads h0 z Nil /\ reach h0 V z /\ forall n h, old h0 h -> full h0 h [] ->
    wpv (hdup n a) (fun r h' => old h0 h' /\ exists ps kvs, listed h0 V z h' r ps kvs e /\ full h0 h' ps) h.
Proof.
  intros h0 V e. induction e as [|[k v] e IH]; intros a BD St R RV; cbn [atom_of_env] in R.
  - exists a. split; auto. split; auto. intros [|n] h O FU; [exact I|]. cbn [hdup].
    apply wpv_bind. eapply wpv_mono; [apply (old_reads h0 BD _ _ _ O R)|]. intros c h1 [-> [E S]]. cbn in S. rewrite S.
    eapply wpv_mono; [apply (up_run h0 _ a O)|]. intros r h1 [-> [O1 [N1 C1]]]. split; auto. exists [], []. split.
    + constructor; cbn; auto; [constructor|tauto].
    + intros q A Lq. apply FU; auto. unfold alive in *. destruct (cells h1 q) as [cq|] eqn:Eq; [|congruence]. destruct (C1 _ _ Eq) as [c0 [E0 _]]. congruence.
  - destruct (reads_shows _ _ _ R) as [c [E S]]. destruct S as [x [y [Bc [Tc [Rx Ry]]]]].
    assert (RVx : reach h0 V x) by (eapply reach_step; [exact RV|eapply field_car; eauto]).
    assert (RVy : reach h0 V y) by (eapply reach_step; [exact RV|eapply field_cdr; eauto]).
    destruct (IH y BD St Ry RVy) as [z [Rz [RVz D]]]. exists z. split; auto. split; auto. intros [|n] h O FU; [exact I|]. cbn [hdup].
    apply wpv_bind. unfold wpv at 1, rd. destruct (cells h a) as [c'|] eqn:E'; [|exact I].
    destruct (o_same _ _ O a c') as [c1 [E1 T1]]; auto; [apply BD; unfold alive; congruence|].
    rewrite E in E1. injection E1 as <-. apply stored_eq in T1. destruct T1 as [T1 _]. rewrite T1, Bc.
    apply wpv_bind. eapply wpv_mono; [apply (D n h O FU)|]. intros r h1 [O1 [ps [kvs [L1 FU1]]]].
    apply wpv_bind. eapply wpv_mono; [apply (up_run h0 _ x O1)|]. intros x' h2 [-> [O2 [N2 C2]]].
    pose proof (listed_keep _ _ _ _ _ _ _ _ _ L1 N2 C2) as L2.
    eapply wpv_mono; [eapply cons_run with (p := (k, v)); [exact BD|exact O2|exact L2|split; auto]|].
    intros r3 h3 [O3 [L3 [-> [N3 Q3]]]]. split; auto. exists (nxt h2 :: ps), (x :: kvs). split; auto.
    intros q A Lq. destruct (N.eq_dec q (nxt h2)) as [->|Q]; [cbn; auto|]. right. apply FU1; auto. unfold alive in *. rewrite Q3 in A by auto.
    destruct (cells h2 q) as [cq|] eqn:Eq; [|congruence]. destruct (C2 _ _ Eq) as [c0 [E0 _]]. congruence.
Qed.

(** What the list says. *)
Lemma listed_reads : forall h0 V z h' R R' ps r kvs e, own h0 R -> own h' R' -> old h0 h' -> reads h0 z Nil ->
  wl z h' r ps kvs -> Forall2 (ent h0 V) kvs e -> alive h' r -> reads h' r (atom_of_env e).
Proof.
  intros h0 V z h' R R' ps. induction ps as [|p ps IH]; intros r kvs e O O' OL Rz W FE A; destruct kvs as [|kv kvs]; cbn in W; try tauto.
  - subst r. inversion FE; subst. cbn. pose proof (old_reads h0 (fun a => own_bounded _ _ _ O) h' z Nil OL Rz) as G.
    unfold wpv, rd in G. unfold alive in A. destruct (cells h' z) as [c|] eqn:E; [|congruence]. destruct G as [_ [_ S]].
    eapply reads_nil; eauto.
  - destruct W as [-> W]. inversion FE as [|? [k v] ? e1 [K1 _] FE1]; subst. cbn [atom_of_env].
    unfold alive in A. destruct (cells h' p) as [c|] eqn:E; [|congruence]. destruct (W c eq_refl) as [W1 [y [W2 W3]]].
    destruct (own_pair _ _ _ _ _ _ O' E W2) as [A1 A2].
    cbn [fst snd] in K1. pose proof (reads_pair h' p c kv y (Cons (Symb k) v) (atom_of_env e1) E W2) as G. rewrite W1 in G. apply G; clear G.
    + eapply (kept_reads [kv]); [apply O| |apply reach_root; cbn; auto|exact K1].
      destruct (reads_alive _ _ _ K1) as [ck Ek].
      apply (kept_of [kv] R R'); auto.
      * intros q [<-|[]]. unfold alive. congruence.
      * intros q [<-|[]]. auto.
      * intros q cq cq' _ Eq Eq'. destruct (o_same _ _ OL q cq') as [c0 [E0 T0]]; auto; [|congruence].
        eapply own_bounded; [exact O|unfold alive; congruence].
    + apply (IH y kvs e1); auto.
Qed.
Section Steps.
Variables (h0 : heap) (F : list N) (B : list (N * atom)) (V0 : list N).
Notation at_ := (vat h0 F B V0).
Lemma o_mix : forall n h w L P c ce e ee, at_ h w L P -> avail h L B c (atom_of_env ce) -> In (e, atom_of_env ee) L ->
  wpv (hmix n c e) (fun r h' => at_ h' w ((r, atom_of_env (merge ce ee)) :: L) P) h.
Proof.
  intros n h w L P c ce e ee H AC IE. pose proof (vat_own _ _ _ _ _ _ _ _ H) as O. pose proof (proj2 O) as St.
  pose proof (avail_L _ _ _ _ _ _ _ _ _ _ H IE) as AE.
  assert (BD : forall a, alive h a -> (a < nxt h)%N) by (intro a; eapply own_bounded; eauto).
  set (V := [c; e]).
  assert (RC : reach h V c) by (apply reach_root; cbn; auto). assert (RE : reach h V e) by (apply reach_root; cbn; auto).
  destruct (dup_run h V ce c BD St (proj1 AC) RC) as [z [Rz [RVz DR]]].
  assert (OH : old h h) by (constructor; auto; [lia|eauto]).
  assert (FH : full h h []) by (intros q A Lq; apply BD in A; lia).
  assert (RUN : wpv (hmix n c e) (fun r h' => old h h' /\ exists ps kvs, listed h V z h' r ps kvs (merge ce ee) /\ full h h' ps) h).
  { unfold hmix. apply wpv_bind. eapply wpv_mono; [apply (DR n h OH FH)|]. intros r0 h1 [O1 [ps [kvs [L1 FU1]]]].
    unfold hmerge. apply wpv_bind. eapply wpv_mono; [apply (old_reads h BD _ _ _ O1 (proj1 AE))|]. intros c1 h2 [-> [E1 S1]].
    rewrite (shows_nil _ _ _ S1). destruct ee as [|[k v] ee].
    - cbn. unfold wpv, done. split; auto. exists ps, kvs. auto.
    - cbn [atom_of_env is_null]. apply (merge_run h V z BD Rz n h1 r0 ps kvs ce e ((k, v) :: ee) O1 L1 FU1 (proj1 AE) RE St). discriminate. }
  assert (EIN : In e ((heads L ++ heads P ++ F) ++ held_by_lisp (aux h))).
  { apply in_or_app. left. apply in_or_app. left. eapply heads_in; eauto. }
  eapply wpv_mono; [apply wpv_and; [exact RUN|apply wp_wpv; apply (dup_merge_spec n n c e h _ O (avail_alive _ _ _ _ _ _ _ _ _ _ H AC) EIN)]|].
  intros r h' [[OL [ps [kvs [LS FU]]]] [O' _]]. pose proof (proj2 O') as St'.
  apply (vat_calm h0 F B V0 h w h' [] [(r, atom_of_env (merge ce ee))] L P V); auto.
  - cbn [app]. intros x [<-|[<-|[]]]; [apply AC|apply AE].
  - constructor.
    + apply OL.
    + apply OL.
    + intros a La Ea. destruct (cells h' a) as [c'|] eqn:E'; auto. destruct (o_same _ _ OL a c' La E') as [c0 [E0 _]]. congruence.
    + intros a c0 c' E0 E'. destruct (o_same _ _ OL a c') as [c1 [E1 T1]]; auto; [apply BD; unfold alive; congruence|congruence].
    + intros a b Ea Ib. assert (Aa : alive h' a) by (unfold alive, fields_at in *; destruct (cells h' a); [congruence|destruct Ib]).
      assert (La : (nxt h <= a)%N).
      { destruct (N.lt_ge_cases a (nxt h)) as [Q|Q]; auto. unfold alive in Aa. destruct (cells h' a) as [c'|] eqn:E'; [|congruence].
        destruct (o_same _ _ OL a c' Q E') as [c0 [E0 _]]. congruence. }
      pose proof (FU a Aa La) as Ia. unfold alive in Aa. destruct (cells h' a) as [c'|] eqn:E'; [|congruence].
      assert (Ab : alive h' b) by (eapply fields_alive; [apply O'|eauto]).
      destruct (N.lt_ge_cases b (nxt h)) as [Q|Q]; auto. right.
      destruct LS as [W ND NW FE].
      assert (G : forall ps r kvs e, wl z h' r ps kvs -> Forall2 (ent h V) kvs e -> In a ps -> (forall p, In p ps -> (nxt h <= p)%N) -> alive h' r -> reach h V b).
      { clear W ND NW FE FU Ia ps kvs. induction ps as [|p ps IH]; intros r1 kvs e1 W FE Ia NW Ar; [destruct Ia|].
        destruct kvs as [|kv kvs]; [destruct W|]. destruct W as [-> W]. inversion FE as [|? ? ? e2 K1 FE1]; subst.
        unfold alive in Ar. destruct (cells h' p) as [cp|] eqn:Ep; [|congruence]. destruct (W cp eq_refl) as [W1 [y9 [W2 W3]]].
        destruct Ia as [<-|Ia].
        - unfold fields_at, fields in Ib. rewrite Ep, W2, (St' _ _ Ep) in Ib. destruct Ib as [<-|[<-|[]]]; [apply K1|].
          destruct (wl_in _ _ _ _ _ W3) as [[-> _]|I]; auto. assert (nxt h <= y9)%N by (apply NW; cbn; auto). lia.
        - eapply IH; eauto; [intros q Iq; apply NW; cbn; auto|]. apply (own_pair _ _ _ _ _ _ O' Ep W2). }
      eapply G; eauto; [intros p Ip; apply NW; auto|]. eapply own_alive; [exact O'|cbn; auto].
    + cbn. intros a [<-|[]]. destruct LS as [W ND NW FE]. destruct (wl_in _ _ _ _ _ W) as [[-> _]|I]; auto.
      left. apply NW. auto.
  - constructor; auto. unfold says. cbn [fst snd]. destruct LS as [W ND NW FE].
    eapply (listed_reads h V z h' _ _ ps r kvs _ O O' OL Rz W FE). eapply own_alive; [exact O'|cbn; auto].
Qed.
End Steps.
