(** * HSimState: assignments, channels and output on a heap that stands for values. *)
From Verif Require Import Value Tails Print Heap HeapSpec HeapProofs HeapOps HEval HEvalSpec HEvalBase HEvalProofs ValueProofs HSimSpec HSimBase HSimOps HSimList HSimMix HSimPure HSimLisp.
From Verif Require Eval.
Open Scope nat_scope.
Open Scope heap_scope.

Lemma swap_run : forall h d cd kd o e ce ke x, cells h d = Some cd -> body cd = KPair kd o -> cells h e = Some ce -> body ce = KPair ke x -> e <> d ->
  swap_values d e h = Done tt (set_cell (set_cell h d (Some (with_body cd (KPair kd x)))) e (Some (with_body ce (KPair ke o)))).
Proof.
  intros h d cd kd o e ce ke x Ed Bd Ee Be NE. unfold swap_values, hbind_.
  rewrite (CDR_run _ _ _ _ _ Ee Be), (CDR_run _ _ _ _ _ Ed Bd), (set_cdr_run _ _ _ _ _ x Ed Bd).
  apply set_cdr_run with (y := x); auto. rewrite set_other; auto.
Qed.
Lemma swapped_fields : forall h d cd kd o e ce ke x a b, strong h ->
  cells h d = Some cd -> body cd = KPair kd o -> cells h e = Some ce -> body ce = KPair ke x -> e <> d ->
  In b (fields_at (set_cell (set_cell h d (Some (with_body cd (KPair kd x)))) e (Some (with_body ce (KPair ke o)))) a) ->
  In b (fields_at h a) \/ a = d /\ b = x \/ a = e /\ b = o.
Proof.
  intros h d cd kd o e ce ke x a b St Ed Bd Ee Be NE. unfold fields_at at 1. destruct (N.eq_dec a e) as [->|N1].
  - rewrite set_same. unfold fields. cbn. rewrite (St _ _ Ee). intros [<-|[<-|[]]]; auto. left. eapply field_car; eauto.
  - rewrite set_other by auto. destruct (N.eq_dec a d) as [->|N2].
    + rewrite set_same. unfold fields. cbn. rewrite (St _ _ Ed). intros [<-|[<-|[]]]; auto. left. eapply field_car; eauto.
    + rewrite set_other by auto. auto.
Qed.

(** Cells may go; those that stay have the same fields. *)
Record quiet (h h' : heap) : Prop := mkquiet {
  q_nxt : nxt h' = nxt h;
  q_same : forall a c', cells h' a = Some c' -> exists c, cells h a = Some c /\ stored c' = stored c
}.
Lemma quiet_refl : forall h, quiet h h.
Proof. intro h. constructor; eauto. Qed.
Lemma quiet_trans : forall h1 h2 h3, quiet h1 h2 -> quiet h2 h3 -> quiet h1 h3.
Proof.
  intros h1 h2 h3 [A B] [C D]. constructor; [congruence|]. intros a c3 E3. destruct (D _ _ E3) as [c2 [E2 T2]].
  destruct (B _ _ E2) as [c1 [E1 T1]]. exists c1. split; auto. congruence.
Qed.
Lemma quiet_fields : forall h h' a b, quiet h h' -> In b (fields_at h' a) -> In b (fields_at h a).
Proof.
  intros h h' a b Q I. unfold fields_at in I. destruct (cells h' a) as [c'|] eqn:E'; [|destruct I].
  destruct (q_same _ _ Q _ _ E') as [c [E T]]. assert (I' : In b (fields_at h' a)) by (unfold fields_at; rewrite E'; auto).
  rewrite (fields_stored _ _ _ _ _ E E' T) in I'. auto.
Qed.
Lemma quiet_spine : forall h h' a p, quiet h h' -> on_spine h' a p -> on_spine h a p.
Proof.
  intros h h' a p Q S. induction S as [a c' x y E' Bc|a c' x y p E' Bc S IH]; destruct (q_same _ _ Q _ _ E') as [c [E T]];
    apply stored_eq in T; destruct T as [T _]; rewrite Bc in T.
  - eapply spine_here; eauto.
  - eapply spine_next; eauto.
Qed.
Lemma quiet_up : forall a h, wpv (up a) (fun r h' => r = a /\ quiet h h' /\ aux h' = aux h) h.
Proof.
  intros a h. unfold wpv, up, rd, wr, hbind_, done. destruct (cells h a) as [c|] eqn:E; [|exact I]. rewrite E.
  split; auto. split; auto. constructor; auto. intros q c' E'. destruct (N.eq_dec q a) as [->|N1].
  - rewrite set_same in E'. injection E' as <-. exists c. auto.
  - rewrite set_other in E' by auto. eauto.
Qed.
Lemma shrinks_quiet : forall h h', shrinks h h' -> quiet h h' /\ aux h' = aux h.
Proof.
  intros h h' [S1 [S2 S3]]. split; auto. constructor; auto.
Qed.
Lemma quiet_X : forall a h, wpv (X a) (fun _ h' => quiet h h' /\ aux h' = aux h) h.
Proof. intros a h. eapply wpv_mono; [apply X_shrinks|]. intros u h' S. apply shrinks_quiet. auto. Qed.
Lemma clear_quiet : forall h h' S O O', quiet h h' -> aux h' = aux h -> clear h S O -> (forall a, In a O' -> ~ S a) -> clear h' S O'.
Proof.
  intros h h' S O O' Q A C N1. constructor; auto.
  - rewrite (q_nxt _ _ Q). apply C.
  - intros a b I. apply (c_in _ _ _ C a b). eapply quiet_fields; eauto.
  - rewrite A. intros s kv b I J. apply (c_glob _ _ _ C s kv b I). eapply quiet_fields; eauto.
  - rewrite A. apply (c_lisp _ _ _ C).
Qed.

Section Steps.
Variable allowed : event -> bool.
Hypothesis NoAny : allowed AssignsAny = false.
Variables (h0 : heap) (F : list N) (B : list (N * atom)) (V0 : list N).
Notation at_ := (vat h0 F B V0).

(** Assigning [v] to the global [s]. *)
Definition assigned (s : symbol) (v : atom) (w : Eval.world) : Eval.world :=
  (Eval.mkw ((s, v) :: Eval.globals w) (Eval.outs w) (Eval.ichan w) (Eval.ochan w) (Eval.opens w)).

(** A cell that only the program refers to, once. *)
Lemma single : forall h w L P e v c, at_ h w ((e, v) :: L) P -> cells h e = Some c -> refs c = 1 ->
  ~ In e (heads L ++ heads P ++ F) /\ ~ In e (held_by_lisp (aux h)) /\ (forall a, ~ In e (fields_at h a)).
Proof.
  intros h w L P e v c H E R. pose proof (vat_own _ _ _ _ _ _ _ _ H) as O.
  assert (O1 : own h (e :: (heads L ++ heads P ++ F) ++ held_by_lisp (aux h))) by hown.
  destruct (counted _ _ (proj1 O1) _ _ E) as [Q _]. cbn [cnt] in Q. rewrite cnt_app in Q.
  assert (IE : is e e = 1) by (unfold is; rewrite N.eqb_refl; auto). rewrite IE in Q.
  split; [|split].
  - intro J. apply cnt_in in J. lia.
  - intro J. apply cnt_in in J. lia.
  - intros a J. apply (edge_in _ _ _ _ (proj1 O)) in J. apply cnt_in in J. lia.
Qed.

(** The two pairs exchanged by an assignment: what the rest of the heap sees. *)
Lemma swap_facts : forall h w L P e k x sv s v data cd kd o h' R' l', at_ h w ((e, Cons sv v) :: L) P ->
  cells h e = Some (mkcell 1 false false (KPair k x)) -> global_at h s = Some data ->
  cells h data = Some cd -> body cd = KPair kd o ->
  shrinks (set_cell (set_cell h data (Some (with_body cd (KPair kd x)))) e (Some (mkcell 1 false false (KPair k o)))) h' ->
  own h' R' -> incl (heads L ++ heads P ++ F) R' -> incl (held_by_lisp (aux h)) R' ->
  reads h x v -> (forall a, In a (heads l') -> a = e) -> holds h' (heads (l' ++ L) ++ heads P ++ F) -> Forall (says h') l' ->
  at_ h' (assigned s v w) (l' ++ L) P.
Proof.
  intros h w L P e k x sv s v data cd kd o h' R' l' H Ee G Ed Bd SH O' I1 I2 Rx IL HH' FL.
  pose proof (v_holds _ _ _ _ _ _ _ _ H) as HH. pose proof (v_lisp _ _ _ _ _ _ _ _ H) as LI. pose proof (holds_own _ _ HH) as O.
  pose proof (vat_strong _ _ _ _ _ _ _ _ H) as St. destruct (single _ _ _ _ _ _ _ H Ee eq_refl) as [NL [NH NE]].
  destruct (assq_in _ _ _ G) as [s' [ID SM]]. apply sym_match_eq in SM. subst s'.
  destruct (alone_counts _ _ _ _ _ HH LI ID) as [ND [NDE CD]].
  destruct (g_alone _ _ LI _ _ ID) as [cd' [Ed' Rd]]. rewrite Ed in Ed'. injection Ed' as <-.
  assert (XE : e <> data) by (intros ->; apply NH; eapply held_globals; eauto).
  destruct SH as [SH1 [SH2 SH3]]. cbn [set_cell nxt aux] in SH1, SH2.
  assert (OLD : forall a c', cells h' a = Some c' -> a <> data -> a <> e -> exists c, cells h a = Some c /\ stored c' = stored c).
  { intros a c' E' N1 N2. destruct (SH3 _ _ E') as [c [E T]]. rewrite !set_other in E by auto. eauto. }
  assert (FLD : forall a b, In b (fields_at h' a) -> In b (fields_at h a) \/ a = data /\ b = x \/ a = e /\ b = o).
  { intros a b I. assert (J : In b (fields_at (set_cell (set_cell h data (Some (with_body cd (KPair kd x)))) e (Some (mkcell 1 false false (KPair k o)))) a)).
    { unfold fields_at in I. destruct (cells h' a) as [c'|] eqn:E'; [|destruct I]. destruct (SH3 _ _ E') as [c [E T]].
      rewrite <- (fields_stored _ _ _ _ _ E E' T). unfold fields_at. rewrite E'. auto. }
    eapply (swapped_fields h data cd kd o e (mkcell 1 false false (KPair k x)) k x); eauto. }
  assert (Xf : In x (fields_at h e)) by (eapply field_cdr; [exact St|exact Ee|reflexivity]).
  assert (Kf : In k (fields_at h e)) by (eapply field_car; [exact St|exact Ee|reflexivity]).
  assert (Of : In o (fields_at h data)) by (eapply field_cdr; eauto).
  assert (Kd : In kd (fields_at h data)) by (eapply field_car; eauto).
  assert (KEPT : forall Z, (forall r, In r Z -> alive h r /\ alive h' r /\ r <> data /\ r <> e) -> kept Z h h').
  { intros Z IZ. eapply (kept_of Z); [exact O|exact O'|apply IZ|apply IZ|]. intros a c c' Ra E E'.
    assert (a <> data /\ a <> e) as [N1 N2].
    { split; intros ->; [apply (reach_in _ _ _ NDE) in Ra|apply (reach_in _ _ _ NE) in Ra]; apply IZ in Ra; tauto. }
    destruct (OLD _ _ E' N1 N2) as [c0 [E0 T]]. congruence. }
  assert (SP : sep h [e] h' (heads l')).
  { split; [lia|]. intros S C. assert (NS : ~ S e) by (apply C; cbn; auto).
    constructor.
    - rewrite SH1. apply C.
    - intros a b I Sb. destruct (FLD _ _ I) as [J|[[-> ->]|[-> ->]]]; [eapply c_in; eauto| |].
      + exfalso. apply NS. apply (c_in _ _ _ C e x Xf Sb).
      + exfalso. apply (c_glob _ _ _ C _ _ _ ID Of Sb).
    - intros a Ia. rewrite (IL _ Ia). exact NS.
    - rewrite SH2. intros s1 kv b I J Sb. destruct (FLD _ _ J) as [J1|[[-> ->]|[-> ->]]].
      + apply (c_glob _ _ _ C _ _ _ I J1 Sb).
      + apply NS. apply (c_in _ _ _ C e x Xf Sb).
      + apply (c_glob _ _ _ C _ _ _ ID Of Sb).
    - rewrite SH2. apply C. }
  assert (HE : exists c', cells h' data = Some c' /\ body c' = KPair kd x).
  { assert (Al : alive h' data) by (eapply own_alive; [exact O'|]; apply I2; eapply held_globals; eauto).
    unfold alive in Al. destruct (cells h' data) as [c'|] eqn:E'; [|congruence]. exists c'. split; auto.
    destruct (SH3 _ _ E') as [c [E T]]. rewrite set_other in E by auto. rewrite set_same in E. injection E as <-.
    apply stored_eq in T. destruct T as [T _]. rewrite T. reflexivity. }
  destruct HE as [cd' [Ed' Bd']].
  assert (AL : forall s1 kv, In (s1, kv) (binds (aux h)) -> exists c', cells h' kv = Some c' /\ refs c' = 1).
  { apply (alone_after2 h w h' [e] (heads l') (heads ((e, Cons sv v) :: L) ++ heads P ++ F) (heads L ++ heads P ++ F) HH LI SP); auto.
    - intros r [<-|[]]. apply reach_root. cbn. auto.
    - intros r Ir. cbn. auto.
    - rewrite SH2. auto.
    - pose proof (holds_own _ _ HH') as O2. hown. }
  assert (GN : forall s1 kv, In (s1, kv) (binds (aux h)) -> kv <> e).
  { intros s1 kv I ->. apply NH. eapply held_globals; eauto. }
  assert (CH : forall a, In a (ichan (aux h) :: ochan (aux h) :: lost (aux h)) -> a <> data /\ a <> e).
  { intros a Ia. assert (Ih : In a (held_by_lisp (aux h))) by (apply in_or_app; right; exact Ia). split; intros ->; [|auto].
    unfold held_by_lisp in CD. rewrite cnt_app in CD. assert (In data (map snd (binds (aux h)))) as J by (apply in_map_iff; exists (s, data); auto).
    apply cnt_in in J. apply cnt_in in Ia. cbn [app cnt] in *. lia. }
  apply (vat_step _ _ _ _ h w h' (assigned s v w) [(e, Cons sv v)] l' L P [e]); auto.
  - intros r [<-|[]]. apply reach_root. apply in_or_app. left. cbn. auto.
  - apply KEPT. intros r Ir. repeat split.
    + eapply own_alive; [exact O|]. cbn. right. apply in_or_app. auto.
    + eapply own_alive; [exact O'|]. auto.
    + intros ->. apply ND. cbn. auto.
    + intros ->. auto.
  - assert (GA : forall s1, global_at h' s1 = global_at h s1) by (intro s1; unfold global_at; rewrite SH2; auto).
    assert (ONE : forall p y u, In y (fields_at h p) -> alive h' y -> reads h y u -> reads h' y u).
    { intros p y u Iy Al Ry. apply (kept_reads [y] h h' y u St); auto; [|apply reach_root; cbn; auto].
      apply KEPT. intros r [<-|[]]. repeat split; auto.
      - destruct (HSimBase.reads_alive _ _ _ Ry) as [c E]. unfold alive. congruence.
      - intros ->. eapply NDE; eauto.
      - intros ->. eapply NE; eauto. }
    assert (NX : alive h' x).
    { eapply fields_alive; [apply O'|]. eapply field_cdr; [apply O'|exact Ed'|exact Bd']. }
    constructor; cbn [assigned Eval.globals Eval.outs Eval.ichan Eval.ochan Eval.opens].
    + intros s1 v1. cbn [env_get]. rewrite GA. destruct (sym_match s s1) eqn:SM.
      * apply sym_match_eq in SM. subst s1. intro Q. injection Q as <-. exists data, cd', kd, x. repeat (split; auto). eapply ONE; eauto.
      * intro Q. destruct (g_bound _ _ LI s1 v1 Q) as [kv [c [k1 [x1 [G1 [E1 [B1 R1]]]]]]].
        destruct (assq_in _ _ _ G1) as [s2 [I3 SM2]]. apply sym_match_eq in SM2. subst s2.
        assert (NK : kv <> data).
        { intros ->. destruct (h_globals _ _ HH _ _ I3) as [c3 [k3 [v3 [ck3 [A1 [A2 [A3 A4]]]]]]].
          destruct (h_globals _ _ HH _ _ ID) as [c4 [k4 [v4 [ck4 [A5 [A6 [A7 A8]]]]]]].
          rewrite A1 in A5. injection A5 as <-. rewrite A2 in A6. injection A6 as <- <-. rewrite A3 in A7. injection A7 as <-.
          rewrite A4 in A8. injection A8 as ->. rewrite (proj2 (sym_match_eq s s) eq_refl) in SM. discriminate. }
        pose proof (GN _ _ I3) as NK2. destruct (AL _ _ I3) as [c' [E' _]]. destruct (OLD _ _ E' NK NK2) as [c0 [E0 T]].
        rewrite E1 in E0. injection E0 as <-. apply stored_eq in T. destruct T as [T _]. exists kv, c', k1, x1.
        split; auto. split; auto. split; [congruence|]. eapply (ONE kv); [eapply field_cdr; eauto| |auto].
        eapply fields_alive; [apply O'|]. eapply field_cdr; [apply O'|exact E'|rewrite T; exact B1].
    + intros s1. cbn [env_get]. rewrite GA. destruct (sym_match s s1); [discriminate|]. apply LI.
    + rewrite SH2. exact AL.
    + rewrite SH2, SH1. intros a ee Q. destruct (g_cached _ _ LI a ee Q) as [LT W]. split; auto. intros c1 s1 E1 B1. rewrite GA.
      assert (N1 : a <> data) by (intros ->; congruence).
      assert (N2 : a <> e).
      { intros ->. destruct (SH3 _ _ E1) as [c2 [E2 T]]. rewrite set_same in E2. injection E2 as <-. apply stored_eq in T. destruct T as [T _].
        cbn in T. congruence. }
      destruct (OLD _ _ E1 N1 N2) as [c0 [E0 T]]. apply stored_eq in T. destruct T as [T _]. apply (W c0); congruence.
    + rewrite SH2. apply LI.
    + rewrite SH2. apply LI.
    + rewrite SH2. apply (chans_kept [ichan (aux h)] h h'); auto; [|apply reach_root; cbn; auto|apply LI].
      assert (Ih : In (ichan (aux h)) (held_by_lisp (aux h))) by (apply in_or_app; right; cbn; auto).
      apply KEPT. intros r [<-|[]]. destruct (CH (ichan (aux h))) as [C1 C2]; [cbn; auto|]. repeat split; auto.
      * eapply own_alive; [exact O|]. apply in_or_app. auto.
      * eapply own_alive; [exact O'|]. auto.
    + rewrite SH2. apply (chans_kept [ochan (aux h)] h h'); auto; [|apply reach_root; cbn; auto|apply LI].
      assert (Ih : In (ochan (aux h)) (held_by_lisp (aux h))) by (apply in_or_app; right; cbn; auto).
      apply KEPT. intros r [<-|[]]. destruct (CH (ochan (aux h))) as [C1 C2]; [cbn; auto|]. repeat split; auto.
      * eapply own_alive; [exact O|]. apply in_or_app. auto.
      * eapply own_alive; [exact O'|]. auto.
  - rewrite SH2. lia.
Qed.
Lemma o_setq : forall h w L P e sv v k x, at_ h w ((e, Cons sv v) :: L) P ->
  cells h e = Some (mkcell 1 false false (KPair k x)) ->
  wpv (hsetq allowed e) (fun _ h' => at_ h' (match sv with Sym _ s => assigned s v w | _ => w end) L P) h.
Proof.
  intros h w L P e sv v k x H Ee. pose proof (v_holds _ _ _ _ _ _ _ _ H) as HH. pose proof (v_lisp _ _ _ _ _ _ _ _ H) as LI.
  pose proof (vat_own _ _ _ _ _ _ _ _ H) as O. pose proof (vat_strong _ _ _ _ _ _ _ _ H) as St.
  pose proof (v_L _ _ _ _ _ _ _ _ H) as FL. inversion FL as [|? ? Re _]; subst. unfold says in Re. cbn [fst snd] in Re.
  destruct (reads_shows _ _ _ Re) as [ce [Ee' Sh]]. rewrite Ee in Ee'. injection Ee' as <-. cbn in Sh.
  destruct Sh as [p [q [Q [_ [Rk Rx]]]]]. injection Q as <- <-.
  unfold hsetq. eapply gives_wpv; [apply (g_test h e _ is_pair_c true Re); intros; rewrite (shows_pair _ _ _ H0); auto|]. intros ? ->. cbn [negb].
  assert (GK : gives (CAR e) h (fun p => p = k)).
  { unfold gives, wpv, CAR, rd, hbind_. rewrite Ee. cbn. auto. }
  eapply gives_wpv; [exact GK|]. intros ? ->.
  eapply gives_wpv; [eapply (g_test h k _ is_sym_c); [exact Rk|intros c Sc; apply (shows_sym _ _ _ Sc)]|]. intros ? ->.
  destruct sv as [| | | | |t s|t a d]; cbn [negb]; try (eapply o_X; exact H).
  eapply gives_wpv; [apply (g_symbol h k _ Rk)|]. intros ? [t1 Q]. injection Q as <- <-.
  apply wpv_bind. eapply wpv_mono; [apply wp_wpv; apply (bar_any_spec allowed NoAny)|]. intros u0 h1 [-> NA].
  apply wpv_bind. unfold wpv at 1, global, get_aux, hbind_, done. cbv beta iota. fold (global_at h s).
  destruct (single _ _ _ _ _ _ _ H Ee eq_refl) as [NL [NH NE]].
  assert (Ek : exists ck, cells h k = Some ck /\ body ck = KSym s).
  { destruct (reads_shows _ _ _ Rk) as [ck [E [Bk _]]]. eauto. }
  destruct Ek as [ck [Ek Bk]].
  assert (NP : named_pair h s e) by (exists (mkcell 1 false false (KPair k x)), k, x, ck; auto).
  destruct (global_at h s) as [data|] eqn:G.
  - destruct (assq_in _ _ _ G) as [s' [ID SM]]. apply sym_match_eq in SM. subst s'.
    assert (NPD : named_pair h s data) by (destruct (h_globals _ _ HH _ _ ID) as [c3 [k3 [v3 [ck3 Q]]]]; exists c3, k3, v3, ck3; auto).
    destruct NPD as [cd [kd [o [ckd [Ed [Bd [Ekd Bkd]]]]]]].
    assert (XE : e <> data) by (intros ->; apply NH; eapply held_globals; eauto).
    pose proof (swap_spec allowed NoAny data e s h _ HH (ex_intro _ cd (ex_intro _ kd (ex_intro _ o (ex_intro _ ckd (conj Ed (conj Bd (conj Ekd Bkd))))))) NP NA) as SW.
    unfold wp in SW. apply wpv_bind. unfold wpv at 1.
    pose proof (swap_run h data cd kd o e _ k x Ed Bd Ee eq_refl XE) as RUN. rewrite RUN in SW |- *.
    destruct SW as [HS _]. apply wp_wpv. eapply wp_X; [exact (holds_own _ _ HS)|]. intros h' O' SH.
    assert (A' : aux h' = aux h) by apply SH.
    assert (H' : holds h' (heads L ++ heads P ++ F)).
    { eapply holds_keep; [exact HS| |apply SH|].
      - apply (proj1 (shrinks_step (fun _ => false) _ _ _ _ (holds_own _ _ HS) O' SH)).
      - exact O'. }
    apply (swap_facts h w L P e k x (Sym t s) s v data cd kd o h' _ [] H Ee G Ed Bd SH O'); auto.
    + apply incl_appl, incl_refl.
    + apply incl_appr, incl_refl.
    + intros ? [].
  - unfold wpv, set_aux. set (h' := mkheap (cells h) (nxt h) (with_binds (aux h) ((s, e) :: binds (aux h)))).
    assert (H' : holds h' (heads L ++ heads P ++ F)).
    { apply (aux_holds h _ _ _ HH); cbn [with_binds binds caches opens ichan ochan]; try apply HH.
      - intro b. change (heads ((e, Cons (Sym t s) v) :: L)) with (e :: heads L). unfold held_by_lisp. cbn [with_binds binds ichan ochan lost map snd]. rewrite ?cnt_app; cbn [app cnt]; rewrite ?cnt_app; lia.
      - intros s1 kv [Q|Q]; [injection Q as <- <-|]; auto.
      - intros a e1 I. cbn. right. apply (h_caches _ _ HH _ _ I). }
    apply (vat_step _ _ _ _ h w h' _ [(e, Cons (Sym t s) v)] [] L P [e]); auto; [| | | |cbn; lia].
    + intros r [<-|[]]. apply reach_root. apply in_or_app. left. cbn. auto.
    + split; [cbn; lia|]. intros S C. constructor; cbn [h' cells nxt aux with_binds binds ichan ochan lost]; try apply C.
      * intros a [].
      * intros s1 kv b [Q|Q] J Sb; [|apply (c_glob _ _ _ C _ _ _ Q J Sb)]. injection Q as <- <-.
        apply (c_held _ _ _ C e); [cbn; auto|]. apply (c_in _ _ _ C _ _ J Sb).
    + eapply same_kept; [exact O|exact (holds_own _ _ H')| |reflexivity]. intros r Ir. eapply own_alive; [exact O|]. cbn. right. apply in_or_app. auto.
    + constructor; cbn [assigned Eval.globals Eval.outs Eval.ichan Eval.ochan Eval.opens]; try apply LI.
      * intros s1 v1. unfold global_at. cbn [h' aux with_binds binds assq env_get cells]. destruct (sym_match s s1) eqn:SM.
        -- intro Q. injection Q as <-. exists e, (mkcell 1 false false (KPair k x)), k, x. repeat (split; auto). apply (same_reads h); auto.
        -- intro Q. destruct (g_bound _ _ LI s1 v1 Q) as [kv [c [k1 [x1 [G1 [E1 [B1 R1]]]]]]]. exists kv, c, k1, x1.
           repeat (split; auto). apply (same_reads h); auto.
      * intros s1. unfold global_at. cbn [h' aux with_binds binds assq env_get]. destruct (sym_match s s1); [discriminate|]. apply LI.
      * cbn [h' aux with_binds binds cells]. intros s1 kv [Q|Q]; [injection Q as <- <-; eauto|]. apply (g_alone _ _ LI _ _ Q).
      * cbn [h' aux with_binds caches cells nxt]. intros a e1 Q. destruct (g_cached _ _ LI _ _ Q) as [LT W]. split; auto.
        intros c1 s1 E1 B1. specialize (W c1 s1 E1 B1). unfold global_at. cbn [h' aux with_binds binds assq]. destruct (sym_match s s1) eqn:SM; auto.
        apply sym_match_eq in SM. subst s1. congruence.
      * apply (same_chans h); auto. apply LI.
      * apply (same_chans h); auto. apply LI.
Qed.

(** ** Output *)
Definition written (n : N) (b : bytes) (w : Eval.world) : Eval.world :=
  (Eval.mkw (Eval.globals w) ((n, b) :: Eval.outs w) (Eval.ichan w) (Eval.ochan w) (Eval.opens w)).
Lemma o_emit : forall b h w L P, at_ h w L P ->
  wpv (hemit b) (fun _ h' => exists n r, Eval.ochan w = n :: r /\ at_ h' (written n b w) L P) h.
Proof.
  intros b h w L P H. pose proof (v_holds _ _ _ _ _ _ _ _ H) as HH. pose proof (v_lisp _ _ _ _ _ _ _ _ H) as LI.
  assert (SS : wpv (hemit b) (fun _ h' => holds h' (heads L ++ heads P ++ F)) h).
  { eapply wpv_mono; [apply wp_wpv; apply (emit_spec allowed NoAny b h _ HH)|]. intros u h1 [Q _]. exact Q. }
  unfold hemit, get_aux in SS |- *. unfold wpv, hbind_ in SS |- *. cbv beta iota in SS |- *.
  pose proof (g_ochan _ _ LI) as OC. inversion OC as [a c E Bc Q1 Q2|a c e d ce k x ck n l E Bc Ee Be Ek Bk Cd Q1 Q2].
  - unfold CAR, rd, hbind_. rewrite E, Bc. exact I.
  - unfold CAR, rd, number_of, rd, hbind_, done in SS |- *. rewrite E, Bc in SS |- *. rewrite Ee, Be in SS |- *. rewrite Ek in SS |- *. unfold leaf in SS |- *. rewrite Bk in SS |- *.
    cbn [num_field] in SS |- *. unfold set_aux in SS |- *. rewrite N2Z.id in SS |- *. exists n, l. split; auto.
    eapply vat_aux; [exact H|reflexivity|reflexivity|reflexivity|reflexivity|reflexivity|reflexivity|exact SS| |cbn; lia].
    eapply lisp_aux; [exact LI|reflexivity|reflexivity|reflexivity|reflexivity|reflexivity|apply LI|reflexivity| |apply LI|reflexivity|reflexivity].
    cbn. rewrite (g_outs _ _ LI). reflexivity.
Qed.
Lemma s_emit : forall b h w L P, at_ h w L P -> sim (hemit b) (Eval.emit b) (fun _ _ h' w' => at_ h' w' L P) h w.
Proof.
  intros b h w L P H. pose proof (o_emit b h w L P H) as Q. unfold wpv in Q. unfold sim.
  destruct (hemit b h) as [u h'| | | | |]; auto. destruct Q as [n [r [E Q]]]. unfold Eval.emit. rewrite E. rewrite <- E. exact Q.
Qed.
Lemma s_print : forall n a v lit h w L P, at_ h w L P -> avail h L B a v ->
  sim (hprint n a lit) (Eval.print_atom v lit) (fun _ _ h' w' => at_ h' w' L P) h w.
Proof.
  intros n a v lit h w L P H A. unfold hprint, Eval.print_atom. eapply gives_sim; [apply (g_value h n _ _ (proj1 A))|]. intros r ->.
  destruct (lisp_prin [] (fun _ => 0%N) v lit) as [b|]; [|exact I]. apply s_emit. auto.
Qed.

(** ** A reference never dropped *)
Lemma o_forget : forall h w L P a v, at_ h w ((a, v) :: L) P -> wpv (forget a) (fun _ h' => at_ h' w L P) h.
Proof.
  intros h w L P a v H. pose proof (v_holds _ _ _ _ _ _ _ _ H) as HH. pose proof (v_lisp _ _ _ _ _ _ _ _ H) as LI.
  pose proof (vat_own _ _ _ _ _ _ _ _ H) as O. unfold wpv, forget, set_aux.
  set (h' := mkheap (cells h) (nxt h) (with_lost (aux h) (a :: lost (aux h)))).
  assert (H' : holds h' (heads L ++ heads P ++ F)).
  { apply (aux_holds h _ _ _ HH); cbn [with_lost binds caches opens ichan ochan]; auto; try apply HH.
    intro b. change (heads ((a, v) :: L)) with (a :: heads L). unfold held_by_lisp. cbn [with_lost binds ichan ochan lost]. rewrite !cnt_app. cbn [app cnt]. lia. }
  apply (vat_step _ _ _ _ h w h' w [(a, v)] [] L P [a]); auto; [| | | |cbn; lia].
  - intros r [<-|[]]. apply reach_root. apply in_or_app. left. cbn. auto.
  - split; [cbn; lia|]. intros S C. constructor; cbn [h' cells nxt aux with_lost binds ichan ochan lost]; try apply C.
    + intros b [].
    + intros b [<-|[<-|[<-|Ib]]]; [apply (c_lisp _ _ _ C); cbn; auto|apply (c_lisp _ _ _ C); cbn; auto|apply (c_held _ _ _ C); cbn; auto|apply (c_lisp _ _ _ C); cbn; auto].
  - eapply same_kept; [exact O|exact (holds_own _ _ H')| |reflexivity]. intros r Ir. eapply own_alive; [exact O|]. cbn. right. apply in_or_app. auto.
  - eapply lisp_aux; [exact LI|reflexivity|reflexivity|reflexivity|reflexivity|reflexivity|apply LI|reflexivity|apply LI|apply LI|reflexivity|reflexivity].
Qed.

(** ** A cell given up, its fields kept *)
Lemma o_abandon : forall h w L P e k x kv xv, at_ h w ((e, Cons kv xv) :: L) P ->
  cells h e = Some (mkcell 1 false false (KPair k x)) -> allowed UsesSet = true \/ allowed DefinesNonSymbol = true ->
  wpv (abandon e) (fun _ h' => at_ h' w ((k, kv) :: (x, xv) :: L) P) h.
Proof.
  intros h w L P e k x kv xv H Ee AL. pose proof (v_holds _ _ _ _ _ _ _ _ H) as HH. pose proof (v_lisp _ _ _ _ _ _ _ _ H) as LI.
  pose proof (vat_own _ _ _ _ _ _ _ _ H) as O. pose proof (vat_strong _ _ _ _ _ _ _ _ H) as St.
  destruct (single _ _ _ _ _ _ _ H Ee eq_refl) as [NL [NH NE]].
  pose proof (v_L _ _ _ _ _ _ _ _ H) as FL. inversion FL as [|? ? Re _]; subst. unfold says in Re. cbn [fst snd] in Re.
  destruct (reads_shows _ _ _ Re) as [ce [Ee' Sh]]. rewrite Ee in Ee'. injection Ee' as <-. cbn in Sh.
  destruct Sh as [p [q [Q [_ [Rk Rx]]]]]. injection Q as <- <-.
  pose proof (abandon_spec allowed NoAny e k x h _ HH Ee AL) as AS. unfold wp in AS. unfold wpv.
  unfold abandon, hbind_, release, set_aux in AS |- *. rewrite Ee in AS |- *.
  set (h' := mkheap (cells (set_cell h e None)) (nxt (set_cell h e None)) (with_strays (aux (set_cell h e None)) (S (strays (aux (set_cell h e None)))))) in *.
  destruct AS as [H' _].
  assert (OTH : forall a, a <> e -> cells h' a = cells h a) by (intros a N1; unfold h'; cbn [cells]; apply set_other; auto).
  assert (GONE : cells h' e = None) by (unfold h'; cbn [cells]; apply set_same).
  assert (Q : quiet h h').
  { constructor; [reflexivity|]. intros a c' E'. destruct (N.eq_dec a e) as [->|N1]; [congruence|]. rewrite OTH in E' by auto. eauto. }
  assert (AE : binds (aux h') = binds (aux h) /\ ichan (aux h') = ichan (aux h) /\ ochan (aux h') = ochan (aux h) /\
    lost (aux h') = lost (aux h) /\ held_by_lisp (aux h') = held_by_lisp (aux h) /\ caches (aux h') = caches (aux h) /\
    outs (aux h') = outs (aux h) /\ opens (aux h') = opens (aux h)) by (repeat split).
  destruct AE as [A1 [A2 [A3 [A4 [A5 [A6 [A7 A8]]]]]]].
  assert (FE : forall b, In b (fields_at h e) <-> b = k \/ b = x).
  { intro b. unfold fields_at, fields. rewrite Ee. cbn. intuition. }
  assert (KEPT : forall R, incl R ((heads L ++ heads P ++ F) ++ held_by_lisp (aux h)) -> kept R h h').
  { intros R I. apply (kept_roots R ((e :: heads L ++ heads P ++ F) ++ held_by_lisp (aux h)) ((k :: x :: heads L ++ heads P ++ F) ++ held_by_lisp (aux h))).
    - exact O.
    - rewrite <- A5. apply (holds_own _ _ H').
    - intros r Ir. right. apply I. auto.
    - intros r Ir. right. right. apply I. auto.
    - intros a c c' _ E E'. destruct (q_same _ _ Q _ _ E') as [c0 [E0 T]]. congruence. }
  apply (vat_step _ _ _ _ h w h' w [(e, Cons kv xv)] [(k, kv); (x, xv)] L P [e]); auto.
  - intros r [<-|[]]. apply reach_root. apply in_or_app. left. cbn. auto.
  - split; [rewrite (q_nxt _ _ Q); lia|]. intros S C. constructor.
    + rewrite (q_nxt _ _ Q). apply C.
    + intros a b I. apply (c_in _ _ _ C a b). eapply quiet_fields; eauto.
    + intros a I Sa. assert (Se : S e) by (apply (c_in _ _ _ C e a); auto; apply FE; cbn in I; intuition).
      apply (c_held _ _ _ C e); cbn; auto.
    + rewrite A1. intros s kv0 b I J. apply (c_glob _ _ _ C s kv0 b I). eapply quiet_fields; eauto.
    + rewrite A2, A3, A4. apply (c_lisp _ _ _ C).
  - apply KEPT. apply incl_appl, incl_refl.
  - assert (RV : forall a v, reads h a v -> (forall b, In b (e :: nil) -> ~ reach h [a] b) -> reads h' a v).
    { intros a v R N1. induction R as [a c E Bc|a c E Bc|a c E Bc|a c z E Bc|a c z E Bc|a c s E Bc|a c p q v1 v2 E Bc R1 IH1 R2 IH2];
        (assert (NA : a <> e) by (intros ->; apply (N1 e); [cbn; auto|apply reach_root; cbn; auto]));
        pose proof (OTH a NA) as OA; rewrite E in OA.
      - eapply reads_nil; eauto.
      - eapply reads_true; eauto.
      - eapply reads_wild; eauto.
      - eapply reads_char; eauto.
      - eapply reads_num; eauto.
      - eapply reads_sym; eauto.
      - eapply reads_pair; eauto.
        + apply IH1. intros b Ib J. apply (N1 b Ib). eapply reach_incl; [|exact J]. intros r [<-|[]]. eapply reach_step; [apply reach_root; cbn; auto|]. eapply field_car; eauto.
        + apply IH2. intros b Ib J. apply (N1 b Ib). eapply reach_incl; [|exact J]. intros r [<-|[]]. eapply reach_step; [apply reach_root; cbn; auto|]. eapply field_cdr; eauto. }
    assert (NR : forall y, y = k \/ y = x -> forall b, In b [e] -> ~ reach h [y] b).
    { intros y Iy b [<-|[]] J. apply (reach_in _ _ _ NE) in J. destruct J as [->|[]]. apply (NE e). apply FE. auto. }
    repeat constructor; cbn [fst snd]; apply RV; auto.
  - apply (lisp_step h w h' w _ HH LI A1); auto.
    + apply KEPT. unfold held_by_lisp. apply incl_appr, incl_appl, incl_refl.
    + intros s0 kv0 I. destruct (g_alone _ _ LI _ _ I) as [c [E R1]]. exists c. split; auto. rewrite OTH; auto.
      intros ->. apply NH. apply in_or_app. left. apply in_map_iff. exists (s0, e). auto.
    + apply (cached_same h w); auto; [rewrite (q_nxt _ _ Q); lia|]. intros a c' s0 _ E' Bc. destruct (q_same _ _ Q _ _ E') as [c [E T]].
      exists c. split; auto. apply stored_eq in T. destruct T. congruence.
    + rewrite A7. apply LI.
    + rewrite A8. apply LI.
    + rewrite A2. apply (chans_kept (held_by_lisp (aux h)) h h'); auto; [apply KEPT; apply incl_appr, incl_refl| |apply LI].
      apply reach_root. apply in_or_app. right. cbn. auto.
    + rewrite A3. apply (chans_kept (held_by_lisp (aux h)) h h'); auto; [apply KEPT; apply incl_appr, incl_refl| |apply LI].
      apply reach_root. apply in_or_app. right. cbn. auto.
  - rewrite A8. lia.
Qed.
End Steps.
