(** * HSimCall: calls to computations that consume some references, and a pair whose
    first field is a private list. *)
From Verif Require Import Value Tails Print Heap HeapSpec HeapProofs HeapOps HEval HEvalSpec HEvalBase HEvalProofs ValueProofs TailsProofs HSimSpec HSimBase HSimOps HSimList HSimMix HSimPure HSimLisp HSimState.
From Verif Require Eval.
Open Scope nat_scope.
Open Scope heap_scope.

(** ** Simulations *)
Lemma sim_with : forall {A C} (m : HM A) (M : Eval.M C) Q h w, sim m M Q h w ->
  sim m M (fun a v h' w' => Q a v h' w' /\ M w = Eval.Ret v w') h w.
Proof. intros A C m M Q h w H. unfold sim in *. destruct (m h); auto. destruct (M w) as [v w'|e|]; auto. Qed.
(** A value-level computation that does nothing in front. *)
Lemma sim_pass : forall {A C D} (m : HM A) (M : Eval.M C) (K : C -> Eval.M D) Q h w v, M w = Eval.Ret v w ->
  sim m (K v) Q h w -> sim m (Eval.mbind M K) Q h w.
Proof. intros A C D m M K Q h w v E H. unfold sim, Eval.mbind in *. rewrite E. exact H. Qed.
Lemma sim_opt : forall {A D} (m : HM A) (K : atom -> Eval.M D) Q h w v, sim m (K v) Q h w -> sim m (Eval.mbind (Eval.opt (Some v)) K) Q h w.
Proof. intros. auto. Qed.
(** The value-level result is used as it is. *)
Lemma sim_ret : forall {A C} (m : HM A) (M : Eval.M C) Q h w, sim m (Eval.mbind M Eval.ret) Q h w -> sim m M Q h w.
Proof. intros A C m M Q h w H. unfold sim, Eval.mbind, Eval.ret in *. destruct (m h); auto. destruct (M w); auto. Qed.

(** Both sides change the state. *)
Lemma sim_world : forall {A C} (m : HM A) (M : Eval.M C) P (Q : A -> C -> heap -> Eval.world -> Prop) h w v w', wpv m P h -> M w = Eval.Ret v w' ->
  (forall a h', P a h' -> Q a v h' w') -> sim m M Q h w.
Proof. intros A C m M P Q h w v w' H E K. unfold sim, wpv in *. destruct (m h); auto. rewrite E. auto. Qed.

(** ** Cells that are never used again keep their contents *)
Definition ages (h h' : heap) : Prop := (nxt h <= nxt h')%N /\
  forall a c', (a < nxt h)%N -> cells h' a = Some c' -> exists c, cells h a = Some c /\ stored c' = stored c.
Lemma ages_refl : forall h, ages h h.
Proof. intro h. split; [lia|eauto]. Qed.
Lemma ages_trans : forall h1 h2 h3, ages h1 h2 -> ages h2 h3 -> ages h1 h3.
Proof.
  intros h1 h2 h3 [N1 A1] [N2 A2]. split; [lia|]. intros a c3 LT E3. destruct (A2 a c3) as [c2 [E2 T2]]; auto; [lia|].
  destruct (A1 a c2) as [c1 [E1 T1]]; auto. exists c1. split; auto. congruence.
Qed.
Lemma ages_quiet : forall h h', quiet h h' -> ages h h'.
Proof. intros h h' [A B]. split; [lia|]. intros a c' _ E. eauto. Qed.
Lemma ages_alloc : forall b h, wpv (alloc b) (fun _ h' => ages h h') h.
Proof.
  intros b h. unfold wpv, alloc. split; [cbn; lia|]. intros a c' LT E. cbn in E. destruct (N.eqb_spec a (nxt h)) as [->|]; [lia|eauto].
Qed.
Lemma ages_up : forall a h, wpv (up a) (fun _ h' => ages h h') h.
Proof. intros a h. eapply wpv_mono; [apply quiet_up|]. intros r h' [_ [Q _]]. apply ages_quiet. auto. Qed.
Lemma ages_X : forall a h, wpv (X a) (fun _ h' => ages h h') h.
Proof. intros a h. eapply wpv_mono; [apply quiet_X|]. intros r h' [Q _]. apply ages_quiet. auto. Qed.
Lemma ages_bind : forall {A C} (m : HM A) (k : A -> HM C) h, wpv m (fun _ h' => ages h h') h ->
  (forall a h', wpv (k a) (fun _ h2 => ages h' h2) h') -> wpv (hbind_ m k) (fun _ h' => ages h h') h.
Proof.
  intros A C m k h H K. apply wpv_bind. eapply wpv_mono; [exact H|]. intros a h' G. eapply wpv_mono; [apply K|]. intros c h2 G2.
  exact (ages_trans _ _ _ G G2).
Qed.
Lemma ages_car : forall a h, wpv (hcar a) (fun _ h' => ages h h') h.
Proof.
  intros a h. unfold hcar. unfold wpv, hbind_, rd. destruct (cells h a) as [c|]; auto. fold (wpv (match body c with KPair x _ => up x | _ => make_nil end) (fun _ h' => ages h h') h).
  destruct (body c); try apply ages_alloc. apply ages_up.
Qed.
Lemma ages_cdr : forall a h, wpv (hcdr a) (fun _ h' => ages h h') h.
Proof.
  intros a h. unfold hcdr. unfold wpv, hbind_, rd. destruct (cells h a) as [c|]; auto. fold (wpv (match body c with KPair _ x => up x | _ => make_nil end) (fun _ h' => ages h h') h).
  destruct (body c); try apply ages_alloc. apply ages_up.
Qed.
Lemma ages_hbind : forall n clos arg val h, wpv (hbind n clos arg val) (fun _ h' => ages h h') h.
Proof.
  induction n as [|n IH]; intros clos arg val h; [exact I|]. cbn [hbind].
  apply wpv_bind. unfold wpv at 1, rd. destruct (cells h arg) as [c|]; auto.
  destruct (body c); try (apply ages_bind; [apply ages_X|intros]; apply ages_bind; [apply ages_X|intros; apply ages_refl]);
    try (apply ages_bind; [apply ages_alloc|intros; apply ages_alloc]).
  apply ages_bind; [apply ages_car|intros]. apply ages_bind; [apply ages_car|intros]. apply ages_bind; [apply ages_cdr|intros].
  apply ages_bind; [apply ages_cdr|intros]. apply ages_bind; [apply ages_X|intros]. apply ages_bind; [apply ages_X|intros].
  apply ages_bind; [apply IH|intros; apply IH].
Qed.

(** ** Calls *)

(** From any heap that stands for a world, [m] consumes the references [l], borrows
    [b], and does what [M] does. *)
Definition runs {A C} (m : HM A) (l b : list (N * atom)) (M : Eval.M C) (res : A -> C -> list (N * atom) -> Prop) : Prop :=
  forall F h w, opens (aux h) <> 0%N -> vat h F b (heads l ++ heads b) h w l [] ->
  sim m M (fun r v h' w' => exists l', res r v l' /\ vat h F b (heads l ++ heads b) h' w' l' []) h w.

Section Steps.
Variables (h0 : heap) (F : list N) (B : list (N * atom)) (V0 : list N).
Notation at_ := (vat h0 F B V0).

Lemma s_call : forall {A C} (m : HM A) (M : Eval.M C) res l b h w L P, runs m l b M res -> opens (aux h0) <> 0%N ->
  at_ h w (l ++ L) P -> (forall p, In p b -> avail h L B (fst p) (snd p)) ->
  sim m M (fun r v h' w' => exists l', res r v l' /\ at_ h' w' (l' ++ L) P) h w.
Proof.
  intros A C m M res l b h w L P R OP H AV. pose proof (v_open _ _ _ _ _ _ _ _ H) as VO.
  assert (RB : forall p, In p b -> reach h (heads (l ++ L) ++ heads B) (fst p)).
  { intros p Ip. eapply reach_sub; [|apply (AV p Ip)]. intros x Ix. rewrite heads_app, <- app_assoc. apply in_or_app. right. auto. }
  assert (ST : vat h (heads L ++ heads P ++ F) b (heads l ++ heads b) h w l []).
  { destruct H as [A0 A1 A2 A3 A4 A5 A6 A7 A8]. apply Forall_app in A1. destruct A1 as [A1 A1']. constructor; auto.
    - hhold.
    - apply Forall_forall. intros p Ip. split; [apply (AV p Ip)|]. eapply reach_incl; [|apply (AV p Ip)]. intros x Ix.
      apply in_app_or in Ix. destruct Ix as [Ix|Ix]; [apply reach_root; apply in_or_app; auto|].
      apply in_map_iff in Ix. destruct Ix as [q [<- Iq]]. rewrite Forall_forall in A3. eapply reach_sub; [|apply (A3 q Iq)].
      intros y Iy. apply in_or_app. right. apply in_or_app. auto.
    - eapply kept_refl; [apply (holds_own _ _ A0)|]. intros r Ir. rewrite heads_app. apply in_or_app. left. rewrite <- app_assoc. apply in_or_app. auto.
    - apply sep_refl.
    - intros P1 a v P2 E. destruct P1; discriminate.
    - lia. }
  assert (OH : opens (aux h) <> 0%N) by lia.
  eapply sim_mono; [apply (R _ _ _ OH ST)|]. intros r v h' w' [l' [RE H']]. exists l'. split; auto.
  apply (vat_step _ _ _ _ h w h' w' l l' L P (heads l ++ heads b)); auto.
  - intros x Ix. apply in_app_or in Ix. destruct Ix as [Ix|Ix].
    + apply reach_root. rewrite heads_app. apply in_or_app. left. apply in_or_app. auto.
    + apply in_map_iff in Ix. destruct Ix as [q [<- Iq]]. auto.
  - destruct (v_sep _ _ _ _ _ _ _ _ H') as [N1 C1]. split; auto. intros S C2. eapply clear_sub; [|apply C1; exact C2].
    intros a Ia. apply reach_root. apply in_or_app. auto.
  - apply H'.
  - pose proof (v_holds _ _ _ _ _ _ _ _ H') as HH. hhold.
  - apply H'.
  - apply H'.
  - apply H'.
Qed.

(** ** Exchanging the value of a global *)
Lemma o_swap : forall allowed, allowed AssignsAny = false -> forall h w L P e t s v k x data,
  at_ h w ((e, Cons (Sym t s) v) :: L) P -> cells h e = Some (mkcell 1 false false (KPair k x)) -> is_any s = false ->
  global_at h s = Some data ->
  wpv (swap_values data e) (fun _ h' => exists o, env_get (Eval.globals w) s = Some o /\ at_ h' (assigned s v w) ((e, Cons (Sym t s) o) :: L) P) h.
Proof.
  intros allowed NoAny h w L P e t s v k x data H Ee NA G. pose proof (v_holds _ _ _ _ _ _ _ _ H) as HH. pose proof (v_lisp _ _ _ _ _ _ _ _ H) as LI.
  pose proof (vat_own _ _ _ _ _ _ _ _ H) as O. pose proof (vat_strong _ _ _ _ _ _ _ _ H) as St.
  pose proof (v_L _ _ _ _ _ _ _ _ H) as FL. inversion FL as [|? ? Re _]; subst. unfold says in Re. cbn [fst snd] in Re.
  destruct (reads_shows _ _ _ Re) as [ce [Ee' Sh]]. rewrite Ee in Ee'. injection Ee' as <-. cbn in Sh.
  destruct Sh as [p [q [Q [_ [Rk Rx]]]]]. injection Q as <- <-.
  destruct (single allowed NoAny _ _ _ _ _ _ _ _ _ _ _ H Ee eq_refl) as [NL [NH NE]].
  destruct (reads_shows _ _ _ Rk) as [ck [Ek [Bk Tk]]].
  assert (NP : named_pair h s e) by (exists (mkcell 1 false false (KPair k x)), k, x, ck; auto).
  destruct (assq_in _ _ _ G) as [s' [ID SM]]. apply sym_match_eq in SM. subst s'.
  assert (NPD : named_pair h s data) by (destruct (h_globals _ _ HH _ _ ID) as [c3 [k3 [v3 [ck3 Q]]]]; exists c3, k3, v3, ck3; auto).
  assert (XE : e <> data) by (intros ->; apply NH; eapply held_globals; eauto).
  destruct (global_value _ _ _ _ LI G) as [ov [cd [kd [o [GV [Ed [Bd Ro]]]]]]].
  destruct (alone_counts _ _ _ _ _ HH LI ID) as [ND [NDE CD]].
  pose proof (swap_spec allowed NoAny data e s h _ HH NPD NP NA) as SW. unfold wp in SW. unfold wpv.
  pose proof (swap_run h data cd kd o e _ k x Ed Bd Ee eq_refl XE) as RUN. rewrite RUN in SW |- *. destruct SW as [HS _].
  cbn [with_body refs tail weak] in *. set (h' := set_cell _ _ _) in *. exists ov. split; auto.
  assert (Of : In o (fields_at h data)) by (eapply field_cdr; eauto).
  assert (OTH : forall a, a <> data -> a <> e -> cells h' a = cells h a) by (intros a N1 N2; unfold h'; rewrite !set_other; auto).
  assert (KO : kept [o] h h').
  { eapply (kept_of [o]); [exact O|exact (holds_own _ _ HS)| | |].
    - intros r [<-|[]]. eapply fields_alive; [apply O|eauto].
    - intros r [<-|[]]. assert (N1 : o <> data) by (intros ->; apply (NDE _ Of)). assert (N2 : o <> e) by (intros ->; apply (NE _ Of)).
      unfold alive. rewrite (OTH _ N1 N2). eapply (fields_alive h); [apply O|eauto].
    - intros a c c' Ra E E'. assert (N1 : a <> data).
      { intros ->. apply (reach_in _ _ _ NDE) in Ra. destruct Ra as [<-|[]]. apply (NDE _ Of). }
      assert (N2 : a <> e). { intros ->. apply (reach_in _ _ _ NE) in Ra. destruct Ra as [<-|[]]. apply (NE _ Of). }
      rewrite (OTH _ N1 N2) in E'. congruence. }
  apply (swap_facts allowed NoAny _ _ _ _ h w L P e k x (Sym t s) s v data cd kd o h' _ [(e, Cons (Sym t s) ov)] H Ee G Ed Bd (shrinks_refl _) (holds_own _ _ HS)); auto.
  - apply incl_appl. cbn. intros r Ir. right. auto.
  - apply incl_appr, incl_refl.
  - cbn. intros a [<-|[]]. auto.
  - constructor; [|constructor]. unfold says. cbn [fst snd]. apply (reads_pair h' e (mkcell 1 false false (KPair k o)) k o); auto.
    + unfold h'. apply set_same.
    + assert (N1 : k <> data) by (intros ->; rewrite Ed in Ek; injection Ek as <-; congruence).
      assert (N2 : k <> e) by (intros ->; rewrite Ee in Ek; injection Ek as <-; discriminate).
      rewrite <- Tk. eapply reads_sym; [|exact Bk]. rewrite OTH; auto.
    + eapply kept_reads; [exact St|exact KO|apply reach_root; cbn; auto|exact Ro].
Qed.

(** ** A pair that holds a private list *)
Definition nest (h : heap) (bd acc narg : N) (O : list N) : Prop := exists S c,
  clear h S O /\ S bd /\ cells h bd = Some c /\ body c = KPair acc narg /\
  (forall p, on_spine h acc p -> S p) /\
  (forall p c x y, on_spine h acc p -> cells h p = Some c -> body c = KPair x y -> ~ S x) /\ ~ S narg.

Lemma nest_quiet : forall h h' bd acc narg O O', nest h bd acc narg O -> quiet h h' -> aux h' = aux h ->
  (exists c, cells h' bd = Some c) -> incl O' O -> nest h' bd acc narg O'.
Proof.
  intros h h' bd acc narg O O' [S [c [C [Sb [E [Bc [Sp [Ca Nn]]]]]]]] Q A [c' E'] I.
  destruct (q_same _ _ Q _ _ E') as [c1 [E1 T]]. rewrite E in E1. injection E1 as <-. apply stored_eq in T. destruct T as [T _].
  exists S, c'. split; [eapply clear_quiet; eauto; intros a Ia; apply (c_held _ _ _ C); auto|]. split; auto. split; auto.
  split; [congruence|]. split; [intros p Hp; apply Sp; eapply quiet_spine; eauto|]. split; auto.
  intros p cp x y Hp Ep Bp. destruct (q_same _ _ Q _ _ Ep) as [c2 [E2 T2]]. apply stored_eq in T2. destruct T2 as [T2 _].
  eapply Ca; [eapply quiet_spine; eauto|exact E2|rewrite <- T2; exact Bp].
Qed.

Lemma o_nest : forall h w L P acc va y vy, at_ h w ((y, vy) :: L) ((acc, va) :: P) ->
  wpv (hcons acc y) (fun r h' => at_ h' w ((r, Cons va vy) :: L) P /\ nest h' r acc y (heads L ++ heads P ++ F)) h.
Proof.
  intros h w L P acc va y vy H. pose proof (v_solo _ _ _ _ _ _ _ _ H [] _ _ _ eq_refl) as [S [C [Sp Ca]]].
  pose proof (vat_own _ _ _ _ _ _ _ _ H) as O.
  apply vat_demote in H. eapply wpv_mono; [apply (o_cons _ _ _ _ _ _ _ _ _ _ _ _ H)|]. intros r h' [-> [G H']]. split; auto.
  pose proof (v_holds _ _ _ _ _ _ _ _ H) as HH. cbn [app] in C.
  assert (BD : forall a, alive h a -> (a < nxt h)%N) by (intros a; eapply own_bounded; eauto).
  assert (AF : forall a b, In b (fields_at h a) -> (b < nxt h)%N) by (intros a b I; apply BD; eapply fields_alive; [apply O|eauto]).
  assert (NO : forall a, (a < nxt h)%N -> a <> nxt h) by (intros; lia).
  assert (K : kept [acc] h h').
  { eapply adds_kept; [exact O| |eapply tgrown_adds; eauto]. intros r [<-|[]]. eapply own_alive; [exact O|].
    apply in_or_app. left. apply in_or_app. right. cbn. auto. }
  exists (fun a => a = nxt h \/ S a), (mkcell 1 false false (KPair acc y)). split; [constructor|].
  - intros a [->|Sa]; rewrite (t_nxt _ _ _ _ G); [lia|]. apply (c_below _ _ _ C) in Sa. lia.
  - intros a b I Sb. destruct (N.eq_dec a (nxt h)) as [->|X]; auto. right. unfold fields_at in I. rewrite (t_old _ _ _ _ G) in I by auto.
    fold (fields_at h a) in I. destruct Sb as [->|Sb]; [apply AF in I; lia|]. eapply c_in; eauto.
  - intros a I [->|Sa].
    + assert (Al : alive h (nxt h)); [|apply BD in Al; lia]. eapply own_alive; [exact O|]. apply in_or_app. left.
      cbn. right. apply in_app_or in I. apply in_or_app. destruct I as [I|I]; auto. right. right. auto.
    + apply (c_held _ _ _ C a); auto. cbn. right. exact I.
  - rewrite (t_aux _ _ _ _ G). intros s kv b I Ib. assert (Ak : alive h kv).
    { eapply global_alive; eauto. apply in_map_iff. exists (s, kv). auto. }
    unfold fields_at in Ib. rewrite (t_old _ _ _ _ G) in Ib by (apply NO; auto). fold (fields_at h kv) in Ib.
    intros [->|Sb]; [apply AF in Ib; lia|]. eapply c_glob; eauto.
  - rewrite (t_aux _ _ _ _ G). intros a I [->|Sa]; [|eapply c_lisp; eauto].
    assert (Al : alive h (nxt h)); [|apply BD in Al; lia]. eapply own_alive; [exact O|]. apply in_or_app. right.
    unfold held_by_lisp. apply in_or_app. right. exact I.
  - split; auto. split; [apply (t_new _ _ _ _ G)|]. split; [reflexivity|]. split; [|split].
    + intros p Hp. right. apply Sp. eapply kept_spine; [apply (proj2 O)|exact K|apply reach_root; cbn; auto|exact Hp].
    + intros p c x1 y1 Hp E1 B1.
      assert (Hp0 : on_spine h acc p) by (eapply kept_spine; [apply (proj2 O)|exact K|apply reach_root; cbn; auto|exact Hp]).
      destruct (K p) as [c1 [c2 [E2 [E3 T]]]]; [eapply spine_reach; [apply (proj2 O)|apply reach_root; cbn; auto|exact Hp0]|].
      rewrite E1 in E3. injection E3 as <-. apply stored_eq in T. destruct T as [T _]. rewrite B1 in T.
      intros [->|Sx]; [|eapply Ca; eauto].
      assert (I : (nxt h < nxt h)%N); [|lia]. apply (AF p). eapply field_car; [apply (proj2 O)|exact E2|]. symmetry. exact T.
    + intros [->|Sy]; [|apply (c_held _ _ _ C y); cbn; auto].
      assert (Al : alive h (nxt h)); [|apply BD in Al; lia]. eapply own_alive; [exact O|]. cbn. auto.
Qed.

Lemma quiet_car : forall h a c x y, cells h a = Some c -> body c = KPair x y ->
  wpv (hcar a) (fun r h' => r = x /\ quiet h h' /\ aux h' = aux h) h.
Proof. intros h a c x y E Bc. unfold hcar, rd, wpv, hbind_. rewrite E, Bc. apply (quiet_up x h). Qed.
Lemma quiet_cdr : forall h a c x y, cells h a = Some c -> body c = KPair x y ->
  wpv (hcdr a) (fun r h' => r = y /\ quiet h h' /\ aux h' = aux h) h.
Proof. intros h a c x y E Bc. unfold hcdr, rd, wpv, hbind_. rewrite E, Bc. apply (quiet_up y h). Qed.

Lemma o_unpack : forall {A C} (k : N -> N -> HM A) (M : Eval.M C) Q h w L P bd acc va narg vn,
  at_ h w ((bd, Cons va vn) :: L) P -> nest h bd acc narg (heads L ++ heads P ++ F) ->
  (forall h', at_ h' w ((narg, vn) :: L) ((acc, va) :: P) -> sim (k acc narg) M Q h' w) ->
  sim (a <- hcar bd ;; b <- hcdr bd ;; X bd ;;; k a b) M Q h w.
Proof.
  intros A C k M Q h w L P bd acc va narg vn H NE K. assert (NE0 := NE). destruct NE0 as [S [c [CL [Sb [E [Bc _]]]]]].
  assert (AL : forall h1 L1, at_ h1 w L1 P -> In (bd, Cons va vn) L1 -> exists c, cells h1 bd = Some c).
  { intros h1 L1 H1 I1. apply (reads_alive h1 bd (Cons va vn)). eapply (avail_L _ _ _ _ _ _ _ _ _ _ H1); eauto. }
  eapply sim_heap; [eapply wpv_and; [apply (quiet_car _ _ _ _ _ E Bc)|eapply o_car; [exact H|av H]]|].
  intros r h1 [[-> [Q1 A1]] H1]. cbn [car] in H1.
  assert (NE1 : nest h1 bd acc narg (heads L ++ heads P ++ F)).
  { eapply nest_quiet; eauto; [|apply incl_refl]. eapply AL; [exact H1|]. cbn. auto. }
  assert (NE0 := NE1). destruct NE0 as [S1 [c1 [_ [_ [E1 [Bc1 _]]]]]].
  eapply sim_heap; [eapply wpv_and; [apply (quiet_cdr _ _ _ _ _ E1 Bc1)|eapply o_cdr; [exact H1|av H1]]|].
  intros r h2 [[-> [Q2 A2]] H2]. cbn [cdr] in H2.
  assert (NE2 : nest h2 bd acc narg (heads L ++ heads P ++ F)).
  { eapply nest_quiet; eauto; [|apply incl_refl]. eapply AL; [exact H2|]. cbn. auto. }
  focus bd H2. eapply sim_heap; [eapply wpv_and; [apply (quiet_X bd h2)|eapply o_X; exact H2]|].
  intros u h3 [[Q3 A3] H3]. apply K. focus acc H3. apply vat_promote; auto.
  destruct NE2 as [S2 [c2 [C2 [_ [_ [_ [Sp [Ca Nn]]]]]]]]. exists S2. split; [|split].
  - eapply clear_quiet; eauto. cbn. intros a [<-|Ia]; auto. apply (c_held _ _ _ C2). auto.
  - intros p Hp. apply Sp. eapply quiet_spine; eauto.
  - intros p cp x y Hp Ep Bp. destruct (q_same _ _ Q3 _ _ Ep) as [c3 [E3 T3]]. apply stored_eq in T3. destruct T3 as [T3 _].
    eapply Ca; [eapply quiet_spine; eauto|exact E3|rewrite <- T3; exact Bp].
Qed.
End Steps.
