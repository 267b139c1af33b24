(** * HSimLoop: the loops of the heap evaluator do what the loops of the evaluator over
    values do, given that its recursive calls do. *)
From Verif Require Import Value Tails Print Heap HeapSpec HeapProofs HeapOps HEval HEvalSpec HEvalBase HEvalProofs ValueProofs TailsProofs Sem2 Sem5 HSimSpec HSimBase HSimOps HSimList HSimMix HSimPure HSimLisp HSimState HSimChan HSimMark HSimCall HSimTree HSimFlag HSimOwn.
From Verif Require Eval.
Open Scope nat_scope.
Open Scope heap_scope.

Definition one (r : N) (v : atom) (l : list (N * atom)) : Prop := l = [(r, v)].

Ltac inb := cbn [app]; solve [repeat first [eassumption | apply in_eq | apply in_cons] | apply in_or_app; right; eassumption].

Lemma g_flag : forall h a v, reads h a v -> gives (test tail a) h (fun b => match v with Sym t _ | Pair t _ _ => b = t | _ => True end).
Proof.
  intros h a v R. eapply gives_bind; [apply (g_rd _ _ _ R)|]. intros c [E Sc]. apply gives_done.
  destruct v; cbn in Sc; auto; [apply Sc|]. destruct Sc as [p [q [_ [T _]]]]. exact T.
Qed.

Lemma alloc_run : forall b h, wpv (alloc b) (fun r h' => r = nxt h /\ cells h' r = Some (mkcell 1 false false b) /\ forall x, x <> r -> cells h' x = cells h x) h.
Proof.
  intros b h. unfold wpv, alloc. split; auto. split; [cbn; rewrite N.eqb_refl; auto|]. intros x N. cbn. apply N.eqb_neq in N. rewrite N. auto.
Qed.
Lemma u_rd : forall a h, gives (rd a) h (fun _ => True).
Proof. intros a h. unfold gives, wpv, rd. destruct (cells h a); auto. Qed.
Lemma u_CAR : forall a h, gives (CAR a) h (fun _ => True).
Proof. intros a h. eapply gives_bind; [apply u_rd|]. intros c _. destruct (body c); try exact I. apply gives_done. auto. Qed.
Lemma u_CDR : forall a h, gives (CDR a) h (fun _ => True).
Proof. intros a h. eapply gives_bind; [apply u_rd|]. intros c _. destruct (body c); try exact I. apply gives_done. auto. Qed.
Lemma u_value : forall n a h, gives (value_at n a) h (fun _ => True).
Proof.
  induction n as [|n IH]; intros a h; [exact I|]. cbn [value_at]. eapply gives_bind; [apply u_rd|]. intros c _.
  destruct (body c); try (apply gives_done; auto). eapply gives_bind; [apply IH|]. intros v _. eapply gives_bind; [apply IH|]. intros v2 _. apply gives_done. auto.
Qed.
Lemma X_nil_run : forall a h, cells h a = Some (mkcell 1 false false KNil) -> wpv (X a) (fun _ h' => forall x, x <> a -> cells h' x = cells h x) h.
Proof.
  intros a h E. unfold wpv, X. cbn [drop]. unfold hbind_ at 1, rd. rewrite E. cbn [refs body]. unfold hbind_, wr, release, done. rewrite E. cbv beta iota.
  rewrite !set_same. intros x N. rewrite !set_other; auto.
Qed.

Section Rec.
Variable allowed : event -> bool.
Hypothesis NoAny : allowed AssignsAny = false.
Hypothesis NoOdd : allowed OddScope = false.
Hypothesis NoMarks : allowed MarksCode = false.
Variable ev : N -> N -> HM N.
Variable EV : env -> atom -> Eval.M atom.
Hypothesis EVR : forall c ce x xv, runs (ev c x) [(x, xv)] [(c, atom_of_env ce)] (EV ce xv) one.

Section Steps.
Variables (h0 : heap) (F : list N) (B : list (N * atom)) (V0 : list N).
Notation at_ := (vat h0 F B V0).
Hypothesis OP : opens (aux h0) <> 0%N.

Notation avail_in := (avail_in h0 F B V0).
Notation reads_in := (reads_in h0 F B V0).
Lemma s_ev : forall c ce x xv h w L P, at_ h w ((x, xv) :: L) P -> In (c, atom_of_env ce) (L ++ B) ->
  sim (ev c x) (EV ce xv) (fun r v h' w' => at_ h' w' ((r, v) :: L) P) h w.
Proof.
  intros c ce x xv h w L P H I. eapply sim_mono; [eapply (s_call _ _ _ _ (ev c x) (EV ce xv) one [(x, xv)] _ _ _ L P (EVR c ce x xv) OP H)|].
  - intros p [<-|[]]. apply (avail_in _ _ [(x, xv)] _ _ _ _ H I).
  - intros r v h' w' [l' [-> H']]. exact H'.
Qed.

Lemma o_sym : forall s h w L P, at_ h w L P -> wpv (alloc (KSym s)) (fun r h' => at_ h' w ((r, Symb s) :: L) P) h.
Proof.
  intros s h w L P H. apply o_alloc; auto. intros h' c E Bc T. change (Symb s) with (Sym false s). rewrite <- T. eapply reads_sym; eauto.
Qed.
Lemma o_num : forall z h w L P, at_ h w L P -> wpv (alloc (KNum z)) (fun r h' => at_ h' w ((r, Num z) :: L) P) h.
Proof. intros z h w L P H. apply o_alloc; auto. intros h' c E Bc T. eapply reads_num; eauto. Qed.
Lemma o_chr : forall z h w L P, at_ h w L P -> wpv (alloc (KChar z)) (fun r h' => at_ h' w ((r, Chr z) :: L) P) h.
Proof. intros z h w L P H. apply o_alloc; auto. intros h' c E Bc T. eapply reads_char; eauto. Qed.
Lemma o_true : forall h w L P, at_ h w L P -> wpv (alloc KTrue) (fun r h' => at_ h' w ((r, Tru) :: L) P) h.
Proof. intros h w L P H. apply o_alloc; auto. intros h' c E Bc T. eapply reads_true; eauto. Qed.
Lemma o_truth : forall b h w L P, at_ h w L P -> wpv (make_truth b) (fun r h' => at_ h' w ((r, Eval.truth b) :: L) P) h.
Proof. intros [|] h w L P H; [apply o_true; auto|apply o_nil; auto]. Qed.

Ltac xt H a f sh := eapply gives_sim; [eapply (g_test _ a _ f); [eapply (reads_in _ _ _ _ _ _ H); inb|intros ? Sc; apply (sh _ _ _ Sc)]|]; intros ? ->.
Ltac xrd H a Sc := eapply gives_sim; [eapply (g_rd _ a); eapply (reads_in _ _ _ _ _ _ H); inb|]; intros ? [_ Sc].
Ltac xev H r v := eapply sim_bind; [eapply s_ev; [exact H|inb]|]; clear H; cbv beta; let h := fresh "h" in let w := fresh "w" in intros r v h w H.

(** lib/core/lisp.c:232-251 *)
Lemma s_prog : forall n c ce cell v res rv h w L P, at_ h w ((cell, v) :: (res, rv) :: L) P -> In (c, atom_of_env ce) (L ++ B) ->
  sim (hprog ev n c cell res) (Eval.prog EV ce v rv) (fun r v h' w' => at_ h' w' ((r, v) :: L) P) h w.
Proof.
  induction n as [|n IH]; intros c ce cell v res rv h w L P H I; [exact Logic.I|]. cbn [hprog].
  xt H cell is_pair_c shows_pair.
  destruct v as [| | | | | |t x y]; cbn [is_pair];
    try (cbn [Eval.prog]; xX H cell; apply sim_done; exact H).
  xcar H r. cbn [car] in H. cbn [Eval.prog]. xev H q qv. xcdr H d. xX H cell. xX H res. focus q H. focus d H. apply IH; auto.
Qed.

(** lib/core/eval.c:14-74 *)
Definition packed (h : heap) (w : Eval.world) (r : N) (p : env * atom) (L P : list (N * atom)) : Prop :=
  at_ h w ((r, Cons (atom_of_env (fst p)) (snd p)) :: L) P /\ exists acc narg, nest h r acc narg (heads L ++ heads P ++ F).
Lemma o_pack : forall h w L P acc e args av vals vv, at_ h w ((args, av) :: (vals, vv) :: L) ((acc, atom_of_env e) :: P) ->
  wpv (r <- hcons acc args ;; X vals ;;; done r) (fun r h' => packed h' w r (e, av) L P) h.
Proof.
  intros h w L P acc e args av vals vv H. op ltac:(eapply o_nest; exact H). clear H. intros r h1 [H NE].
  focus vals H. apply wpv_bind. eapply wpv_mono; [eapply wpv_and; [apply (quiet_X vals h1)|eapply o_X; exact H]|].
  intros u h2 [[Q A] H2]. split; auto. exists acc, args. eapply nest_quiet; eauto.
  - apply (reads_alive h2 r (Cons (atom_of_env e) av)). eapply (avail_L _ _ _ _ _ _ _ _ _ _ H2). cbn. auto.
  - intros x Ix. cbn. auto.
Qed.
Lemma s_args : forall n c ce acc e args av vals vv h w L P,
  at_ h w ((args, av) :: (vals, vv) :: L) ((acc, atom_of_env e) :: P) -> In (c, atom_of_env ce) (L ++ B) ->
  sim (heval_args allowed ev n c acc args vals) (Eval.eval_args EV ce e av vv) (fun r p h' w' => packed h' w' r p L P) h w.
Proof.
  induction n as [|n IH]; intros c ce acc e args av vals vv h w L P H I; [exact Logic.I|]. cbn [heval_args].
  xrd H args Sc. rewrite (shows_nil _ _ _ Sc), (shows_sym _ _ _ Sc). clear Sc.
  change (match av with Sym _ _ => true | _ => false end) with (is_symb av).
  destruct (is_null av) eqn:NA.
  { destruct av; try discriminate. eapply sim_last; [eapply o_pack; exact H|]. auto. }
  destruct (is_symb av) eqn:SA.
  { destruct av as [| | | | |t s|]; try discriminate.
    eapply gives_sim; [eapply (g_watch _ allowed OddScope n args (Sym t s) plain_names NoOdd); eapply (reads_in _ _ _ _ _ _ H); inb|].
    intros u PN. cbn [Eval.eval_args]. op ltac:(eapply (o_bind _ _ _ _ true n _ _ _ _ acc e); [exact H|exact PN]). clear H. intros hd h1 H.
    cbv beta iota delta [hasl] in H. xnil H z. change (bind e (Sym t s) vv) with ((s, vv) :: e) in H.
    eapply sim_last; [eapply o_nest; exact H|]. intros r9 h9 [H9 NE]. split; auto. eauto. }
  xt H vals is_nil_c shows_nil. destruct (is_null vv) eqn:NV.
  { assert (Q : Eval.eval_args EV ce e av vv = Eval.ret (e, av)) by (destruct vv; try discriminate; destruct av; try discriminate; reflexivity).
    rewrite Q. eapply sim_last; [eapply o_pack; exact H|]. auto. }
  assert (Q : Eval.eval_args EV ce e av vv = Eval.mbind (EV ce (car vv)) (fun v => Eval.eval_args EV ce (bind e (car av) v) (cdr av) (cdr vv))).
  { destruct vv; try discriminate; destruct av; try discriminate; reflexivity. }
  rewrite Q. xcar H arg. xcdr H oth. xX H args. xcar H x. xev H val v. xcdr H rem. xX H vals.
  eapply gives_sim; [eapply (g_watch _ allowed OddScope n arg (car av) plain_names NoOdd); eapply (reads_in _ _ _ _ _ _ H); inb|].
  intros u PN. focus rem H. focus oth H. focus val H. focus arg H.
  op ltac:(eapply (o_bind _ _ _ _ true n _ _ _ _ acc e); [exact H|exact PN]). clear H. intros b h9 H. cbv beta iota delta [hasl] in H.
  apply IH; auto.
Qed.

(** lib/core/eval.c:157-186 *)
Lemma s_tail_loop : forall n cls0 e0 symb sv bdy bv bscl be h w L P, at_ h w ((bscl, atom_of_env be) :: L) P ->
  In (cls0, atom_of_env e0) (L ++ B) -> In (symb, sv) (L ++ B) -> In (bdy, bv) (L ++ B) ->
  sim (htail_loop allowed ev n cls0 symb bdy bscl) (Eval.tail_loop EV n e0 sv bv be)
    (fun r v h' w' => exists e, at_ h' w' ((fst r, v) :: (snd r, atom_of_env e) :: L) P) h w.
Proof.
  induction n as [|n IH]; intros cls0 e0 symb sv bdy bv bscl be h w L P H I1 I2 I3; [exact Logic.I|]. cbn [htail_loop Eval.tail_loop].
  op ltac:(eapply o_mix; [exact H|eapply (avail_in _ _ [] _ _ _ _ H); inb|inl]). clear H. intros cls1 h1 H.
  op ltac:(eapply o_up; [exact H|eapply (avail_in _ _ [] _ _ _ _ H); inb]). clear H. intros b h2 [-> H].
  xnil H z. focus z H. focus bdy H.
  eapply sim_bind; [eapply s_prog; [exact H|inb]|]. clear H. cbv beta. intros res rv h4 w4 H.
  xX H cls1. eapply gives_sim; [apply (g_flag _ res rv); eapply (reads_in _ _ _ _ _ _ H); inb|]. intros t FL.
  assert (OUT : forall v, v = rv -> sim (done (res, bscl)) (Eval.ret v)
    (fun (r : N * N) v h' w' => exists e, at_ h' w' ((fst r, v) :: (snd r, atom_of_env e) :: L) P) h5 w4).
  { intros v ->. apply sim_done. exists be. exact H. }
  destruct t.
  - eapply gives_sim; [apply (g_CAR2 _ res rv); eapply (reads_in _ _ _ _ _ _ H); inb|].
    intros k [c [q [t [kv [dv [Ec [Bc [-> [Rk Rq]]]]]]]]]. subst t.
    eapply gives_sim; [apply (g_same_key _ k symb kv sv Rk); eapply (reads_in _ _ _ _ _ _ H); inb|]. intros m ->.
    assert (Q : Eval.self_call sv (Pair true kv dv) = Some (if match kv, sv with Sym _ s, Sym _ s' => sym_match s s' | _, _ => false end then Some dv else None)).
    { destruct kv; try reflexivity. destruct sv; reflexivity. }
    rewrite Q. clear Q. destruct (match kv with Sym _ _ => _ | _ => _ end); [|apply OUT; reflexivity].
    xX H bscl. xcdr H b2. xX H res. cbn [cdr] in H.
    eapply gives_sim; [eapply (g_watch _ allowed OddScope n b2 dv plain_scope NoOdd); eapply (reads_in _ _ _ _ _ _ H); inb|]. intros u PS.
    apply plain_scope_env in PS. destruct PS as [e' ->].
    apply (sim_pass _ (Eval.opt (Some (Some (atom_of_env e')))) _ _ _ _ (Some (atom_of_env e')) eq_refl). cbv beta iota.
    rewrite env_of_atom_of_env. apply (sim_pass _ (Eval.opt (Some e')) _ _ _ _ e' eq_refl). apply IH; auto.
  - assert (Q : Eval.self_call sv rv = Some None) by (destruct rv as [| | | | |[]|[] ? ?]; try reflexivity; discriminate FL).
    rewrite Q. apply OUT. reflexivity.
Qed.

(** lib/mnml/std/cond.c:5-54 *)
Lemma s_cond : forall n c ce cell cv mtch mv h w L P, at_ h w ((cell, cv) :: (mtch, mv) :: L) P -> In (c, atom_of_env ce) (L ++ B) ->
  sim (hcond ev n c cell mtch) (Eval.cond_loop EV ce cv mv) (fun r v h' w' => at_ h' w' ((r, v) :: L) P) h w.
Proof.
  induction n as [|n IH]; intros c ce cell cv mtch mv h w L P H I; [exact Logic.I|]. cbn [hcond].
  assert (OUT : sim (X cell ;;; X mtch ;;; make_nil) (Eval.ret Nil) (fun r v h' w' => at_ h' w' ((r, v) :: L) P) h w).
  { xX H cell. xX H mtch. op ltac:(eapply o_nil; exact H). auto. }
  xrd H mtch Sc. destruct mv as [| | | | |t s|t xv yv]; cbn in Sc; try (rewrite Sc; exact OUT).
  { destruct Sc as [-> _]. exact OUT. }
  destruct Sc as [p [q [Bc [_ [Rp Rq]]]]]. rewrite Bc.
  eapply gives_sim; [apply (g_rd _ _ _ Rp)|]. intros ca [_ Sa]. rewrite (shows_pair _ _ _ Sa). clear Sa.
  destruct xv as [| | | | |t1 s1|t1 av pv]; cbn [is_pair Eval.cond_loop]; try exact OUT. clear OUT.
  xcar H a. xcdr H d. xX H mtch. xcar H args. xcdr H prg. xX H a. cbn [car cdr] in H.
  xt H args is_wild_c shows_wild.
  assert (W : av = Value.Wild \/ (match av with Value.Wild => true | _ => false end = false /\
    match av with Value.Wild => EV ce pv | _ => Eval.mbind (EV ce (Cons av (Cons cv Nil))) (fun res => if is_true res then EV ce pv else Eval.cond_loop EV ce cv yv) end =
    Eval.mbind (EV ce (Cons av (Cons cv Nil))) (fun res => if is_true res then EV ce pv else Eval.cond_loop EV ce cv yv))) by (destruct av; auto).
  destruct W as [->|[-> ->]].
  - xX H args. xX H d. xX H cell. apply s_ev; auto.
  - op ltac:(eapply o_up; [exact H|eapply (avail_in _ _ [] _ _ _ _ H); inb]). clear H. intros u h9 [-> H].
    xnil H z. xcons H cell z con. xcons H args con evl. xev H res rv.
    xt H res is_true_c shows_true. change (match rv with Tru => true | _ => false end) with (is_true rv). destruct (is_true rv).
    + xX H d. xX H cell. xX H res. apply s_ev; auto.
    + xX H prg. xX H res. focus d H. focus cell H. apply IH; auto.
Qed.

(** lib/mnml/std/match.c:27-61 *)
Lemma s_match : forall n c ce v vv mtch mv h w L P, at_ h w ((v, vv) :: (mtch, mv) :: L) P -> In (c, atom_of_env ce) (L ++ B) ->
  sim (hmatch_loop ev n c v mtch) (Eval.match_loop EV ce vv mv) (fun r v h' w' => at_ h' w' ((r, v) :: L) P) h w.
Proof.
  induction n as [|n IH]; intros c ce v vv mtch mv h w L P H I; [exact Logic.I|]. cbn [hmatch_loop].
  assert (OUT : sim (X v ;;; X mtch ;;; make_nil) (Eval.ret Nil) (fun r v h' w' => at_ h' w' ((r, v) :: L) P) h w).
  { xX H v. xX H mtch. op ltac:(eapply o_nil; exact H). auto. }
  xrd H mtch Sc. destruct mv as [| | | | |t s|t xv yv]; cbn in Sc; try (rewrite Sc; exact OUT).
  { destruct Sc as [-> _]. exact OUT. }
  destruct Sc as [p [q [Bc [_ [Rp Rq]]]]]. rewrite Bc.
  eapply gives_sim; [apply (g_rd _ _ _ Rp)|]. intros ca [_ Sa]. rewrite (shows_pair _ _ _ Sa). clear Sa.
  destruct xv as [| | | | |t1 s1|t1 av pv]; cbn [is_pair Eval.match_loop]; try exact OUT. clear OUT.
  xcar H a. xcdr H d. xX H mtch. xcar H args. xcdr H prg. xX H a. cbn [car cdr] in H.
  eapply gives_sim; [apply (g_match _ n args v av vv); eapply (reads_in _ _ _ _ _ _ H); inb|]. intros m ->.
  destruct (atom_match av vv).
  - xX H args. xX H d. xX H v. apply s_ev; auto.
  - xX H args. xX H prg. focus d H. focus v H. apply IH; auto.
Qed.

(** lib/mnml/std/list.c:6-28 *)
Lemma s_list : forall n c ce cell v h w L P, at_ h w ((cell, v) :: L) P -> In (c, atom_of_env ce) (L ++ B) ->
  sim (hlist ev n c cell) (Eval.list_loop EV ce v) (fun r v h' w' => at_ h' w' ((r, v) :: L) P) h w.
Proof.
  induction n as [|n IH]; intros c ce cell v h w L P H I; [exact Logic.I|]. cbn [hlist].
  xt H cell is_pair_c shows_pair. destruct v as [| | | | |t s|t xv yv]; cbn [is_pair Eval.list_loop]; try (apply sim_done; exact H).
  xcar H a. xcdr H d. xX H cell. cbn [car cdr] in H.
  eapply sim_bind; [eapply IH; [exact H|inb]|]. clear H. cbv beta. intros res rv h8 w8 H.
  focus a H. xev H e ev_. xcons H e res x. exact H.
Qed.

(** lib/mnml/std/stream.c:6-37 *)
Lemma s_stream : forall n c ce any av expr xv h w L P, at_ h w ((any, av) :: (expr, xv) :: L) P -> In (c, atom_of_env ce) (L ++ B) ->
  sim (hstream ev n c any expr) (Eval.stream_loop EV ce av xv) (fun r v h' w' => at_ h' w' ((r, v) :: L) P) h w.
Proof.
  induction n as [|n IH]; intros c ce any av expr xv h w L P H I; [exact Logic.I|]. cbn [hstream].
  set (next := fun a r => Cons a (Cons (Cons (Symb (sy "quote")) r) Nil)).
  assert (Q : Eval.stream_loop EV ce av xv = Eval.mbind (EV ce xv) (fun r =>
    match av with Nil => Eval.ret r | Pair _ a d => Eval.stream_loop EV ce d (next a r) | _ => EV ce (next Nil r) end)) by (destruct av; reflexivity).
  rewrite Q. clear Q. focus expr H. xev H res rv. xt H any is_nil_c shows_nil.
  destruct (is_null av) eqn:NA.
  { destruct av; try discriminate. xX H any. apply sim_done. exact H. }
  xcar H a. xcdr H d. xX H any.
  op ltac:(eapply o_sym; exact H).
  clear H. intros q h8 H. xcons H q res cn0. xnil H z. xcons H cn0 z cn1. xcons H a cn1 nx. focus d H.
  pose proof (IH c ce d (cdr av) nx (next (car av) rv) _ _ L P H I) as R.
  destruct av; try discriminate; try exact R; apply sim_ret; exact R.
Qed.

(** lib/mnml/std/while.c:15-37 *)
Lemma s_while : forall n c ce cnd cv prg pv res rv h w L P, at_ h w ((res, rv) :: L) P -> In (c, atom_of_env ce) (L ++ B) ->
  In (cnd, cv) (L ++ B) -> In (prg, pv) (L ++ B) ->
  sim (hwhile ev n c cnd prg res) (Eval.while_loop EV n ce cv pv rv) (fun r v h' w' => at_ h' w' ((r, v) :: L) P) h w.
Proof.
  induction n as [|n IH]; intros c ce cnd cv prg pv res rv h w L P H I I1 I2; [exact Logic.I|]. cbn [hwhile Eval.while_loop].
  op ltac:(eapply o_up; [exact H|eapply (avail_in _ _ [] _ _ _ _ H); inb]). clear H. intros u h2 [-> H].
  xev H e ev_. xt H e is_nil_c shows_nil. xX H e. destruct (is_null ev_); [apply sim_done; exact H|].
  xX H res. op ltac:(eapply o_up; [exact H|eapply (avail_in _ _ [] _ _ _ _ H); inb]). clear H. intros u h9 [-> H].
  xnil H z. focus z H. focus prg H. eapply sim_bind; [eapply s_prog; [exact H|inb]|]. clear H. cbv beta. intros r r' h8 w8 H.
  apply IH; auto.
Qed.

(** lib/mnml/io/prin.c:5-28, print.c:6-32 *)
Lemma s_prin : forall n lit c ce cell v res rv h w L P, at_ h w ((cell, v) :: (res, rv) :: L) P -> In (c, atom_of_env ce) (L ++ B) ->
  sim (hprin_all ev n lit c cell res) (Eval.prin_all EV lit ce v rv) (fun r v h' w' => at_ h' w' ((r, v) :: L) P) h w.
Proof.
  induction n as [|n IH]; intros lit c ce cell v res rv h w L P H I; [exact Logic.I|]. cbn [hprin_all].
  xt H cell is_nil_c shows_nil. destruct (is_null v) eqn:NV.
  { destruct v; try discriminate. xX H cell. cbn [Eval.prin_all]. apply sim_done. exact H. }
  assert (R : sim (X res ;;; x <- hcar cell ;; v1 <- ev c x ;; cdr <- hcdr cell ;; X cell ;;; hprint n v1 lit ;;; t <- test is_nil_c cdr ;;
      (if lit && negb t then hemit (bs " ") else done tt) ;;; hprin_all ev n lit c cdr v1)
    (Eval.mbind (EV ce (car v)) (fun u => Eval.mbind (Eval.print_atom u lit) (fun _ => Eval.mbind
      (if lit && negb (is_null (cdr v)) then (Eval.emit (bs " ")) else (Eval.ret tt)) (fun _ => Eval.prin_all EV lit ce (cdr v) u))))
    (fun r v h' w' => at_ h' w' ((r, v) :: L) P) h w).
  { xX H res. xcar H x. xev H u uv. xcdr H d. xX H cell. focus u H.
    eapply sim_bind; [eapply (s_print allowed NoAny); [exact H|eapply (avail_in _ _ [] _ _ _ _ H); inb]|]. clear H. cbv beta. intros _ _ h8 w8 H.
    xt H d is_nil_c shows_nil.
    eapply sim_bind; [instantiate (1 := fun _ _ h' w' => at_ h' w' ((u, uv) :: (d, cdr v) :: L) P)|].
    - destruct (lit && negb (is_null (cdr v))); [apply (s_emit allowed NoAny); exact H|apply sim_done; exact H].
    - cbv beta. clear H. intros _ _ h9 w9 H. focus d H. apply IH; auto. }
  destruct v; try discriminate; cbn [car cdr is_null negb] in R; rewrite ?andb_false_r in R; exact R.
Qed.

(** lib/core/lisp.c:212-226 *)
Lemma s_hsetq : forall h w L P e sv v k x, at_ h w ((e, Cons sv v) :: L) P ->
  cells h e = Some (mkcell 1 false false (KPair k x)) ->
  sim (hsetq allowed e) (match sv with Sym _ s => (Eval.set_global s v) | _ => (Eval.ret tt) end) (fun _ _ h' w' => at_ h' w' L P) h w.
Proof.
  intros h w L P e sv v k x H Ee.
  eapply (sim_world _ _ _ _ h w tt (match sv with Sym _ s => assigned s v w | _ => w end)); [eapply (o_setq allowed NoAny); [exact H|exact Ee]|destruct sv; reflexivity|].
  auto.
Qed.

(** lib/mnml/std/setq.c:5-29 *)
Lemma s_setq : forall c ce any av h w L P, at_ h w L P -> In (c, atom_of_env ce) (L ++ B) -> In (any, av) (L ++ B) ->
  sim (hrun_setq allowed ev c any) (Eval.run_setq EV ce av) (fun r v h' w' => at_ h' w' ((r, v) :: L) P) h w.
Proof.
  intros c ce any av h w L P H I1 I2. unfold hrun_setq, Eval.run_setq.
  op ltac:(eapply o_car; [exact H|eapply (avail_in _ _ [] _ _ _ _ H); inb]). clear H. intros sym h1 H.
  op ltac:(eapply o_cdr; [exact H|eapply (avail_in _ _ [] _ _ _ _ H); inb]). clear H. intros d h2 H.
  xcar H x. xev H res rv. xX H d. xt H res is_nil_c shows_nil. destruct (is_null rv).
  { xX H sym. apply sim_done. exact H. }
  xup H. focus sym H. op ltac:(eapply o_cons; exact H). clear H. intros elt h99 [-> [G H]].
  eapply sim_bind; [eapply s_hsetq; [exact H|apply (t_new _ _ _ _ G)]|]. cbv beta. clear H. intros _ _ h8 w8 H. apply sim_done. exact H.
Qed.

(** lib/mnml/std/def.c:6-56 *)
Lemma s_def : forall n full cv any av h w L P, at_ h w ((full, cv) :: L) P -> argument h full any -> reads h any av ->
  sim (hdef allowed n full any) (Eval.run_def av) (fun r v h' w' => exists cv', at_ h' w' ((r, v) :: (full, cv') :: L) P) h w.
Proof.
  intros n full cv any av h w L P H AR RA. unfold hdef. pose proof (vat_strong _ _ _ _ _ _ _ _ H) as St.
  assert (Rc : reads h full cv) by (eapply (reads_in _ _ _ _ _ _ H); cbn; auto).
  op ltac:(eapply wpv_and; [apply (ages_car any h)|eapply o_car; [exact H|apply (argument_avail _ _ _ _ _ _ _ St AR RA)]]). intros symb h1 [AG H1].
  assert (Rc1 : reads h1 full cv) by (eapply (reads_in _ _ _ _ _ _ H1); cbn; auto).
  destruct (argument_ages _ _ _ _ _ _ (bounded _ _ (proj1 (vat_own _ _ _ _ _ _ _ _ H))) AR Rc RA Rc1 AG) as [AR1 RA1]. clear H AR RA Rc Rc1 St AG. rename H1 into H.
  assert (AV : avail h1 ((symb, car av) :: (full, cv) :: L) B any av).
  { eapply avail_cons. apply (argument_avail _ _ _ _ _ _ _ (vat_strong _ _ _ _ _ _ _ _ H) AR1 RA1). }
  xt H symb is_sym_c shows_sym. change (match car av with Sym _ _ => true | _ => false end) with (is_symb (car av)).
  destruct (is_symb (car av)) eqn:SY; cbn [negb].
  2:{ assert (Q : Eval.run_def av = Eval.ret Nil) by (unfold Eval.run_def; destruct (car av); try discriminate; reflexivity).
      rewrite Q. clear Q. unfold bar. destruct (allowed DefinesNonSymbol); [|exact Logic.I].
      change (done tt ;;; forget symb ;;; make_nil) with (forget symb ;;; make_nil).
      op ltac:(eapply (o_forget allowed NoAny); exact H). clear H. intros u h2 H. op ltac:(eapply o_nil; exact H). eauto. }
  destruct (car av) as [| | | | |t k|] eqn:CA; try discriminate. clear SY. unfold Eval.run_def. rewrite CA. cbv zeta.
  op ltac:(eapply o_cdr; [exact H|exact AV]). clear H AV. intros d h2 H.
  xcar H args. xrd H args Sc. rewrite (shows_nil _ _ _ Sc), (shows_sym _ _ _ Sc), (shows_pair _ _ _ Sc). clear Sc.
  set (xa := car (cdr av)) in *.
  assert (Q : is_null xa || is_pair xa || (match xa with Sym _ _ => true | _ => false end) = is_list xa || is_symb xa) by (destruct xa; reflexivity).
  rewrite Q. clear Q. destruct (is_list xa || is_symb xa) eqn:LA; cbn [negb].
  2:{ xX H symb. xX H d. xX H args. op ltac:(eapply o_nil; exact H). eauto. }
  xcdr H prg. set (pv := cdr (cdr av)) in *. xX H d. xcar H doc. xrd H doc Sc.
  set (isdoc := is_pair (car pv) && is_char (car (car pv))).
  assert (D : gives (match body r0 with KPair a _ => test is_char_c a | _ => done false end) h6 (fun b => b = isdoc)).
  { unfold isdoc. destruct (car pv) as [| | | | |? ?|? pa pd]; cbn in Sc; try (rewrite Sc; apply gives_done; reflexivity).
    - destruct Sc as [-> _]. apply gives_done. reflexivity.
    - destruct Sc as [p [q [-> [_ [Rp _]]]]]. eapply gives_mono; [eapply (g_test h6 p _ is_char_c); [exact Rp|intros c0 S0; apply (shows_char _ _ _ S0)]|].
      intros b ->. cbn. destruct pa; reflexivity. }
  eapply gives_sim; [exact D|]. intros ? ->. clear D Sc.
  assert (K : wpv (if isdoc : bool then nx <- hcdr prg ;; X prg ;;; done nx else done prg)
    (fun prg2 h' => at_ h' w ((prg2, if isdoc then cdr pv else pv) :: (doc, car pv) :: (args, xa) :: (symb, Sym t k) :: (full, cv) :: L) P) h6).
  { destruct isdoc.
    - xcdr H nx. xX H prg. unfold wpv, done. exact H.
    - unfold wpv, done. focus prg H. exact H. }
  op ltac:(exact K). clear K H. intros prg2 h7 H. set (bv := if isdoc then cdr pv else pv) in *.
  xX H doc.
  eapply gives_sim; [eapply (g_watch_marks _ allowed (code_owned n full prg2) n symb args prg2 (Sym t k) xa bv NoMarks); eapply (reads_in _ _ _ _ _ _ H); inb|].
  intros u [t0 [k0 [Q M]]]. injection Q as <- <-.
  assert (MK : wpv (hmark n symb args prg2) (fun _ h' => exists b' cv', mark_body k xa bv = Some b' /\
    at_ h' w ((prg2, b') :: (args, xa) :: (symb, Sym t k) :: (full, cv') :: L) P) h8).
  { assert (M' : (mark_body k xa bv = None \/ mark_body k xa bv = Some bv) \/ code_owned n full prg2 h8 = true /\ exists b', mark_body k xa bv = Some b') by tauto.
    clear M. destruct M' as [M|[CO [b' M]]].
    - op ltac:(eapply o_mark; [exact H|inb|inb|inb|exact M]). intros u1 h9 [H9 Q]. eauto.
    - focus full H. focus prg2 H. op ltac:(eapply o_mark_owned; [exact H|inb|inb|exact CO|exact M]). clear H. intros u1 h9 [cv' H]. exists b', cv'. split; auto.
      focus symb H. focus args H. focus prg2 H. exact H. }
  op ltac:(exact MK). clear H MK M. intros u1 h9 [b' [cv' [-> H]]].
  apply (sim_pass _ (Eval.opt (Some b')) _ _ _ _ b' eq_refl).
  xnil H zz. xcons H zz prg2 con0. xcons H args con0 con1. op ltac:(eapply o_up; [exact H|av H]); clear H; intros ? h99 [-> H].
  focus con1 H. focus symb H. op ltac:(eapply o_cons; exact H). clear H. intros elt h98 [-> [G H]].
  eapply sim_bind; [eapply (s_hsetq _ _ _ _ _ (Sym t k)); [exact H|apply (t_new _ _ _ _ G)]|]. cbv beta. clear H. intros _ _ h97 w8 H. apply sim_done. eauto.
Qed.

(** lib/mnml/std/set.c:6-51 *)
Lemma s_set : forall n c ce any av h w L P, at_ h w L P -> In (c, atom_of_env ce) (L ++ B) -> In (any, av) (L ++ B) ->
  sim (hrun_set allowed ev n c any) (Eval.run_set EV ce av) (fun r v h' w' => at_ h' w' ((r, v) :: L) P) h w.
Proof.
  intros n c ce any av h w L P H I1 I2. unfold hrun_set, Eval.run_set.
  unfold bar. destruct (allowed UsesSet) eqn:AL; [|exact Logic.I]. eapply gives_sim; [apply (gives_done tt _ (fun _ => True)); auto|]. intros _ _.
  op ltac:(eapply o_car; [exact H|eapply (avail_in _ _ [] _ _ _ _ H); inb]). clear H. intros x h1 H.
  xev H sym sv. op ltac:(eapply o_cdr; [exact H|eapply (avail_in _ _ [] _ _ _ _ H); inb]). clear H. intros d h3 H.
  xcar H y. xev H val vv. focus d H. op ltac:(eapply (o_forget allowed NoAny); exact H). clear H. intros u h6 H.
  xt H sym is_sym_c shows_sym. destruct sv as [| | | | |t k|]; cbn [negb];
    try (xX H sym; xX H val; op ltac:(eapply o_nil; exact H); auto; fail).
  eapply gives_sim; [apply (g_symbol _ sym (Sym t k)); eapply (reads_in _ _ _ _ _ _ H); inb|]. intros s [t1 Q]. injection Q as <- <-.
  op ltac:(apply wp_wpv; apply (bar_any_spec allowed NoAny)). intros u0 h7 [-> NA].
  eapply gives_sim; [apply (g_find _ n c ce k); eapply (reads_in _ _ _ _ _ _ H); inb|]. intros [kv|] FD.
  { destruct FD as [v0 [-> _]]. apply sim_shared. }
  rewrite FD. focus val H. focus sym H. op ltac:(eapply o_cons; exact H). clear H. intros elt h8 [-> [G H]].
  assert (GG : gives (global k) h8 (fun g => g = global_at h8 k)) by (unfold gives, global, get_aux, hbind_, done, wpv; auto).
  eapply gives_sim; [exact GG|]. clear GG. intros g Q. pose proof (v_lisp _ _ _ _ _ _ _ _ H) as LI.
  destruct g as [data|].
  - symmetry in Q. destruct (global_value _ _ _ _ LI Q) as [o [_ [_ [_ [GO _]]]]]. unfold sim. rewrite GO.
    change (sim (swap_values data (nxt h6) ;;; done (nxt h6)) (Eval.mbind (Eval.set_global k vv) (fun _ => Eval.ret (Cons (Sym t k) o)))
      (fun r v h' w' => at_ h' w' ((r, v) :: L) P) h8 w1).
    eapply (sim_world _ _ (fun r h' => at_ h' (assigned k vv w1) ((r, Cons (Sym t k) o) :: L) P) _ _ _ (Cons (Sym t k) o) (assigned k vv w1)); [|reflexivity|auto].
    op ltac:(eapply (o_swap _ _ _ _ allowed NoAny); [exact H|apply (t_new _ _ _ _ G)|exact NA|exact Q]).
    intros u1 h9 [o1 [GO1 H9]]. assert (o1 = o) by congruence. subst o1. unfold wpv, done. exact H9.
  - assert (GO : env_get (Eval.globals w1) k = None).
    { destruct (env_get (Eval.globals w1) k) as [o|] eqn:GO; auto. destruct (g_bound _ _ LI _ _ GO) as [kv [_ [_ [_ [Q1 _]]]]]. congruence. }
    unfold sim. rewrite GO. match goal with |- match ?m h8 with _ => _ end =>
      change (sim m (Eval.ret Nil) (fun r v h' w' => at_ h' w' ((r, v) :: L) P) h8 w1) end.
    assert (E8 : cells h8 (nxt h6) = Some (mkcell 1 false false (KPair sym val))) by apply (t_new _ _ _ _ G).
    op ltac:(eapply wpv_and; [apply (alloc_run KNil h8)|eapply o_nil; exact H]). clear H. intros res h9 [[-> [ER OT]] H].
    assert (NX : nxt h6 <> nxt h8) by (rewrite (t_nxt _ _ _ _ G); lia). rewrite <- (OT _ NX) in E8.
    op ltac:(eapply wpv_and; [apply (X_nil_run _ _ ER)|eapply o_X; exact H]). clear H. intros u1 h10 [OT2 H]. rewrite <- (OT2 _ NX) in E8.
    op ltac:(eapply (o_abandon allowed NoAny); [exact H|exact E8|auto]). clear H. intros u2 h11 H.
    xX H sym. xX H val. op ltac:(eapply o_nil; exact H). auto.
Qed.

(** lib/mnml/logic/or.c:5-38 *)
Lemma s_or : forall c ce any av h w L P, at_ h w L P -> In (c, atom_of_env ce) (L ++ B) -> In (any, av) (L ++ B) ->
  sim (hrun_or ev c any) (Eval.run_or EV ce av) (fun r v h' w' => at_ h' w' ((r, v) :: L) P) h w.
Proof.
  intros c ce any av h w L P H I1 I2. unfold hrun_or, Eval.run_or.
  op ltac:(eapply o_car; [exact H|eapply (avail_in _ _ [] _ _ _ _ H); inb]). clear H. intros ar0 h1 H.
  op ltac:(eapply o_cdr; [exact H|eapply (avail_in _ _ [] _ _ _ _ H); inb]). clear H. intros d h2 H.
  xcar H ar1. xX H d. focus ar0 H. xev H ra0 rv0. xt H ra0 is_nil_c shows_nil. destruct (is_null rv0) eqn:N0; cbn [negb].
  - xX H ra0. xev H ra1 rv1. xt H ra1 is_nil_c shows_nil. destruct (is_null rv1) eqn:N1.
    + destruct rv1; try discriminate. apply sim_done. exact H.
    + xX H ra1. op ltac:(eapply o_true; exact H). auto.
  - xX H ra0. xX H ar1. op ltac:(eapply o_true; exact H). auto.
Qed.

(** lib/mnml/io/in.c:14-91, out.c:14-87 *)
Lemma some_chan : forall output h w L P, at_ h w L P -> exists m l, wchan output w = m :: l.
Proof.
  intros output h w L P H. pose proof (v_lisp _ _ _ _ _ _ _ _ H) as LI. pose proof (v_open _ _ _ _ _ _ _ _ H) as VO.
  pose proof (g_chan output _ _ LI) as GC.
  destruct (h_chans _ _ (v_holds _ _ _ _ _ _ _ _ H) ltac:(lia) (chan output (aux h))) as [cc [Ec Pc]]; [destruct output; auto|].
  destruct GC as [a c0 E0 B0|]; [|eauto]. rewrite Ec in E0. injection E0 as <-. unfold is_pair_c in Pc. rewrite B0 in Pc. discriminate.
Qed.
Lemma s_chan : forall (EVK : forall e x, keeps (EV e x)) opened pwd n output c ce ch cv rm rv h w L P, at_ h w L P -> In (c, atom_of_env ce) (L ++ B) ->
  In (ch, cv) (L ++ B) -> In (rm, rv) (L ++ B) ->
  sim (hwith_chan opened pwd ev n output c ch rm) (Eval.with_chan opened EV output ce cv rv) (fun r v h' w' => at_ h' w' ((r, v) :: L) P) h w.
Proof.
  intros EVK opened pwd n output c ce ch cv rm rv h w L P H I1 I2 I3. unfold hwith_chan, Eval.with_chan.
  assert (D : gives (if output then done pwd else r <- get_aux ;; e <- CAR (ichan r) ;; d <- CDR e ;; s <- CAR d ;; value_at n s) h (fun _ => True)).
  { destruct output; [apply gives_done; auto|]. eapply (gives_bind _ _ _ (fun _ => True)); [unfold gives, get_aux, wpv; auto|]. intros r _.
    eapply gives_bind; [apply u_CAR|]. intros e _. eapply gives_bind; [apply u_CDR|]. intros d _. eapply gives_bind; [apply u_CAR|]. intros s _. apply u_value. }
  eapply gives_sim; [exact D|]. clear D. intros dir _.
  eapply gives_sim; [apply (g_value _ n ch cv); eapply (reads_in _ _ _ _ _ _ H); inb|]. intros ? ->.
  destruct (some_chan false _ _ _ _ H) as [m0 [l0 CH0]].
  match goal with |- sim _ (Eval.mbind ?M ?K) _ _ _ => apply (sim_pass _ M K _ _ _ tt); [destruct output; auto; cbn in CH0; rewrite CH0; reflexivity|] end.
  eapply sim_bind; [eapply (s_open allowed NoAny); [exact OP|exact H]|]. cbv beta. clear H CH0 m0 l0. intros k k' h1 w1 [-> [H _]].
  destruct k as [k|]; [|op ltac:(eapply o_nil; exact H); auto].
  destruct (some_chan output _ _ _ _ H) as [m [l CH]].
  eapply sim_bind.
  { eapply (sim_world _ _ _ (fun _ _ h' w' => w' = with_wchan output w1 (k :: wchan output w1) /\ at_ h' w' L P) _ _ tt (with_wchan output w1 (k :: wchan output w1))); [eapply (o_push allowed NoAny); exact H|unfold Eval.push_chan; destruct output; reflexivity|].
    cbv beta. auto. }
  clear H. cbv beta. intros _ _ h2 w2 [W2 H].
  op ltac:(eapply o_up; [exact H|eapply (avail_in _ _ [] _ _ _ _ H); inb]). clear H. intros u h3 [-> H].
  xnil H z. focus z H. focus rm H.
  eapply sim_bind; [eapply sim_with; eapply s_prog; [exact H|inb]|]. clear H. cbv beta. intros res rv2 h5 w5 [H RET].
  apply (prog_keeps _ EVK) in RET. destruct RET as [_ [EI [EO _]]].
  assert (WC : wchan output w5 = k :: m :: l) by (subst w2; rewrite CH in *; destruct output; cbn in *; congruence).
  eapply sim_bind.
  { eapply (sim_world _ _ _ (fun _ _ h' w' => at_ h' w' ((res, rv2) :: L) P) _ _ tt (with_wchan output w5 (m :: l))); [eapply (o_pop allowed NoAny); [exact H|exact WC]| |].
    - unfold Eval.pop_chan. destruct output; cbn in WC; rewrite WC; reflexivity.
    - cbv beta. auto. }
  clear H. cbv beta. intros _ _ h6 w6 H. apply sim_done. exact H.
Qed.
(** lib/mnml/std/let.c:7-74 *)
Lemma o_bind_sym : forall h w L P arg k val vv clos e, at_ h w ((arg, Sym false k) :: (val, vv) :: (clos, atom_of_env e) :: L) P ->
  wpv (kv <- hcons arg val ;; hcons kv clos) (fun nx h' => let L' := (nx, atom_of_env ((k, vv) :: e)) :: L in at_ h' w L' P /\
    avail h' L' B arg (Sym false k) /\ avail h' L' B val vv) h.
Proof.
  intros h w L P arg k val vv clos e H. op ltac:(eapply o_cons; exact H). intros kv h1 [-> [G1 H1]].
  op ltac:(eapply o_cons; exact H1). intros nx h2 [-> [G2 H2]]. cbv zeta. split; [exact H2|].
  destruct (avail_parts _ _ _ _ _ _ _ _ _ _ _ _ H2 (avail_L _ _ _ _ _ _ _ _ _ _ H2 (in_eq _ _))) as [c1 [p1 [q1 [E1 [B1 [_ [A1 _]]]]]]].
  rewrite (t_new _ _ _ _ G2) in E1. injection E1 as <-. injection B1 as <- <-.
  destruct (avail_parts _ _ _ _ _ _ _ _ _ _ _ _ H2 A1) as [c2 [p2 [q2 [E2 [B2 [_ [A2 A3]]]]]]].
  rewrite (t_old _ _ _ _ G2), (t_new _ _ _ _ G1) in E2 by (rewrite (t_nxt _ _ _ _ G1); lia). injection E2 as <-. injection B2 as <- <-. auto.
Qed.
Lemma r_mark : forall n symb args bdy t k av bv, mark_body k av bv = None \/ mark_body k av bv = Some bv ->
  runs (hmark n symb args bdy) [] [(symb, Sym t k); (args, av); (bdy, bv)] (Eval.opt (mark_body k av bv)) (fun _ v l' => v = bv /\ l' = []).
Proof.
  intros n symb args bdy t k av bv M F1 h w NZ H.
  assert (W : wpv (hmark n symb args bdy) (fun _ h' => vat h F1 [(symb, Sym t k); (args, av); (bdy, bv)] (heads [] ++ heads [(symb, Sym t k); (args, av); (bdy, bv)]) h' w [] [] /\ mark_body k av bv = Some bv) h)
    by (eapply o_mark; [exact H|cbn; auto|cbn; auto|cbn; auto|exact M]).
  unfold sim, wpv in *. destruct (hmark n symb args bdy h); auto. destruct W as [W ->]. cbn. exists []. auto.
Qed.
Lemma unflagged_name : forall t k, plain_names (Sym t k) = true -> t = false.
Proof. intros [] k H; [discriminate|reflexivity]. Qed.
Lemma s_let_bind : forall n c ce env0 e cell v h w L P, at_ h w ((env0, atom_of_env e) :: (cell, v) :: L) P -> In (c, atom_of_env ce) (L ++ B) ->
  sim (hlet_bind allowed ev n c env0 cell) (Eval.let_bind EV ce e v) (fun r e' h' w' => at_ h' w' ((r, atom_of_env e') :: L) P) h w.
Proof.
  induction n as [|n IH]; intros c ce env0 e cell v h w L P H I; [exact Logic.I|]. cbn [hlet_bind].
  xt H cell is_pair_c shows_pair. destruct v as [| | | | |t s|t xv yv]; cbn [is_pair negb];
    try (cbn [Eval.let_bind]; xX H cell; apply sim_done; exact H).
  xcar H a. xcdr H d. xX H cell. cbn [car cdr] in H. xt H a is_pair_c shows_pair.
  destruct xv as [| | | | |t1 s1|t1 arv nvv]; cbn [is_pair negb];
    try (cbn [Eval.let_bind]; xX H a; xX H d; apply sim_done; exact H).
  cbn [Eval.let_bind]. cbv zeta.
  op ltac:(eapply o_mix; [exact H|eapply (avail_in _ _ [] _ _ _ _ H); inb|inl]). clear H. intros tmp h4 H.
  xcar H arg. xcdr H nvl. xX H a. cbn [car cdr] in H. focus nvl H. xev H val vv.
  eapply gives_sim; [eapply (g_watch _ allowed OddScope n arg arv plain_names NoOdd); eapply (reads_in _ _ _ _ _ _ H); inb|]. intros u PN.
  focus env0 H. focus val H. focus arg H.
  match type of H with at_ ?h9 ?w9 _ _ => set (hh := h9) in *; set (ww := w9) in * end.
  destruct (is_symb arv) eqn:SY.
  - destruct arv as [| | | | |ta k|]; try discriminate. apply unflagged_name in PN. subst ta.
    assert (HB : wpv (hbind n env0 arg val) (fun nx h' => let L' := (nx, atom_of_env ((k, vv) :: e)) :: (tmp, atom_of_env (merge ce e)) :: (d, yv) :: L in at_ h' ww L' P /\
      avail h' L' B arg (Sym false k) /\ avail h' L' B val vv) hh).
    { destruct n as [|n']; [exact Logic.I|]. cbn [hbind]. eapply gives_wpv; [apply (g_rd _ arg (Sym false k)); eapply (reads_in _ _ _ _ _ _ H); inb|].
      intros ca [_ [-> _]]. eapply o_bind_sym. exact H. }
    op ltac:(exact HB). clear HB H. intros nx h9 [H [Aa Av]]. cbv zeta in Aa, Av.
    eapply gives_sim; [eapply (g_test _ arg _ is_sym_c); [apply (proj1 Aa)|intros ? Sc; apply (shows_sym _ _ _ Sc)]|]. intros ? ->.
    set (L' := (nx, atom_of_env ((k, vv) :: e)) :: (tmp, atom_of_env (merge ce e)) :: (d, yv) :: L) in *.
    eapply (sim_bind _ _ _ _ (fun _ v' h' w' => v' = vv /\ at_ h' w' L' P)).
    + eapply gives_sim; [apply (g_func _ val vv (proj1 Av))|]. intros ? ->. destruct (is_func vv) eqn:FN; [|apply sim_done; auto].
      eapply gives_sim; [apply (g_symbol _ arg _ (proj1 Aa))|]. intros s [t2 Q]. injection Q as <- <-.
      eapply gives_sim; [apply (g_find _ n tmp (merge ce e) k); eapply (reads_in _ _ _ _ _ _ H); unfold L'; inb|]. intros [kv|] FD.
      { destruct FD as [v0 [-> _]]. apply sim_done. auto. }
      rewrite FD.
      op ltac:(eapply o_CAR; [exact H|exact Av]). intros a2 h10 [-> [t3 [x3 [y3 [-> A3]]]]].
      op ltac:(eapply o_CDR; [exact H|exact Av]). intros d2 h10 [-> [t4 [x4 [y4 [Q A4]]]]]. injection Q as <- <- <-.
      op ltac:(eapply o_CDR; [exact H|exact A4]). intros b2 h10 [-> [t5 [x5 [y5 [-> A5]]]]]. cbn [car cdr].
      eapply gives_sim; [eapply (g_watch_marks _ allowed (fun _ => false) n arg a2 b2 (Sym false k) x3 y5 NoMarks); [apply Aa|apply A3|apply A5]|].
      intros u2 [t6 [k6 [Q M0]]]. injection Q as <- <-.
      assert (M : mark_body k x3 y5 = None \/ mark_body k x3 y5 = Some y5) by (destruct M0 as [|[|[? _]]]; auto; discriminate). clear M0.
      apply sim_tail. eapply sim_bind; [eapply (s_call _ _ _ _ _ _ _ [] _ _ _ L' P (r_mark n arg a2 b2 false k x3 y5 M) OP H)|].
      * intros p [<-|[<-|[<-|[]]]]; auto.
      * cbv beta. intros u11 b h11 w11 [l' [[-> ->] H11]]. cbn [app] in H11. apply sim_done. auto.
    + cbv beta. clear H. intros _ v' h10 w10 [-> H]. unfold L' in H. xX H tmp. apply IH; auto.
  - assert (HB : wpv (hbind n env0 arg val) (fun nx h' => at_ h' ww ((nx, atom_of_env (bind e arv vv)) :: (tmp, atom_of_env (merge ce e)) :: (d, yv) :: L) P /\ ages hh h') hh).
    { eapply wpv_and; [|apply ages_hbind]. focus env0 H. apply (o_bind _ _ _ _ false n hh ww _ P env0 e arg arv val vv H PN). }
    pose proof (reads_in _ _ _ _ _ _ H (in_eq _ _)) as Ra. pose proof (vat_own _ _ _ _ _ _ _ _ H) as O.
    op ltac:(exact HB). clear HB H. intros nx h9 [H [_ AG]]. destruct (reads_shows _ _ _ Ra) as [ca [Ea Sa]].
    assert (T : gives (test is_sym_c arg) h9 (fun b => b = false)).
    { unfold gives, wpv, test, hbind_, rd. destruct (cells h9 arg) as [c9|] eqn:E9; auto. unfold done. split; auto.
      destruct (AG arg c9) as [c8 [E8 T8]]; [eapply own_bounded; [exact O|unfold alive; congruence]|auto|].
      assert (c8 = ca) by congruence. subst c8. pose proof (shows_sym _ _ _ Sa) as SS. unfold stored in T8.
      assert (BB : body c9 = body ca) by congruence. unfold is_sym_c in *. rewrite BB. rewrite SS. destruct arv; auto; discriminate. }
    eapply gives_sim; [exact T|]. intros ? ->.
    assert (Q : match arv with
      | Sym _ k => if is_func vv then match env_get (merge ce e) k with Some _ => (Eval.ret vv) | None =>
          Eval.mbind (Eval.opt (mark_body k (car vv) (cdr (cdr vv)))) (fun b => Eval.ret match vv with Pair t a (Pair t' d _) => Pair t a (Pair t' d b) | _ => vv end) end
          else (Eval.ret vv)
      | _ => (Eval.ret vv) end = Eval.ret vv) by (destruct arv; auto; discriminate).
    rewrite Q. clear Q. match goal with |- sim _ (Eval.mbind ?M ?K) _ _ _ => apply (sim_pass _ M K _ _ _ vv eq_refl) end.
    eapply gives_sim; [apply (gives_done tt _ (fun _ => True)); auto|]. intros _ _. xX H tmp. apply IH; auto.
Qed.

(** lib/mnml/std/let.c:76-100 *)
Lemma s_let : forall n c ce cell v h w L P, at_ h w ((cell, v) :: L) P -> In (c, atom_of_env ce) (L ++ B) ->
  sim (hlet allowed ev n c cell) (Eval.mbind (Eval.let_bind EV ce [] (car v)) (fun e => Eval.prog EV (merge ce e) (cdr v) Nil))
    (fun r v h' w' => at_ h' w' ((r, v) :: L) P) h w.
Proof.
  intros n c ce cell v h w L P H I. unfold hlet. xcar H bd. xcdr H prg. xX H cell. xnil H z.
  focus bd H. focus z H. change (z, Nil) with (z, atom_of_env []) in H.
  eapply sim_bind; [eapply s_let_bind; [exact H|inb]|]. cbv beta. clear H. intros nx e h5 w5 H.
  op ltac:(eapply o_mix; [exact H|eapply (avail_in _ _ [] _ _ _ _ H); inb|inl]). clear H. intros clos h6 H.
  xX H nx. xnil H zz. focus zz H. focus prg H. apply sim_ret.
  eapply sim_bind; [eapply s_prog; [exact H|inb]|]. cbv beta. clear H. intros res rv h9 w9 H. xX H clos. apply sim_done. exact H.
Qed.
End Steps.
End Rec.
