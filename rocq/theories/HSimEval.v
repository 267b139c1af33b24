(** * HSimEval: the heap evaluator does what the evaluator over values does. *)
From Verif Require Import Value Tails Print Heap HeapSpec HeapProofs HeapOps HEval HEvalSpec HEvalBase HEvalProofs ValueProofs TailsProofs Sem2 Sem5 HSimSpec HSimBase HSimOps HSimList HSimMix HSimPure HSimLisp HSimState HSimChan HSimMark HSimCall HSimTree HSimFlag HSimOwn HSimLoop HSimPrim.
From Verif Require Eval.
Open Scope nat_scope.
Open Scope heap_scope.

Lemma joined_env : forall a b, joined (atom_of_env a) (atom_of_env b) = atom_of_env (a ++ b).
Proof. induction a as [|[k v] a IH]; intro b; cbn; [reflexivity|]. f_equal. apply IH. Qed.
Lemma env_inj : forall a b, atom_of_env a = atom_of_env b -> a = b.
Proof. intros a b E. apply (f_equal env_of_atom) in E. rewrite !env_of_atom_of_env in E. congruence. Qed.

Lemma sim_flag : forall {A C} (m : HM N) (k : N -> HM A) (M : Eval.M C) Q h w,
  sim (hbind_ (hbind_ m (flag true)) k) M Q h w -> sim (r <- m ;; set_tail r ;;; k r) M Q h w.
Proof.
  intros A C m k M Q h w. unfold sim, hbind_, flag, set_tail, done. destruct (m h) as [r h1| | | | |]; auto. unfold hbind_.
  destruct (rd r h1) as [c h2| | | | |]; auto. destruct (wr r (with_tail c) h2); auto.
Qed.

Section Rec.
Variable allowed : event -> bool.
Hypothesis NoAny : allowed AssignsAny = false.
Hypothesis NoOdd : allowed OddScope = false.
Hypothesis NoMarks : allowed MarksCode = false.
Variable opened : N -> bool -> atom -> bool.
Variable pwd : atom.
Variable ev : N -> N -> HM N.
Variable EV : env -> atom -> Eval.M atom.
Hypothesis EVR : forall c ce x xv, runs (ev c x) [(x, xv)] [(c, atom_of_env ce)] (EV ce xv) one.
Hypothesis EVK : forall e x, keeps (EV e x).
Hypothesis EVL : forall e v w r w', is_symb v || is_pair v = false -> EV e v w = Eval.Ret r w' -> r = v.

Lemma r_prim1 : forall n p full fe c ce x xv, p <> Eval.Pdef ->
  runs (hprim1 allowed ev n p full c x) [] [(full, atom_of_env fe); (c, atom_of_env ce); (x, xv)] (Eval.prim1 EV n p fe ce xv) one.
Proof.
  intros n p full fe c ce x xv ND F h w NZ H. eapply sim_mono; [eapply (s_prim1 allowed NoAny NoOdd NoMarks ev EV EVR _ _ _ _ NZ); [exact ND|exact H|cbn; auto|cbn; auto|cbn; auto]|].
  cbv beta. intros r v h' w' H'. exists [(r, v)]. split; [reflexivity|exact H'].
Qed.
Lemma r_prim2 : forall n p c ce x xv y yv,
  runs (hprim2 opened pwd ev n p c x y) [] [(c, atom_of_env ce); (x, xv); (y, yv)] (Eval.prim2 opened EV p ce xv yv) one.
Proof.
  intros n p c ce x xv y yv F h w NZ H. eapply sim_mono; [eapply (s_prim2 allowed NoAny NoOdd NoMarks opened pwd ev EV EVR EVK _ _ _ _ NZ); [exact H|cbn; auto|cbn; auto|cbn; auto]|].
  cbv beta. intros r v h' w' H'. exists [(r, v)]. split; [reflexivity|exact H'].
Qed.

Section Steps.
Variables (h0 : heap) (F : list N) (B : list (N * atom)) (V0 : list N).
Notation at_ := (vat h0 F B V0).
Hypothesis OP : opens (aux h0) <> 0%N.
Notation avail_in := (avail_in h0 F B V0).
Notation reads_in := (reads_in h0 F B V0).
Notation s_ev := (s_ev ev EV EVR h0 F B V0 OP).
Notation ok := (fun L P (r : N) (v : atom) h' w' => at_ h' w' ((r, v) :: L) P).

Ltac xt H a f sh := eapply gives_sim; [eapply (g_test _ a _ f); [eapply (reads_in _ _ _ _ _ _ H); inb|intros ? Sc; apply (sh _ _ _ Sc)]|]; intros ? ->.
Ltac xrd H a Sc := eapply gives_sim; [eapply (g_rd _ a); eapply (reads_in _ _ _ _ _ _ H); inb|]; intros ? [_ Sc].
Ltac xev H r v := eapply sim_bind; [eapply s_ev; [exact H|inb]|]; clear H; cbv beta; let h := fresh "h" in let w := fresh "w" in intros r v h w H.
Ltac bup H := op ltac:(eapply o_up; [exact H|eapply (avail_in _ _ [] _ _ _ _ H); inb]); clear H; let h := fresh "h" in intros ? h [-> H].

(** include/mnml/module.h:139-181 *)
Lemma o_pop_arg : forall h w L P clos fe name, at_ h w L P -> avail h L B clos (atom_of_env fe) ->
  wpv (pop_arg clos name) (fun r h' => h' = h /\ exists k xv fe', fe = (k, xv) :: fe' /\ avail h L B (fst r) xv /\ avail h L B (snd r) (atom_of_env fe')) h.
Proof.
  intros h w L P clos fe name H A. unfold pop_arg.
  op ltac:(eapply o_CAR; [exact H|exact A]). intros kv h1 [-> [t [x [y [E A1]]]]].
  op ltac:(eapply o_CAR; [exact H|exact A1]). intros k h1 [-> [t2 [x2 [y2 [E2 A2]]]]].
  eapply gives_wpv; [apply (g_key_is _ k _ (sy name) (proj1 A2))|]. intros b _. destruct b; [|exact Logic.I].
  op ltac:(eapply o_CDR; [exact H|exact A1]). intros xx h1 [-> [t3 [x3 [y3 [E3 A3]]]]].
  op ltac:(eapply o_CDR; [exact H|exact A]). intros c h1 [-> [t4 [x4 [y4 [E4 A4]]]]].
  unfold wpv, done. split; auto. destruct fe as [|[kk v] fe]; [discriminate|]. cbn in E. injection E as <- <- <-. injection E2 as <- <- <-.
  injection E3 as <- <- <-. cbn in E4. injection E4 as <- <- <-. exists kk, v, fe. auto.
Qed.
(** lib/core/eval.c:146-148 *)
Lemma s_run_prim : forall n p clos fe c ce h w L P, p <> Eval.Pdef -> at_ h w L P -> In (clos, atom_of_env fe) (L ++ B) -> In (c, atom_of_env ce) (L ++ B) ->
  sim (hrun_prim allowed opened pwd ev n p clos c) (Eval.run_prim opened EV n p fe) (ok L P) h w.
Proof.
  intros n p clos fe c ce h w L P ND H If Ic. unfold hrun_prim, Eval.run_prim.
  pose proof (avail_in _ _ [] _ _ _ _ H If) as Af. pose proof (avail_in _ _ [] _ _ _ _ H Ic) as Ac. destruct (Eval.pops_two p).
  - op ltac:(eapply o_pop_arg; [exact H|exact Af]). intros [y c1] h1 [-> [k1 [yv [fe1 [-> [Ay A1]]]]]]. cbn [fst snd] in *.
    op ltac:(eapply o_pop_arg; [exact H|exact A1]). intros [x c2] h1 [-> [k2 [xv [fe2 [-> [Ax A2]]]]]]. cbn [fst snd] in *.
    destruct (N.eqb_spec c2 c) as [->|]; [|exact Logic.I].
    assert (fe2 = ce) by (apply env_inj; exact (reads_fun _ _ _ (proj1 Ac) _ (proj1 A2))). subst fe2.
    eapply sim_mono; [eapply (s_call _ _ _ _ _ _ _ [] _ _ _ L P (r_prim2 n p c ce x xv y yv) OP H)|].
    + intros q [<-|[<-|[<-|[]]]]; auto.
    + cbv beta. intros r v h' w' [l' [-> H']]. exact H'.
  - op ltac:(eapply o_pop_arg; [exact H|exact Af]). intros [x c1] h1 [-> [k1 [xv [fe1 [-> [Ax A1]]]]]]. cbn [fst snd] in *.
    destruct (N.eqb_spec c1 c) as [->|]; [|exact Logic.I].
    assert (fe1 = ce) by (apply env_inj; exact (reads_fun _ _ _ (proj1 Ac) _ (proj1 A1))). subst fe1.
    eapply sim_mono; [eapply (s_call _ _ _ _ _ _ _ [] _ _ _ L P (r_prim1 n p clos ((k1, xv) :: ce) c ce x xv ND) OP H)|].
    + intros q [<-|[<-|[<-|[]]]]; auto.
    + cbv beta. intros r v h' w' [l' [-> H']]. exact H'.
Qed.

(** lib/core/eval.c:81-204 *)
Lemma prim_dec : forall p, {p = Eval.Pdef} + {p <> Eval.Pdef}.
Proof. intros []; (left; reflexivity) || (right; discriminate). Defined.
Lemma CAR_part : forall a h, wpv (CAR a) (fun r h' => h' = h /\ exists c y, cells h a = Some c /\ body c = KPair r y) h.
Proof.
  intros a h. unfold wpv, CAR, hbind_, Heap.rd. destruct (cells h a) as [c|]; [|exact Logic.I].
  destruct (body c) eqn:Bc; try exact Logic.I. unfold done. eauto.
Qed.
Lemma CDR_part : forall a h, wpv (CDR a) (fun r h' => h' = h /\ exists c x, cells h a = Some c /\ body c = KPair x r) h.
Proof.
  intros a h. unfold wpv, CDR, hbind_, Heap.rd. destruct (cells h a) as [c|]; [|exact Logic.I].
  destruct (body c) eqn:Bc; try exact Logic.I. unfold done. eauto.
Qed.
Lemma pop_argument : forall clos name h, wpv (pop_arg clos name) (fun r _ => argument h clos (fst r)) h.
Proof.
  intros clos name h. unfold pop_arg.
  op ltac:(apply CAR_part). intros kv h1 [-> [c [q [E Bc]]]].
  op ltac:(apply CAR_part). intros k h1 [-> [c1 [q1 [E1 Bc1]]]].
  unfold wpv, hbind_. destruct (key_is k (sy name) h) as [b h2| | | | |] eqn:K; auto.
  assert (h2 = h) by (unfold key_is, hbind_, Heap.rd in K; destruct (cells h k) as [ck|]; [|discriminate]; destruct (body ck); try discriminate; unfold done in K; congruence).
  subst h2. destruct b; [|exact Logic.I]. change (wpv (x <- CDR kv ;; c0 <- CDR clos ;; done (x, c0)) (fun r _ => argument h clos (fst r)) h).
  op ltac:(apply CDR_part). intros x h1 [-> [c2 [q2 [E2 Bc2]]]].
  op ltac:(apply CDR_part). intros c3 h1 [-> _]. unfold wpv, done. cbn [fst].
  exists c, kv, q, c2, q2. auto.
Qed.
Lemma s_run_def : forall n clos fe c ce h w L P, at_ h w ((clos, atom_of_env fe) :: L) P -> In (c, atom_of_env ce) (L ++ B) ->
  sim (hrun_prim allowed opened pwd ev n Eval.Pdef clos c) (Eval.run_prim opened EV n Eval.Pdef fe) (fun r v h' w' => exists cv, at_ h' w' ((r, v) :: (clos, cv) :: L) P) h w.
Proof.
  intros n clos fe c ce h w L P H Ic. unfold hrun_prim, Eval.run_prim. change (Eval.pops_two Eval.Pdef) with false. cbv beta iota.
  assert (If : In (clos, atom_of_env fe) (((clos, atom_of_env fe) :: L) ++ B)) by (cbn; auto).
  pose proof (avail_in _ _ [] _ _ _ _ H If) as Af.
  op ltac:(eapply wpv_and; [apply pop_argument|eapply o_pop_arg; [exact H|exact Af]]). intros [x c1] h1 [AR [-> [k1 [xv [fe1 [-> [Ax A1]]]]]]]. cbn [fst snd] in *.
  destruct (N.eqb_spec c1 c) as [->|]; [|exact Logic.I]. cbn [hprim1 Eval.prim1].
  eapply (s_def allowed NoAny NoMarks); [exact H|exact AR|apply Ax].
Qed.
Lemma s_func : forall n c ce symb sv func fv vals vv h w L P, at_ h w ((func, fv) :: (vals, vv) :: L) P -> In (c, atom_of_env ce) (L ++ B) ->
  In (symb, sv) (L ++ B) -> is_symb sv || is_pair sv = true ->
  sim (heval_func allowed opened pwd ev n c symb func vals) (Eval.eval_func opened EV n ce sv fv vv) (ok L P) h w.
Proof.
  intros n c ce symb sv func fv vals vv h w L P H Ic Is SV. unfold heval_func, Eval.eval_func. cbv zeta.
  xcar H args. eapply gives_sim; [apply (g_may_apply _ n args vals (car fv) vv); eapply (reads_in _ _ _ _ _ _ H); inb|]. intros ? ->.
  destruct (may_apply (car fv) vv); cbn [negb].
  2:{ xX H func. xX H vals. xX H args. op ltac:(eapply o_nil; exact H). intros; cbv beta; assumption. }
  xcdr H cdr0. xcar H dscl. xcdr H bdy. xX H func. xX H cdr0.
  eapply gives_sim; [eapply (g_watch _ allowed OddScope n dscl (car (cdr fv)) plain_scope NoOdd); eapply (reads_in _ _ _ _ _ _ H); inb|]. intros u PS.
  apply plain_scope_env in PS. destruct PS as [d ED]. rewrite ED in *. set (bv := cdr (cdr fv)) in *.
  xnil H z. apply vat_leaf in H; [|reflexivity]. change (z, Nil) with (z, atom_of_env []) in H. focus vals H. focus args H.
  eapply sim_bind; [eapply (s_args allowed NoOdd ev EV EVR h0 F B V0 OP n c ce z []); [exact H|inb]|]. cbv beta. clear H. intros bd [be na] h70 w7 [H [acc [narg NE]]].
  cbn [fst snd] in H. eapply (o_unpack _ _ _ _ (fun bscl narg => _)); [exact H|exact NE|]. clear H NE. intros h80 H.
  xt H narg is_nil_c shows_nil. destruct (is_null na) eqn:NN.
  2:{ focus dscl H. op ltac:(eapply o_conc; exact H). clear H. intros clos h90 H. rewrite joined_env in H.
      rewrite env_of_atom_of_env. match goal with |- sim _ (Eval.mbind ?M ?K) _ _ _ => apply (sim_pass _ M K _ _ _ d eq_refl) end.
      xcons H clos bdy con0. focus con0 H. focus narg H. op ltac:(eapply o_cons; exact H). intros r9 h99 [_ [_ H9]]. exact H9. }
  xrd H bdy Sc. rewrite (shows_num _ _ _ Sc). clear Sc.
  change (match bv with Num _ => true | _ => false end) with (is_numb bv). destruct (is_numb bv) eqn:NB.
  - destruct bv as [| | | |z1|t1 s1|t1 x1 y1] eqn:EB; try discriminate.
    xt H dscl is_nil_c shows_nil.
    assert (K : wpv (if is_null (atom_of_env d) then done acc else d9 <- hdup n dscl ;; hconc n acc d9)
      (fun r h' => at_ h' w7 ((narg, na) :: (bdy, Num z1) :: (dscl, atom_of_env d) :: L) ((r, atom_of_env (be ++ d)) :: P)) h80).
    { destruct (is_null (atom_of_env d)) eqn:ND.
      - destruct d as [|[]]; try discriminate. rewrite app_nil_r. unfold wpv, done. exact H.
      - op ltac:(eapply o_dup; [exact H|eapply (avail_in _ _ [] _ _ _ _ H); inb]). clear H. intros d9 h9 H. rewrite unflagged_env in H.
        apply vat_swap in H. op ltac:(eapply o_pconc; exact H). clear H. intros r8 h10 H. rewrite joined_env in H. exact H. }
    op ltac:(exact K). clear K H. intros clos1 h9 H.
    bup H. op ltac:(eapply o_conc; exact H). clear H. intros clos h10 H. rewrite joined_env, <- app_assoc in H.
    xX H dscl. eapply gives_sim; [apply (g_number _ bdy (Num z1)); eapply (reads_in _ _ _ _ _ _ H); inb|]. intros adr Q. injection Q as <-.
    rewrite env_of_atom_of_env. match goal with |- sim _ (Eval.mbind ?M ?K) _ _ _ => apply (sim_pass _ M K _ _ _ d eq_refl) end.
    destruct (Eval.prim_of_addr z1) as [p|]; [|exact Logic.I].
    match goal with |- sim _ (Eval.mbind ?M ?K) _ _ _ => apply (sim_pass _ M K _ _ _ p eq_refl) end.
    apply sim_ret. focus clos H.
    match type of H with vat _ _ _ _ _ _ ((_, ?cv) :: ?L') _ => 
      apply (sim_bind _ _ _ _ (fun r8 v h12 w12 => exists cv', at_ h12 w12 ((r8, v) :: (clos, cv') :: L') P)) end.
    { destruct (prim_dec p) as [->|ND]; [eapply s_run_def; [exact H|inb]|]. eapply sim_mono; [eapply s_run_prim; [exact ND|exact H|inb|inb]|].
      cbv beta. intros r8 v h12 w12 H12. eauto. }
    cbv beta. clear H. intros r8 v h12 w12 [cv' H].
    xX H bdy. xX H narg. xX H clos. apply sim_done. exact H.
  - assert (Q : match bv with
      | Num a => Eval.mbind (Eval.opt (env_of_atom (atom_of_env d))) (fun d => Eval.mbind (Eval.opt (Eval.prim_of_addr a)) (fun p => Eval.run_prim opened EV n p (be ++ d ++ ce)))
      | _ => if is_tail_call sv then (Eval.ret (Pair true sv (atom_of_env be))) else
          Eval.mbind (Eval.opt (env_of_atom (atom_of_env d))) (fun d => Eval.tail_loop EV n (merge ce d) sv bv be) end =
      (if is_tail_call sv then (Eval.ret (Pair true sv (atom_of_env be))) else
          Eval.mbind (Eval.opt (env_of_atom (atom_of_env d))) (fun d => Eval.tail_loop EV n (merge ce d) sv bv be))) by (destruct bv; auto; discriminate).
    rewrite Q. clear Q.
    eapply gives_sim; [apply (g_flag _ symb sv); eapply (reads_in _ _ _ _ _ _ H); inb|]. intros t FL.
    assert (t = is_tail_call sv) by (destruct sv; try discriminate; exact FL). subst t. clear FL. destruct (is_tail_call sv).
    + bup H. apply vat_demote in H. focus symb H. apply sim_flag. op ltac:(eapply o_tcons; exact H). clear H. intros r8 h10 [_ [_ H]].
      xX H bdy. xX H dscl. xX H narg. apply sim_done. exact H.
    + rewrite env_of_atom_of_env. match goal with |- sim _ (Eval.mbind ?M ?K) _ _ _ => apply (sim_pass _ M K _ _ _ d eq_refl) end.
      op ltac:(eapply o_mix; [exact H|eapply (avail_in _ _ [] _ _ _ _ H); inb|inl]). clear H. intros cls0 h10 H.
      xX H dscl. apply vat_demote in H. apply sim_ret.
      eapply sim_bind; [eapply (s_tail_loop allowed NoOdd ev EV EVR h0 F B V0 OP); [exact H|inb|inb|inb]|]. cbv beta. clear H.
      intros [r8 b] v h12 w12 [e9 H]. cbn [fst snd] in *. xX H bdy. xX H b. xX H narg. xX H cls0. apply sim_done. exact H.
Qed.

(** lib/core/eval.c:210-254 *)
Lemma s_pair : forall n c ce cell t a d h w L P, at_ h w ((cell, Pair t a d) :: L) P -> In (c, atom_of_env ce) (L ++ B) ->
  sim (heval_pair allowed opened pwd ev n c cell) (Eval.eval_pair opened EV n ce a d) (ok L P) h w.
Proof.
  intros n c ce cell t a d h w L P H Ic. unfold heval_pair, Eval.eval_pair. xcar H ca. xcdr H cd. xX H cell. cbn [car cdr] in H.
  op ltac:(eapply o_up; [exact H|eapply (avail_in _ _ [] _ _ _ _ H); inb]). clear H. intros u h4 [-> H].
  eapply sim_bind; [eapply sim_with; eapply s_ev; [exact H|inb]|]. clear H. cbv beta. intros nx nv h5 w5 [H RET].
  eapply gives_sim; [apply (g_func _ nx nv); eapply (reads_in _ _ _ _ _ _ H); inb|]. intros ? ->.
  apply sim_ret. eapply (sim_bind _ _ _ _ (fun r v h' w' => at_ h' w' ((r, v) :: (ca, a) :: L) P)).
  2:{ cbv beta. clear H. intros rs rv h6 w6 H. xX H ca. apply sim_done. exact H. }
  destruct (is_func nv) eqn:FN.
  - assert (SV : is_symb a || is_pair a = true).
    { destruct (is_symb a || is_pair a) eqn:SV; auto. apply (EVL _ _ _ _ _ SV) in RET. subst nv. destruct a; discriminate. }
    focus cd H. focus nx H. eapply s_func; [exact H|inb|inb|exact SV].
  - eapply gives_sim; [apply (g_equ _ n ca nx a nv); eapply (reads_in _ _ _ _ _ _ H); inb|]. intros ? ->.
    assert (OUT : sim (hcons nx cd) (Eval.ret (Cons nv d)) (fun r v h' w' => at_ h' w' ((r, v) :: (ca, a) :: L) P) h5 w5).
    { focus cd H. focus nx H. op ltac:(eapply o_cons; exact H). intros r9 h9 [_ [_ H9]]. exact H9. }
    destruct (equ a nv); [exact OUT|].
    xrd H nx Sc. rewrite (shows_sym _ _ _ Sc), (shows_pair _ _ _ Sc). change (match nv with Sym _ _ => true | _ => false end) with (is_symb nv).
    destruct (is_symb nv || is_pair nv); [|exact OUT]. xcons H nx cd x. eapply s_ev; [exact H|inb].
Qed.
End Steps.
End Rec.

(** lib/core/eval.c:260-286 *)
Section Top.
Variable allowed : event -> bool.
Hypothesis NoAny : allowed AssignsAny = false.
Hypothesis NoOdd : allowed OddScope = false.
Hypothesis NoMarks : allowed MarksCode = false.
Variable opened : N -> bool -> atom -> bool.
Variable pwd : atom.

Lemma eval_leaf : forall n e v w r w', is_symb v || is_pair v = false -> Eval.eval opened n e v w = Eval.Ret r w' -> r = v.
Proof. intros [|n] e v w r w' H E; [discriminate|]. destruct v; try discriminate; cbn in E; injection E as <- <-; reflexivity. Qed.
Lemma r_eval : forall n c ce x xv, runs (heval allowed opened pwd n c x) [(x, xv)] [(c, atom_of_env ce)] (Eval.eval opened n ce xv) one.
Proof.
  induction n as [|n IH]; intros c ce x xv F h w NZ H; [exact Logic.I|]. cbn [heval].
  assert (OUT : forall m M, sim m M (fun r v h' w' => vat h F [(c, atom_of_env ce)] (heads [(x, xv)] ++ heads [(c, atom_of_env ce)]) h' w' [(r, v)] []) h w ->
    sim m M (fun r v h' w' => exists l', one r v l' /\ vat h F [(c, atom_of_env ce)] (heads [(x, xv)] ++ heads [(c, atom_of_env ce)]) h' w' l' []) h w).
  { intros m M S. eapply sim_mono; [exact S|]. cbv beta. intros r v h' w' H'. exists [(r, v)]. split; [reflexivity|exact H']. }
  apply OUT. clear OUT.
  eapply gives_sim; [apply (g_rd _ x xv); eapply (reads_in _ _ _ _ _ _ _ _ _ _ H); inb|]. intros cx [_ Sc].
  assert (LEAF : sim (done x) (Eval.ret xv) (fun r v h' w' => vat h F [(c, atom_of_env ce)] (heads [(x, xv)] ++ heads [(c, atom_of_env ce)]) h' w' [(r, v)] []) h w).
  { apply sim_done. exact H. }
  cbn [Eval.eval]. destruct xv as [| | | | |t k|t a d]; cbn in Sc; try (rewrite Sc; exact LEAF).
  - destruct Sc as [-> _].
    op ltac:(eapply (o_lookup _ _ _ _ n _ _ _ _ c ce x t k); [exact H|eapply (avail_in _ _ _ _ _ _ [] _ _ _ _ H); inb|eapply (avail_in _ _ _ _ _ _ [] _ _ _ _ H); inb]).
    clear H LEAF. intros res h1 H. xX H x.
    assert (Q : Eval.lookup ce k w = Eval.ret (found w ce k) w) by reflexivity.
    unfold sim, done. rewrite Q. exact H.
  - destruct Sc as [p [q [-> _]]].
    eapply (s_pair allowed NoAny NoOdd NoMarks opened pwd _ _ IH (fun e y => eval_keeps opened n e y) (fun e v => eval_leaf n e v) _ _ _ _ NZ); [exact H|inb].
Qed.
End Top.
