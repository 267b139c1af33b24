(** * HSimPrim: each builtin of the heap evaluator does what it does in the evaluator
    over values. *)
From Verif Require Import Value Tails Print Heap HeapSpec HeapProofs HeapOps HEval HEvalSpec HEvalBase HEvalProofs ValueProofs TailsProofs Sem2 Sem5 HSimSpec HSimBase HSimOps HSimList HSimMix HSimPure HSimLisp HSimState HSimChan HSimMark HSimCall HSimLoop.
From Verif Require Eval.
Open Scope nat_scope.
Open Scope heap_scope.

Section Rec.
Variable allowed : event -> bool.
Hypothesis NoAny : allowed AssignsAny = false.
Hypothesis NoOdd : allowed OddScope = false.
Hypothesis NoMarks : allowed MarksCode = false.
Variable opened : N -> bool -> atom -> bool.
Variable pwd : atom.
Variable ev : N -> N -> HM N.
Variable EV : env -> atom -> Eval.M atom.
Hypothesis EVR : forall c ce x xv, runs (ev c x) [(x, xv)] [(c, atom_of_env ce)] (EV ce xv) one.
Hypothesis EVK : forall e x, keeps (EV e x).

Section Steps.
Variables (h0 : heap) (F : list N) (B : list (N * atom)) (V0 : list N).
Notation at_ := (vat h0 F B V0).
Hypothesis OP : opens (aux h0) <> 0%N.
Notation avail_in := (avail_in h0 F B V0).
Notation reads_in := (reads_in h0 F B V0).
Notation s_ev := (s_ev ev EV EVR h0 F B V0 OP).
Notation s_prog := (s_prog ev EV EVR h0 F B V0 OP).
Notation ok := (fun L P (r : N) (v : atom) h' w' => at_ h' w' ((r, v) :: L) P).

Ltac xt H a f sh := eapply gives_sim; [eapply (g_test _ a _ f); [eapply (reads_in _ _ _ _ _ _ H); inb|intros ? Sc; apply (sh _ _ _ Sc)]|]; intros ? ->.
Ltac xrd H a Sc := eapply gives_sim; [eapply (g_rd _ a); eapply (reads_in _ _ _ _ _ _ H); inb|]; intros ? [_ Sc].
Ltac xev H r v := eapply sim_bind; [eapply s_ev; [exact H|inb]|]; clear H; cbv beta; let h := fresh "h" in let w := fresh "w" in intros r v h w H.
Ltac bcar H r := op ltac:(eapply o_car; [exact H|eapply (avail_in _ _ [] _ _ _ _ H); inb]); clear H; let h := fresh "h" in intros r h H.
Ltac bcdr H r := op ltac:(eapply o_cdr; [exact H|eapply (avail_in _ _ [] _ _ _ _ H); inb]); clear H; let h := fresh "h" in intros r h H.
Ltac bup H := op ltac:(eapply o_up; [exact H|eapply (avail_in _ _ [] _ _ _ _ H); inb]); clear H; let h := fresh "h" in intros ? h [-> H].
Ltac fin := intros; cbv beta in *; assumption.

Lemma shows_list : forall h c v, shows h c v -> is_list_c c = is_list v.
Proof. intros h c v S. unfold is_list_c. rewrite (shows_nil _ _ _ S), (shows_pair _ _ _ S). destruct v; reflexivity. Qed.

(** lib/mnml/std, logic, io *)
Lemma s_prim1 : forall n p full fe c ce x xv h w L P, p <> Eval.Pdef -> at_ h w L P -> In (full, atom_of_env fe) (L ++ B) ->
  In (c, atom_of_env ce) (L ++ B) -> In (x, xv) (L ++ B) ->
  sim (hprim1 allowed ev n p full c x) (Eval.prim1 EV n p fe ce xv) (ok L P) h w.
Proof.
  intros n p full fe c ce x xv h w L P ND H If Ic Ix. destruct p; cbn [hprim1 Eval.prim1]; try exact Logic.I.
  - (* car *) op ltac:(eapply o_car; [exact H|eapply (avail_in _ _ [] _ _ _ _ H); inb]). fin.
  - (* cdr *) op ltac:(eapply o_cdr; [exact H|eapply (avail_in _ _ [] _ _ _ _ H); inb]). fin.
  - (* chr *) eapply gives_sim; [apply (g_number _ x xv); eapply (reads_in _ _ _ _ _ _ H); inb|]. intros z ->.
    match goal with |- sim _ (Eval.mbind ?M ?K) _ _ _ => apply (sim_pass _ M K _ _ _ z eq_refl) end. op ltac:(eapply o_chr; exact H). fin.
  - (* cond *) bcar H a. bcdr H d. focus a H. eapply (s_cond ev EV EVR h0 F B V0 OP); [exact H|inb].
  - (* def *) congruence.
  - (* eval *) bup H. eapply s_ev; [exact H|inb].
  - (* atom? *) xt H x is_list_c shows_list. op ltac:(eapply o_truth; exact H). fin.
  - (* char? *) xt H x is_char_c shows_char. op ltac:(eapply o_truth; exact H). destruct xv; fin.
  - (* list? *) xt H x is_list_c shows_list. op ltac:(eapply o_truth; exact H). fin.
  - (* nil? *) xt H x is_nil_c shows_nil. op ltac:(eapply o_truth; exact H). destruct xv; fin.
  - (* num? *) xt H x is_num_c shows_num. op ltac:(eapply o_truth; exact H). destruct xv; fin.
  - (* str? *) eapply gives_sim; [apply (g_value _ n x xv); eapply (reads_in _ _ _ _ _ _ H); inb|]. intros ? ->. op ltac:(eapply o_truth; exact H). fin.
  - (* sym? *) xt H x is_sym_c shows_sym. op ltac:(eapply o_truth; exact H). destruct xv; fin.
  - (* tru? *) xt H x is_true_c shows_true. op ltac:(eapply o_truth; exact H). destruct xv; fin.
  - (* lambda *) bcar H a. bcdr H d. op ltac:(eapply o_dup; [exact H|eapply (avail_in _ _ [] _ _ _ _ H); inb]). clear H. intros cl h3 H.
    apply vat_demote in H. rewrite unflagged_env in H. xcons H cl d c0. xcons H a c0 r9. exact H.
  - (* len *) xrd H x Sc. destruct xv as [| | | | |t s|t a d]; cbn in Sc; try (rewrite Sc; op ltac:(eapply o_nil; exact H); fin).
    + rewrite Sc. op ltac:(eapply o_num; exact H). fin.
    + destruct Sc as [-> _]. op ltac:(eapply o_nil; exact H); fin.
    + destruct Sc as [p [q [-> _]]]. eapply gives_sim; [apply (g_len _ n x (Pair t a d)); eapply (reads_in _ _ _ _ _ _ H); inb|]. intros k ->.
      op ltac:(eapply o_num; exact H). fin.
  - (* let *) bup H. eapply (s_let allowed NoAny NoOdd NoMarks ev EV EVR h0 F B V0 OP); [exact H|inb].
  - (* list *) bup H. eapply (s_list ev EV EVR h0 F B V0 OP); [exact H|inb].
  - (* match *) bcar H a. xev H v vv. bcdr H d. focus v H. eapply (s_match ev EV EVR h0 F B V0 OP); [exact H|inb].
  - (* prog *) bup H. xnil H z. focus x H. eapply s_prog; [exact H|inb].
  - (* quote *) op ltac:(eapply o_up; [exact H|eapply (avail_in _ _ [] _ _ _ _ H); inb]). intros r h1 [-> H1]. exact H1.
  - (* set *) eapply (s_set allowed NoAny NoOdd NoMarks ev EV EVR h0 F B V0 OP); [exact H|exact Ic|exact Ix].
  - (* setq *) eapply (s_setq allowed NoAny ev EV EVR h0 F B V0 OP); [exact H|exact Ic|exact Ix].
  - (* str *) xrd H x Sc. rewrite (proj2 (shows_field _ _ _ Sc)). destruct (str_of xv) as [v|]; [|exact Logic.I].
    op ltac:(eapply o_plant; exact H). fin.
  - (* stream *) bcar H a. bcdr H d. eapply (s_stream ev EV EVR h0 F B V0 OP); [exact H|inb].
  - (* sym *) eapply gives_sim; [apply (g_value _ n x xv); eapply (reads_in _ _ _ _ _ _ H); inb|]. intros ? ->. op ltac:(eapply o_plant; exact H). fin.
  - (* while *) bcar H cnd. bcdr H prg. xnil H z. apply sim_ret.
    eapply sim_bind; [eapply (s_while ev EV EVR h0 F B V0 OP); [exact H|inb|inb|inb]|]. cbv beta. clear H. intros res rv h8 w8 H. xX H cnd. xX H prg. apply sim_done. exact H.
  - (* or *) eapply (s_or ev EV EVR h0 F B V0 OP); [exact H|exact Ic|exact Ix].
  - (* not *) xt H x is_nil_c shows_nil. op ltac:(eapply o_truth; exact H). destruct xv; fin.
  - (* prin *) bup H. xnil H z. focus x H. eapply (s_prin allowed NoAny ev EV EVR h0 F B V0 OP); [exact H|inb].
  - (* prinl *) bup H. xnil H z. focus x H. eapply sim_bind; [eapply (s_prin allowed NoAny ev EV EVR h0 F B V0 OP); [exact H|inb]|]. cbv beta. clear H.
    intros r v h3 w3 H. eapply sim_bind; [apply (s_emit allowed NoAny); exact H|]. cbv beta. clear H. intros _ _ h4 w4 H. apply sim_done. exact H.
  - (* print *) bup H. xnil H z. focus x H. eapply (s_prin allowed NoAny ev EV EVR h0 F B V0 OP); [exact H|inb].
  - (* printl *) bup H. xnil H z. focus x H. eapply sim_bind; [eapply (s_prin allowed NoAny ev EV EVR h0 F B V0 OP); [exact H|inb]|]. cbv beta. clear H.
    intros r v h3 w3 H. eapply sim_bind; [apply (s_emit allowed NoAny); exact H|]. cbv beta. clear H. intros _ _ h4 w4 H. apply sim_done. exact H.
Qed.

Lemma s_prim2 : forall n p c ce x xv y yv h w L P, at_ h w L P ->
  In (c, atom_of_env ce) (L ++ B) -> In (x, xv) (L ++ B) -> In (y, yv) (L ++ B) ->
  sim (hprim2 opened pwd ev n p c x y) (Eval.prim2 opened EV p ce xv yv) (ok L P) h w.
Proof.
  intros n p c ce x xv y yv h w L P H Ic Ix Iy.
  assert (NUM : forall (k : Z -> Z -> HM N) K, (forall a b, num_field xv = Some a -> num_field yv = Some b -> sim (k a b) (K a b) (ok L P) h w) ->
    sim (a <- number_of x ;; b <- number_of y ;; k a b) (Eval.mbind (Eval.opt (num_field xv)) (fun a => Eval.mbind (Eval.opt (num_field yv)) (fun b => K a b))) (ok L P) h w).
  { intros k K HK. eapply gives_sim; [apply (g_number _ x xv); eapply (reads_in _ _ _ _ _ _ H); inb|]. intros a Ea.
    eapply gives_sim; [apply (g_number _ y yv); eapply (reads_in _ _ _ _ _ _ H); inb|]. intros b Eb. pose proof (HK a b Ea Eb) as S. rewrite Ea, Eb. exact S. }
  assert (AR : forall p, sim (a <- number_of x ;; b <- number_of y ;; match Eval.arith p a b with Some z => alloc (KNum z) | None => wild end)
    (Eval.mbind (Eval.opt (num_field xv)) (fun a => Eval.mbind (Eval.opt (num_field yv)) (fun b => Eval.mbind (Eval.opt (Eval.arith p a b)) (fun r => Eval.ret (Num r))))) (ok L P) h w).
  { intro q. apply NUM. intros a b _ _. destruct (Eval.arith q a b) as [z|]; [|exact Logic.I].
    match goal with |- sim _ (Eval.mbind ?M ?K) _ _ _ => apply (sim_pass _ M K _ _ _ z eq_refl) end. op ltac:(eapply o_num; exact H). fin. }
  assert (CM : forall p, sim (a <- number_of x ;; b <- number_of y ;; make_truth (Eval.compare p a b))
    (Eval.mbind (Eval.opt (num_field xv)) (fun a => Eval.mbind (Eval.opt (num_field yv)) (fun b => Eval.ret (Eval.truth (Eval.compare p a b))))) (ok L P) h w).
  { intro q. apply NUM. intros a b _ _. op ltac:(eapply o_truth; exact H). fin. }
  destruct p; cbn [hprim2 Eval.prim2]; try exact Logic.I; try apply AR; try apply CM; clear NUM AR CM.
  - (* conc *) apply sim_shared.
  - (* cons *) bup H. bup H. focus y H. focus x H. op ltac:(eapply o_cons; exact H). intros r h9 [_ [_ H9]]. exact H9.
  - (* if *) xt H x is_nil_c shows_nil. destruct (is_null xv).
    + bcdr H d. xcar H els. xX H d. eapply s_ev; [exact H|inb].
    + bcar H thn. eapply s_ev; [exact H|inb].
  - (* unless *) xt H x is_nil_c shows_nil. destruct (is_null xv).
    + bup H. xnil H z. focus y H. eapply s_prog; [exact H|inb].
    + op ltac:(eapply o_nil; exact H). fin.
  - (* when *) xt H x is_nil_c shows_nil. destruct (is_null xv).
    + op ltac:(eapply o_nil; exact H). fin.
    + bup H. xnil H z. focus y H. eapply s_prog; [exact H|inb].
  - (* and *) xt H x is_nil_c shows_nil. xt H y is_nil_c shows_nil. op ltac:(eapply o_truth; exact H). fin.
  - (* equ *) eapply gives_sim; [apply (g_equ _ n x y xv yv); eapply (reads_in _ _ _ _ _ _ H); inb|]. intros ? ->. op ltac:(eapply o_truth; exact H). fin.
  - (* neq *) eapply gives_sim; [apply (g_neq _ n x y xv yv); eapply (reads_in _ _ _ _ _ _ H); inb|]. intros ? ->. op ltac:(eapply o_truth; exact H). fin.
  - (* in *) eapply (s_chan allowed NoAny NoOdd NoMarks ev EV EVR h0 F B V0 OP EVK); [exact H|exact Ic|exact Ix|exact Iy].
  - (* out *) eapply (s_chan allowed NoAny NoOdd NoMarks ev EV EVR h0 F B V0 OP EVK); [exact H|exact Ic|exact Ix|exact Iy].
Qed.
End Steps.
End Rec.
