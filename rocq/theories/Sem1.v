(** * Sem1: big-step rules for calls and builtins, and the lemmas behind the
    evaluator properties. *)
From Verif Require Import Value ValueSpec ValueProofs Tails Print Eval EvalSpec EvalProofs.
Open Scope nat_scope.

Section Sem.
Variable O : oracle.
Notation Runs := (runs O).

(** ** Calls of builtins *)

Lemma runs_head : forall c t u k vals w f o, means c w k f -> is_func f = true ->
  (Runs c (Pair t (Sym u k) vals) w o <-> Rfunc O c (Sym u k) f vals w o).
Proof.
  intros c t u k vals w f o H F. rewrite runs_pair.
  rewrite (andthen_iff _ (fun x => x = Ret f w) _ _ o (fun x => runs_means O c u k w f x H)
             (fun a w o => iff_refl _)).
  rewrite andthen_ret, F. tauto.
Qed.

Lemma builtin_func : forall i h, is_func (builtin i h) = true.
Proof. intros i []; reflexivity. Qed.

Lemma builtin_call : forall c s i h p vals w o, prim_of_addr i = Some p ->
  (Rfunc O c s (builtin i h) vals w o <->
   if may_apply (args_of h) vals then
     andthen (Rargs O c [] (args_of h) vals w) (fun r w1 o =>
       if is_null (snd r) then Rprim O p (fst r ++ c) w1 o
       else o = Ret (Cons (snd r) (Cons (atom_of_env (fst r)) (Num i))) w1) o
   else o = Ret Nil w).
Proof.
  intros c s i h p vals w o H. rewrite Rfunc_eq. cbn [builtin car cdr].
  destruct (may_apply (args_of h) vals); [|tauto].
  apply andthen_iff; [tauto|]. intros [b na] w1 o1. cbn [fst snd env_of_atom]. rewrite H.
  destruct (is_null na); [tauto|]. rewrite app_nil_r. tauto.
Qed.

Lemma call_rest : forall s i p c t u vals w o, the s = builtin i Rest -> prim_of_addr i = Some p ->
  calls c w s ->
  (Runs c (Pair t (Sym u (sy s)) vals) w o <-> Rprim O p ((sy "ANY", vals) :: c) w o).
Proof.
  intros s i p c t u vals w o E P H. unfold calls in H. rewrite E in H.
  rewrite (runs_head _ _ _ _ _ _ _ _ H (builtin_func i Rest)).
  rewrite (builtin_call _ _ _ _ p) by auto. cbn [args_of may_apply].
  rewrite (andthen_iff _ (fun x => x = Ret ([(sy "ANY", vals)], Nil) w) _ _ o
             (fun x => Rargs_sym O c [] false (sy "ANY") vals w x) (fun a w o => iff_refl _)).
  rewrite andthen_ret. cbn [fst snd is_null app]. tauto.
Qed.

Lemma call_one : forall s i p c t u t1 e w o, the s = builtin i One -> prim_of_addr i = Some p ->
  calls c w s ->
  (Runs c (Pair t (Sym u (sy s)) (Pair t1 e Nil)) w o <->
   andthen (Runs c e w) (fun v w1 => Rprim O p ((sy "X", v) :: c) w1) o).
Proof.
  intros s i p c t u t1 e w o E P H. unfold calls in H. rewrite E in H.
  rewrite (runs_head _ _ _ _ _ _ _ _ H (builtin_func i One)).
  rewrite (builtin_call _ _ _ _ p) by auto. cbn [args_of may_apply is_null].
  rewrite (andthen_iff _ _ _ _ o (fun x => Rargs_pair O c [] _ _ _ _ _ _ w x) (fun a w o => iff_refl _)).
  rewrite andthen_assoc. apply andthen_iff; [tauto|]. intros v w1 o1.
  rewrite (andthen_iff _ _ _ _ o1 (fun x => Rargs_nil O c _ _ w1 x) (fun a w o => iff_refl _)).
  rewrite andthen_ret. cbn [fst snd is_null bind app]. tauto.
Qed.

Lemma call_two : forall s i p c t u t1 e1 t2 e2 w o, the s = builtin i Two ->
  prim_of_addr i = Some p -> calls c w s ->
  (Runs c (Pair t (Sym u (sy s)) (Pair t1 e1 (Pair t2 e2 Nil))) w o <->
   andthen (Runs c e1 w) (fun v1 w1 =>
     andthen (Runs c e2 w1) (fun v2 w2 => Rprim O p ((sy "Y", v2) :: (sy "X", v1) :: c) w2)) o).
Proof.
  intros s i p c t u t1 e1 t2 e2 w o E P H. unfold calls in H. rewrite E in H.
  rewrite (runs_head _ _ _ _ _ _ _ _ H (builtin_func i Two)).
  rewrite (builtin_call _ _ _ _ p) by auto. cbn [args_of may_apply is_null].
  rewrite (andthen_iff _ _ _ _ o (fun x => Rargs_pair O c [] _ _ _ _ _ _ w x) (fun a w o => iff_refl _)).
  rewrite andthen_assoc. apply andthen_iff; [tauto|]. intros v w1 o1.
  rewrite (andthen_iff _ _ _ _ o1 (fun x => Rargs_pair O c _ _ _ _ _ _ _ w1 x) (fun a w o => iff_refl _)).
  rewrite andthen_assoc. apply andthen_iff; [tauto|]. intros v2 w2 o2.
  rewrite (andthen_iff _ _ _ _ o2 (fun x => Rargs_nil O c _ _ w2 x) (fun a w o => iff_refl _)).
  rewrite andthen_ret. cbn [fst snd is_null bind app]. tauto.
Qed.

(** [COND . REM] and [CHAN . REM]. *)
Definition head_name (h : shape) : symbol :=
  match h with CondRem => sy "COND" | _ => sy "CHAN" end.
Lemma call_rem : forall s i h p c t u t1 e rem w o, h = CondRem \/ h = ChanRem ->
  the s = builtin i h -> prim_of_addr i = Some p -> calls c w s ->
  (Runs c (Pair t (Sym u (sy s)) (Pair t1 e rem)) w o <->
   andthen (Runs c e w) (fun v w1 =>
     Rprim O p ((sy "REM", rem) :: (head_name h, v) :: c) w1) o).
Proof.
  intros s i h p c t u t1 e rem w o Hh E P H. unfold calls in H. rewrite E in H.
  rewrite (runs_head _ _ _ _ _ _ _ _ H (builtin_func i h)).
  rewrite (builtin_call _ _ _ _ p) by auto.
  destruct Hh as [-> | ->]; cbn [args_of may_apply is_null head_name];
  (rewrite (andthen_iff _ _ _ _ o (fun x => Rargs_pair O c [] _ _ _ _ _ _ w x) (fun a w o => iff_refl _));
   rewrite andthen_assoc; apply andthen_iff; [tauto|]; intros v w1 o1;
   rewrite (andthen_iff _ _ _ _ o1 (fun x => Rargs_sym O c _ _ _ _ w1 x) (fun a w o => iff_refl _));
   rewrite andthen_ret; cbn [fst snd is_null bind app]; tauto).
Qed.

(** ** Bodies *)

Lemma Rprog_list : forall l c r w o, Rprog O c (mk_list l) r w o <-> runs_body O c l r w o.
Proof.
  induction l as [|x l IH]; intros c r w o; cbn [mk_list].
  - rewrite Rprog_end by reflexivity. split.
    + intros ->. constructor.
    + intro H; inversion H; auto.
  - rewrite Rprog_pair. split.
    + intros [[v [w1 [H1 H2]]]|[e [H1 ->]]].
      * econstructor; eauto. apply IH; auto.
      * constructor; auto.
    + intro H; inversion H; subst.
      * left. eexists; eexists; split; eauto. apply IH; auto.
      * right. eexists; split; eauto.
Qed.

(** ** C34 *)

Lemma Rprim_if : forall c h v rem k w o,
  Rprim O Pif ((h, rem) :: (k, v) :: c) w o <->
  Runs c (if is_null v then car (cdr rem) else car rem) w o.
Proof.
  intros. unfold Rprim, run_prim. cbn [pops_two prim2].
  rewrite runs_conv. destruct (is_null v); tauto.
Qed.
Lemma if_runs : forall c t t1 e rem w o, calls c w "if" ->
  (Runs c (Pair t (Symb (sy "if")) (Pair t1 e rem)) w o <->
   andthen (Runs c e w) (fun v w1 => Runs c (if is_null v then car (cdr rem) else car rem) w1) o).
Proof.
  intros. rewrite (call_rem "if" 9%Z CondRem Pif); auto; try reflexivity.
  apply andthen_iff; [tauto|]. intros. apply Rprim_if.
Qed.
Lemma when_runs : forall c t t1 e body w o, calls c w "when" ->
  (Runs c (Pair t (Symb (sy "when")) (Pair t1 e (mk_list body))) w o <->
   andthen (Runs c e w) (fun v w1 o =>
     if is_null v then o = Ret Nil w1 else runs_body O c body Nil w1 o) o).
Proof.
  intros. rewrite (call_rem "when" 31%Z CondRem Pwhen); auto; try reflexivity.
  apply andthen_iff; [tauto|]. intros v w1 o1.
  unfold Rprim, run_prim. cbn [pops_two prim2]. destruct (is_null v); [apply conv_ret|].
  rewrite <- Rprog_list. unfold Rprog. tauto.
Qed.
Lemma unless_runs : forall c t t1 e body w o, calls c w "unless" ->
  (Runs c (Pair t (Symb (sy "unless")) (Pair t1 e (mk_list body))) w o <->
   andthen (Runs c e w) (fun v w1 o =>
     if is_null v then runs_body O c body Nil w1 o else o = Ret Nil w1) o).
Proof.
  intros. rewrite (call_rem "unless" 30%Z CondRem Punless); auto; try reflexivity.
  apply andthen_iff; [tauto|]. intros v w1 o1.
  unfold Rprim, run_prim. cbn [pops_two prim2]. destruct (is_null v); [|apply conv_ret].
  rewrite <- Rprog_list. unfold Rprog. tauto.
Qed.

(** ** C33 *)
Lemma quote_runs : forall c t x w o, calls c w "quote" ->
  (Runs c (Pair t (Symb (sy "quote")) x) w o <-> o = Ret x w).
Proof.
  intros. rewrite (call_rest "quote" 24%Z Pquote); auto; try reflexivity.
  unfold Rprim, run_prim. cbn [pops_two prim1]. apply conv_ret.
Qed.

(** ** Arithmetic *)
Lemma prim2_runs : forall s i p c t u t1 e1 t2 e2 w o, the s = builtin i Two ->
  prim_of_addr i = Some p -> pops_two p = true -> calls c w s ->
  (Runs c (Pair t (Sym u (sy s)) (Pair t1 e1 (Pair t2 e2 Nil))) w o <->
   andthen (Runs c e1 w) (fun v1 w1 => andthen (Runs c e2 w1) (fun v2 w2 =>
     conv (fun n => prim2 O (eval O n) p c v1 v2 w2)) ) o).
Proof.
  intros s i p c t u t1 e1 t2 e2 w o E P T H. rewrite (call_two s i p) by auto.
  apply andthen_iff; [tauto|]. intros. apply andthen_iff; [tauto|]. intros.
  unfold Rprim, run_prim. rewrite T. tauto.
Qed.

End Sem.
