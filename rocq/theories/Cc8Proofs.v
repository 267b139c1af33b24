(** * Cc8Proofs: cps:lift-any and cps:lift. *)
From Verif Require Import Base Value ValueSpec ValueProofs Tails Print Eval EvalSpec EvalProofs
  Sem1 Sem2 Sem3 Sem4 Sem5 TailsProofs TailsSem BuiltinSpec Sem6 Cases Lib LibSpec LibBase LibProofs LibDerived LibMore LibAssoc LibNum
  LibSort Lib2Proofs Install CcSpec CcProofs Cc2Proofs Cc3Proofs Cc4Proofs Cc7Spec Cc7Proofs.
Open Scope nat_scope.

(** ** The definitions, as stored *)
Notation res_pat := (Cons (sym "id") (sym "res")).
Notation lift_pars := (mk_list [sym "e"; res_pat]).
Notation lift_next := (Cons (sym "next") (sym "nbody")).
Notation largs_e := (| sym "list"; (| sym "cps:symbol"; sym "id" |) |).
Notation lfunc_e := (| sym "list"; (| sym "list"; Cons (sym "quote") (sym "\"); sym "largs"; sym "res" |) |).
Notation lift_e := (| sym "cps:lift"; sym "lfunc"; (| sym "+"; sym "id"; Num 1 |); sym "e" |).
Notation lift_let := (Cons (sym "let") (Cons (bindings [(sym "largs", largs_e); (sym "lfunc", lfunc_e); (lift_next, lift_e)])
   (mk_list [(| sym "cons"; sym "next"; sym "nbody" |)]))).
Notation lift_fun := (| sym "if"; (| sym "lst?"; sym "e" |); lift_let; (| sym "cons"; sym "id"; sym "res" |) |).
Notation any_fold := (| sym "foldr"; Cons (sym "\") (Cons lift_pars (mk_list [lift_fun])); (| sym "cdr"; sym "body" |); (| sym "cons"; sym "counter"; sym "swapped" |) |).
Notation swapped_pat := (Cons Wild (sym "swapped")).
Notation any_body := (Cons (sym "let") (Cons (bindings [(swapped_pat, (| sym "cps:swap"; sym "kvar"; sym "counter"; sym "body" |))]) (mk_list [any_fold]))).
Lemma lib5_any : lib5 "cps:lift-any" = lam (pars ["kvar"; "counter"; "body"]%string) [] [any_body].
Proof. vm_compute. reflexivity. Qed.
Notation call3 s := (| sym s; sym "kvar"; sym "counter"; sym "body" |).
Notation lift_cases :=
  [(mk_list [sym "when"; Wild; Wild], call3 "cps:lift-ith"); (mk_list [sym "unless"; Wild; Wild], call3 "cps:lift-ith"); (mk_list [sym "if"; Wild; Wild], call3 "cps:lift-ith");
   (mk_list [sym "if"; Wild; Wild; Wild], call3 "cps:lift-ite"); (Wild, call3 "cps:lift-any")].
Notation lift_match := (Cons (sym "match") (Cons (sym "body") (clauses lift_cases))).
Notation lift_body := (Cons (sym "cond") (Cons (sym "body") (clauses
  [(sym "lst?", lift_match); (Wild, (| sym "cons"; sym "counter"; (| sym "append"; sym "kvar"; (| sym "list"; sym "body" |) |) |))]))).
Lemma lib5_lift : lib5 "cps:lift" = lam (pars ["kvar"; "counter"; "body"]%string) [] [lift_body].
Proof. vm_compute. reflexivity. Qed.

Scheme lifts_mut := Minimality for lifts Sort Prop
  with wraps_mut := Minimality for wraps Sort Prop.
Combined Scheme lifts_wraps from lifts_mut, wraps_mut.
Lemma lifts_up : (forall c b k n r, lifts c b k n r -> (c <= n)%Z) /\ (forall c es sw n r, wraps c es sw n r -> (c <= n)%Z).
Proof. apply lifts_wraps; intros; lia. Qed.

Section Cc8.
Variable O : oracle.
Notation Runs := (runs O).
Notation free := Cc7Proofs.free.

(** ** Patterns *)
Lemma res_linear : linear res_pat.
Proof.
  intros k [|[|] [|? p]] [|[|] [|? q]] H1 H2; cbn in H1, H2; auto; try tauto; try (destruct H1; discriminate);
    try (destruct H2; discriminate).
  - destruct H1 as [? H1], H2 as [? H2]. injection H1 as _ <-. discriminate.
  - destruct H1 as [? H1], H2 as [? H2]. injection H1 as _ <-. discriminate.
Qed.
Lemma both_linear : linear lift_next.
Proof.
  intros k [|[|] [|? p]] [|[|] [|? q]] H1 H2; cbn in H1, H2; auto; try tauto; try (destruct H1; discriminate);
    try (destruct H2; discriminate).
  - destruct H1 as [? H1], H2 as [? H2]. injection H1 as _ <-. discriminate.
  - destruct H1 as [? H1], H2 as [? H2]. injection H1 as _ <-. discriminate.
Qed.
Lemma swapped_linear : linear swapped_pat.
Proof.
  intros k [|[|] [|? p]] [|[|] [|? q]] H1 H2; cbn in H1, H2; auto; try tauto; try (destruct H1; discriminate);
    try (destruct H2; discriminate).
Qed.
Lemma apply_res : forall S d x a b r w v w', increasing S -> NoDup (map fst d) -> is_tail_call v = false ->
  (forall S', inside ["e"; "id"; "res"]%string [a; b; r] d S S' -> Runs S' x w (Ret v w')) ->
  applied O S (lam lift_pars d [x]) [a; Cons b r] w (Ret v w').
Proof.
  pose proof res_linear as L.
  intros S d x a b r w v w' I N Q H h t es w0 M A. rewrite !mk_arg_list in *.
  eapply (call_any O S t h [sym "e"; res_pat] Nil d [x] es Nil [a; Cons b r]); eauto.
  - discriminate.
  - repeat constructor; [apply linear_sym|exact L].
  - apply runs_list_len in A. auto.
  - constructor; [apply layer_bind, linear_sym|constructor; [apply layer_bind, L|constructor]].
  - constructor.
  - intros S' I' G. apply body_one, H. split; auto. intro k. rewrite G.
    cbn [bind app lget env_get map combine].
    destruct (sym_match (sy "e") k) eqn:E0; [reflexivity|].
    destruct (sym_match (sy "id") k) eqn:E1; [|destruct (sym_match (sy "res") k) eqn:E2; auto].
    apply sym_match_eq in E1. subst k. reflexivity.
Qed.
Lemma let_swapped : forall S t e body w x v w1 o, increasing S -> ready S w -> Runs S e w (Ret (Cons x v) w1) ->
  (forall S', inside ["swapped"]%string [v] [] S S' -> runs_body O S' body Nil w1 o) ->
  Runs S (Pair t (sym "let") (Cons (bindings [(swapped_pat, e)]) (mk_list body))) w o.
Proof.
  intros S t e body w x v w1 o I R E B.
  assert (OP : bind [] swapped_pat (Cons x v) = [(sy "swapped", v)]) by reflexivity.
  destruct (slices_inside ["swapped"]%string [v] S I) as [S1 [SC1 IN1]].
  eapply (let_runs O S t) with (ls := slices ["swapped"]%string [v]); [apply ready_calls; [exact R|cbn; tauto]|auto| |exact SC1|apply B; exact IN1].
  eapply bindings_step with (S := S) (v := Cons x v) (v' := Cons x v) (b := bind [] swapped_pat (Cons x v));
    [apply swapped_linear| |exact E|apply stored_pattern; reflexivity|apply layer_bind, swapped_linear|].
  - apply scope_iff. split; auto. intro j. cbn [app lget]. destruct (env_get S j); auto.
  - rewrite OP. constructor.
Qed.
Lemma let_lift : forall S t e1 e2 e3 body w u1 u2 x v o, increasing S -> ready S w -> Runs S e1 w (Ret u1 w) -> kept "largs" u1 ->
  (forall S', inside ["largs"]%string [u1] [] S S' -> Runs S' e2 w (Ret u2 w)) -> kept "lfunc" u2 ->
  (forall S', inside ["largs"; "lfunc"]%string [u1; u2] [] S S' -> Runs S' e3 w (Ret (Cons x v) w)) ->
  (forall S', inside ["largs"; "lfunc"; "next"; "nbody"]%string [u1; u2; x; v] [] S S' -> runs_body O S' body Nil w o) ->
  Runs S (Pair t (sym "let") (Cons (bindings [(sym "largs", e1); (sym "lfunc", e2); (lift_next, e3)]) (mk_list body))) w o.
Proof.
  pose proof both_linear as L.
  intros S t e1 e2 e3 body w u1 u2 x v o I R E1 K1 E2 K2 E3 B.
  destruct (slices_inside ["largs"]%string [u1] S I) as [S1 [SC1 IN1]].
  destruct (slices_inside ["largs"; "lfunc"]%string [u1; u2] S I) as [S2 [SC2 IN2]].
  destruct (scope_exists ((slices ["largs"; "lfunc"]%string [u1; u2] ++ [bind [] lift_next (Cons x v)]) ++ [S])) as [S3 SC3].
  assert (IN3 : inside ["largs"; "lfunc"; "next"; "nbody"]%string [u1; u2; x; v] [] S S3).
  { apply scope_iff in SC3. destruct SC3 as [I3 G]. split; auto. intro k. rewrite G.
    cbn [slices bind app lget env_get map combine].
    destruct (sym_match (sy "largs") k) eqn:F1; [reflexivity|]. destruct (sym_match (sy "lfunc") k) eqn:F2; [reflexivity|].
    destruct (sym_match (sy "next") k) eqn:F3; [|destruct (sym_match (sy "nbody") k) eqn:F4; auto].
    apply sym_match_eq in F3. subst k. reflexivity. }
  eapply (let_runs O S t) with (ls := slices ["largs"; "lfunc"]%string [u1; u2] ++ [bind [] lift_next (Cons x v)]);
    [apply ready_calls; [exact R|cbn; tauto]|auto| |exact SC3|apply B; exact IN3].
  eapply bindings_step with (S := S) (v := u1) (v' := u1) (b := [(sy "largs", u1)]);
    [apply linear_sym| |exact E1|apply kept_stored; exact K1|apply (layer_bind (sym "largs")), linear_sym|].
  - apply scope_iff. split; auto. intro j. cbn [app lget]. destruct (env_get S j); auto.
  - eapply bindings_step with (S := S1) (v := u2) (v' := u2) (b := [(sy "lfunc", u2)]);
      [apply linear_sym|exact SC1|apply E2; exact IN1|apply kept_stored; exact K2|apply (layer_bind (sym "lfunc")), linear_sym|].
    eapply bindings_step with (S := S2) (v := Cons x v) (v' := Cons x v) (b := bind [] lift_next (Cons x v));
      [exact L|exact SC2|apply E3; exact IN2|apply stored_pattern; reflexivity|apply layer_bind, L|].
    constructor.
Qed.

(** ** The function of the fold *)
Definition lifting (w0 : world) : behaviour := fun vs w b w' => w = w0 /\ w' = w0 /\
  exists e i r, vs = [e; Cons (Num i) (mk_list r)] /\
   (is_list e = false /\ b = Cons (Num i) (mk_list r) \/
    is_list e = true /\ int64 i /\ int64 (i + 1) /\ exists n r1 p,
      (forall S, free S w0 -> applied O S (lib5 "cps:symbol") [Num i] w0 (Ret p w0)) /\
      (forall S, free S w0 -> applied O S (lib5 "cps:lift") [mk_list [mk_list [sym "\"; mk_list [p]; mk_list r]]; Num (i + 1); e] w0 (Ret (Cons (Num n) (mk_list r1)) w0)) /\
      b = Cons (Num n) (mk_list r1)).
Lemma one_kept : forall s v, kept s (mk_list [v]).
Proof. intros s v. left. unfold is_func. cbn [mk_list cdr]. apply andb_false_r. Qed.
Lemma lifting_acts : forall c w0, free c w0 -> acts O c ["fun"; "lst"; "acc"]%string (lam lift_pars c [lift_fun]) (lifting w0).
Proof.
  intros c w0 [I [R5 D]]. split.
  2: { intros vs w b w' [-> [-> [e [i [r [-> [[_ ->]|[_ [_ [_ [n [r1 [p [_ [_ ->]]]]]]]]]]]]]]]; split; auto. }
  intros T vs w b w' IT AP _ [-> [-> [e [i [r [-> C]]]]]].
  apply apply_res; [exact IT|apply increasing_NoDup; exact I| |].
  { destruct C as [[_ ->]|[_ [_ [_ [n [r1 [p [_ [_ ->]]]]]]]]]; reflexivity. }
  intros T' INT.
  assert (RT : ready5 T w0) by (eapply ready5_apart; [exact AP|reflexivity|exact R5]).
  assert (RT' : ready5 T' w0) by (eapply inside_ready5d; [exact INT|reflexivity|exact R5|exact RT]). assert (RT1 := proj1 RT').
  assert (GD : env_get T' (sy "descend") = None).
  { destruct INT as [_ G]. rewrite G. cbn [lget]. rewrite combine_none by (apply none_of; reflexivity). rewrite D.
    rewrite apart_get in AP. rewrite AP by (apply none_of; reflexivity). rewrite D. reflexivity. }
  assert (FT : free T' w0) by (split; [apply INT|split; [exact RT'|exact GD]]).
  assert (T0 : Runs T' (sym "e") w0 (Ret e w0)) by arg. assert (T1 : Runs T' (sym "id") w0 (Ret (Num i) w0)) by arg.
  assert (T2 : Runs T' (sym "res") w0 (Ret (mk_list r) w0)) by arg.
  eapply f_if with (w1 := w0); [auto|one "lst?"%string; exact T0|]. change (val1 "lst?" e) with (truth (is_list e)).
  destruct C as [[N ->]|[N [B1 [B2 [n [r1 [p [HP [HS ->]]]]]]]]]; rewrite N.
  - cbn [truth is_null car cdr]. change (Cons (Num i) (mk_list r)) with (val2 "cons" (Num i) (mk_list r)). two "cons"%string; [exact T1|exact T2].
  - replace (is_null (truth true)) with false by reflexivity. cbn [car].
    apply (let_lift T' false largs_e lfunc_e lift_e _ w0 (mk_list [p]) (mk_list [mk_list [sym "\"; mk_list [p]; mk_list r]]) (Num n) (mk_list r1));
      [apply INT|exact RT1| |apply one_kept| |apply one_kept| |].
    + change (Runs T' (Pair false (sym "list") (mk_list [(| sym "cps:symbol"; sym "id" |)])) w0 (Ret (mk_list [p]) w0)).
      apply f_list1; [exact RT1|].
      change (Runs T' (Pair false (sym "cps:symbol") (mk_list [sym "id"])) w0 (Ret p w0)).
      apply (HP T' FT); [apply ready5_means; [auto|cbn; tauto]|]. apply list1. exact T1.
    + intros S2 IN2. assert (F2 : free S2 w0) by (eapply free_inside; [exact IN2|reflexivity|exact FT]). assert (R2 := proj1 (proj1 (proj2 F2))).
      change (Runs S2 (Pair false (sym "list") (mk_list [(| sym "list"; Cons (sym "quote") (sym "\"); sym "largs"; sym "res" |)])) w0
        (Ret (mk_list [mk_list [sym "\"; mk_list [p]; mk_list r]]) w0)).
      apply f_list1; [exact R2|].
      change (Runs S2 (Pair false (sym "list") (mk_list [Cons (sym "quote") (sym "\"); sym "largs"; sym "res"])) w0 (Ret (mk_list [sym "\"; mk_list [p]; mk_list r]) w0)).
      apply list_runs; [known|]. left. exists [mk_list r; mk_list [p]; sym "\"], w0. split; [|reflexivity]. cbn [rev app]. apply list3 with w0 w0.
      * apply f_sym. eapply inside_out; [exact IN2|reflexivity|]. eapply inside_get; [exact INT|reflexivity].
      * arg.
      * apply f_quote. exact R2.
    + intros S2 IN2. assert (F2 : free S2 w0) by (eapply free_inside; [exact IN2|reflexivity|exact FT]). assert (R2 := proj1 (proj2 F2)).
      change (Runs S2 (Pair false (sym "cps:lift") (mk_list [sym "lfunc"; (| sym "+"; sym "id"; Num 1 |); sym "e"])) w0 (Ret (Cons (Num n) (mk_list r1)) w0)).
      apply (HS S2 F2); [apply ready5_means; [auto|cbn; tauto]|]. apply list3 with w0 w0.
      * arg.
      * eapply (f_arith O "+"%string S2) with (v1 := Num i) (a := i) (b := 1%Z); [cbn; tauto|apply R2| |apply f_const; reflexivity|reflexivity|reflexivity|constructor; auto].
        apply f_sym. eapply inside_out; [exact IN2|reflexivity|]. eapply inside_get; [exact INT|reflexivity].
      * apply f_sym. eapply inside_out; [exact IN2|reflexivity|]. eapply inside_get; [exact INT|reflexivity].
    + intros S2 IN2. assert (F2 : free S2 w0) by (eapply free_inside; [exact IN2|reflexivity|exact FT]). assert (R2' := proj1 (proj1 (proj2 F2))).
      apply body_one. change (Cons (Num n) (mk_list r1)) with (val2 "cons" (Num n) (mk_list r1)). two "cons"%string; arg.
Qed.

(** ** One call *)
Lemma any_applied : forall k c o es m sw n r w, swaps c (Symb o :: es) k m sw -> (0 <= c)%Z -> (m < 2 ^ 63)%Z ->
  folds_right (lifting w) (Cons (Num c) (mk_list sw)) es w (Cons (Num n) (mk_list r)) w ->
  forall S, free S w -> applied O S (lib5 "cps:lift-any") [mk_list k; Num c; mk_list (Symb o :: es)] w (Ret (Cons (Num n) (mk_list r)) w).
Proof.
  intros k c o es m sw n r w SW C B H S F. rewrite lib5_any. apply apply_fun0; [apply F|auto|reflexivity|]. intros S1 IN.
  assert (F1 : free S1 w) by (eapply free_inside; [exact IN|reflexivity|exact F]). assert (R1 := proj1 (proj2 F1)). assert (R' := proj1 R1).
  apply (let_swapped S1 false _ _ w (Num m) (mk_list sw) w); [apply IN|exact R'| |].
  - change (Runs S1 (Pair false (sym "cps:swap") (mk_list [sym "kvar"; sym "counter"; sym "body"])) w (Ret (Cons (Num m) (mk_list sw)) w)).
    eapply (swap_applied O k c (Symb o :: es) m (mk_list sw) w); [apply swap_folds; auto|exact F1|apply ready5_means; [auto|cbn; tauto]|].
    apply list3 with w w; arg.
  - intros S2 IN2. assert (F2 : free S2 w) by (eapply free_inside; [exact IN2|reflexivity|exact F1]). assert (R2 := proj1 (proj1 (proj2 F2))).
    apply body_one.
    change (Runs S2 (Pair false (sym "foldr") (mk_list
      [Cons (sym "\") (Cons lift_pars (mk_list [lift_fun])); (| sym "cdr"; sym "body" |); (| sym "cons"; sym "counter"; sym "swapped" |)])) w (Ret (Cons (Num n) (mk_list r)) w)).
    eapply (call_foldr O S2 (lam lift_pars S2 [lift_fun]) (lifting w) es (Cons (Num c) (mk_list sw)) w);
      [apply lifting_acts; exact F2|exact H|reflexivity|apply IN2|auto|auto|].
    apply list3 with w w; [apply f_lambda; auto| |].
    + change (mk_list es) with (val1 "cdr" (mk_list (Symb o :: es))). one "cdr"%string.
      apply f_sym. eapply inside_out; [exact IN2|reflexivity|]. eapply inside_get; [exact IN|reflexivity].
    + change (Cons (Num c) (mk_list sw)) with (val2 "cons" (Num c) (mk_list sw)). two "cons"%string; [|arg].
      apply f_sym. eapply inside_out; [exact IN2|reflexivity|]. eapply inside_get; [exact IN|reflexivity].
Qed.
Lemma not_case : forall s (o : symbol) d es, o <> sy s -> ~ instance (Cons (sym s) d) (mk_list (Symb o :: es)).
Proof. intros s o d es N H. inversion H as [| | | | | |? ? ? ? ? ? H1 H2]; subst. inversion H1; subst. congruence. Qed.
Lemma lst_test : forall S w v, ready5 S w -> Runs S (sym "body") w (Ret v w) -> Runs S (mk_list [sym "lst?"; sym "body"]) w (Ret (truth (is_list v)) w).
Proof. intros S w v R E. change (truth (is_list v)) with (val1 "lst?" v). assert (R' := proj1 R). one "lst?"%string. exact E. Qed.
Lemma lift_call : forall k c o es v w, o <> sy "if" -> o <> sy "unless" -> o <> sy "when" -> is_tail_call v = false ->
  (forall S, free S w -> applied O S (lib5 "cps:lift-any") [mk_list k; Num c; mk_list (Symb o :: es)] w (Ret v w)) ->
  forall S, free S w -> applied O S (lib5 "cps:lift") [mk_list k; Num c; mk_list (Symb o :: es)] w (Ret v w).
Proof.
  intros k c o es v w N1 N2 N3 Q H S F. rewrite lib5_lift. apply apply_fun0; [apply F|auto|exact Q|]. intros S1 IN.
  assert (F1 : free S1 w) by (eapply free_inside; [exact IN|reflexivity|exact F]). assert (R1 := proj1 (proj2 F1)).
  assert (GB : env_get S1 (sy "body") = Some (mk_list (Symb o :: es))) by (eapply inside_get; [exact IN|reflexivity]).
  apply cond_call_runs; [apply ready5_calls; [auto|cbn; tauto]|].
  eapply cond_yes with (w1 := w); [discriminate|apply (lst_test S1 w (mk_list (Symb o :: es)) R1); apply f_sym, means_get; exact GB|].
  apply (match_call_runs O S1 false false false (sym "body") lift_cases); [apply ready5_calls; [auto|cbn; tauto]|].
  left. exists (mk_list (Symb o :: es)), w. split.
  - apply f_sym, means_get. cbn [env_get]. replace (sym_match (sy "ANY") (sy "body")) with false by (vm_compute; reflexivity). exact GB.
  - exists (call3 "cps:lift-any"). split.
    + do 4 (apply chosen_next; [apply not_case; assumption|]). apply chosen_here. constructor.
    + change (Runs S1 (Pair false (sym "cps:lift-any") (mk_list [sym "kvar"; sym "counter"; sym "body"])) w (Ret v w)).
      apply (H S1 F1); [apply ready5_means; [auto|cbn; tauto]|]. apply list3 with w w; arg.
Qed.
Lemma lift_atom : forall k c b w, is_list b = false ->
  forall S, free S w -> applied O S (lib5 "cps:lift") [mk_list k; Num c; b] w (Ret (Cons (Num c) (mk_list (k ++ [b]))) w).
Proof.
  intros k c b w N S F. rewrite lib5_lift. apply apply_fun0; [apply F|auto|reflexivity|]. intros S1 IN.
  assert (F1 : free S1 w) by (eapply free_inside; [exact IN|reflexivity|exact F]). assert (R1 := proj1 (proj2 F1)). assert (R' := proj1 R1).
  assert (GB : env_get S1 (sy "body") = Some b) by (eapply inside_get; [exact IN|reflexivity]).
  assert (I1 : increasing S1) by apply IN.
  apply cond_call_runs; [apply ready5_calls; [auto|cbn; tauto]|].
  eapply cond_no with (w1 := w); [discriminate|apply (lst_test S1 w b R1); apply f_sym, means_get; exact GB|rewrite N; discriminate|].
  apply cond_default. change (Cons (Num c) (mk_list (k ++ [b]))) with (val2 "cons" (Num c) (mk_list (k ++ [b]))). two "cons"%string; [arg|].
  change (Runs S1 (Pair false (sym "append") (Cons (sym "kvar") (mk_list [(| sym "list"; sym "body" |)]))) w (Ret (mk_list (k ++ [b])) w)).
  apply append_ok with w; auto; [arg|].
  change [b] with ([b] ++ []). apply joins_cons with w; [|auto|constructor]. intros U IU BU.
  assert (RU : ready U w) by (eapply ready_apart; [apply beside_apart; exact BU|reflexivity|auto]).
  change (Runs U (Pair false (sym "list") (mk_list [sym "body"])) w (Ret (mk_list [b]) w)).
  apply f_list1; [exact RU|]. apply f_sym, means_get.
  rewrite beside_get in BU. rewrite BU; auto; [apply none_of; reflexivity|left; congruence].
Qed.

(** ** The whole *)
Lemma swaps_wraps : (forall c b k n r, lifts c b k n r -> forall es k' m s, b = mk_list es -> swaps c es k' m s -> m = n) /\
  (forall c es sw n r, wraps c es sw n r -> forall k' m s, swaps c es k' m s -> m = n).
Proof.
  assert (INJ : forall a b, mk_list a = mk_list b -> a = b).
  { induction a as [|x a IH]; intros [|y b] E; try discriminate E; [reflexivity|]. injection E as -> E. f_equal. apply IH. exact E. }
  apply lifts_wraps.
  - intros c b k N1 N2 es k' m s E SW. exfalso. destruct es; subst b; [apply N1; reflexivity|eapply N2; reflexivity].
  - intros c o es k m0 sw n r _ _ _ _ _ IH es' k' m s E SW. change (mk_list (Symb o :: es) = mk_list es') in E. apply INJ in E. subst es'.
    inversion SW as [|c0 e0 es0 k0 i0 r0 M1 M2 SW1|c0 es1 es0 k0 i0 r0 n0 r1 p SW1 P SW2 E1]; subst; [eapply IH; eauto|].
    match goal with X : mk_list ?q = Symb _ |- _ => destruct q; discriminate X end.
  - intros c sw k' m s SW. inversion SW; reflexivity.
  - intros c e es sw i r N1 N2 _ IH k' m s SW.
    inversion SW as [|c0 e0 es0 k0 i0 r0 M1 M2 SW1|c0 es1 es0 k0 i0 r0 n0 r1 p SW1 P SW2 E1]; subst; [eapply IH; eauto|].
    exfalso. destruct es1; [apply N1; reflexivity|eapply N2; reflexivity].
  - intros c es1 es sw i r p n r1 _ IH P _ IH1 k' m s SW.
    inversion SW as [|c0 e0 es0 k0 i0 r0 M1 M2 SW1|c0 es2 es0 k0 i0 r0 n0 r2 p2 SW1 P2 SW2 E1]; subst.
    + exfalso. destruct es1; [apply M1; reflexivity|eapply M2; reflexivity].
    + match goal with X : mk_list _ = mk_list _ |- _ => apply INJ in X; subst end. rewrite (IH _ _ _ SW1) in SW2. eapply IH1; eauto.
Qed.
Lemma lifts_runs : (forall c b k n r, lifts c b k n r -> (0 <= c)%Z -> (n < 2 ^ 63)%Z -> forall w S, free S w ->
    applied O S (lib5 "cps:lift") [mk_list k; Num c; b] w (Ret (Cons (Num n) (mk_list r)) w)) /\
  (forall c es sw n r, wraps c es sw n r -> (0 <= c)%Z -> (n < 2 ^ 63)%Z -> forall w,
    folds_right (lifting w) (Cons (Num c) (mk_list sw)) es w (Cons (Num n) (mk_list r)) w).
Proof.
  assert (NL : forall b, b <> Nil -> (forall t a d, b <> Pair t a d) -> is_list b = false).
  { intros b N1 N2. destruct b; try reflexivity; [congruence|]. exfalso. eapply N2. reflexivity. }
  apply lifts_wraps.
  - intros c b k N1 N2 C B w S F. apply lift_atom; auto.
  - intros c o es k m sw n r N1 N2 N3 SW WR IH C B w S F. apply lift_call; auto. intros S' F'.
    assert (E : m = n).
    { eapply (proj1 swaps_wraps c (mk_list (Symb o :: es)) k n r); [eapply lifts_call; eauto|reflexivity|exact SW]. }
    subst m. eapply any_applied; eauto.
  - intros c sw C B w. constructor.
  - intros c e es sw i r N1 N2 _ IH C B w. eapply fr_cons; [apply IH; auto|]. split; [reflexivity|]. split; [reflexivity|].
    exists e, i, r. split; [reflexivity|]. left. split; [apply NL; auto|reflexivity].
  - intros c es1 es sw i r p n r1 WR IH P LF IH1 C B w.
    pose proof (proj2 lifts_up _ _ _ _ _ WR) as U. pose proof (proj1 lifts_up _ _ _ _ _ LF) as U1.
    eapply fr_cons; [apply IH; [auto|lia]|]. split; [reflexivity|]. split; [reflexivity|]. exists (mk_list es1), i, r. split; [reflexivity|]. right.
    split; [destruct es1; reflexivity|]. split; [unfold int64; lia|]. split; [unfold int64; lia|]. exists n, r1, p.
    destruct P as [l [W ->]]. split; [|split; [|reflexivity]].
    + intros S [I [R D]]. destruct (symbol_ok O i ltac:(lia) ltac:(unfold int64; lia)) as [l' [W' SO]]. rewrite (writes_one _ _ _ W W').
      apply SO; auto. apply env_get_shows. exact D.
    + intros S F. apply IH1; [lia|lia|exact F].
Qed.
End Cc8.
