(** * Cc10Proofs: the conversion of a function, >&. *)
From Verif Require Import Base Value ValueSpec ValueProofs Tails Print Eval EvalSpec EvalProofs
  Sem1 Sem2 Sem3 Sem4 Sem5 TailsProofs TailsSem BuiltinSpec Sem6 Cases Lib LibSpec LibBase LibProofs LibDerived LibMore LibAssoc LibNum
  LibSort Lib2Proofs Install CcSpec CcProofs Cc2Proofs Cc3Proofs Cc4Proofs Cc7Spec Cc7Proofs Cc8Proofs.
Open Scope nat_scope.

(** ** The definition, as stored *)
Notation fun_pat := (mk_list [sym "args"; sym "closure"; sym "body"]).
Notation lifted_pat := (Cons Wild (sym "lifted")).
Notation kvar_e := (| sym "list"; (| sym "sym"; (| sym "cons"; Chr 95; (| sym "ntoa"; sym "arglen" |) |) |) |).
Notation cps_body := (Cons (sym "let") (Cons (bindings [(fun_pat, (| sym "eval"; sym "fsym" |)); (sym "arglen", (| sym "len"; sym "args" |));
  (sym "kvar", kvar_e); (sym "fargs", (| sym "append"; sym "args"; sym "kvar" |));
  (lifted_pat, (| sym "cps:lift"; sym "kvar"; (| sym "+"; sym "arglen"; Num 1 |); sym "body" |))])
  (mk_list [(| sym "cons"; sym "fargs"; (| sym "cons"; sym "closure"; (| sym "list"; sym "lifted" |) |) |)]))).
Lemma lib5_cps : lib5 ">&" = lam (pars ["fsym"]%string) [] [cps_body].
Proof. vm_compute. reflexivity. Qed.

Lemma fun_linear : linear fun_pat.
Proof.
  intros k [|[|] [|[|] [|[|] [|? p]]]] [|[|] [|[|] [|[|] [|? q]]]] H1 H2; cbn in H1, H2; auto; try tauto;
    repeat match goal with H : exists _, _ |- _ => destruct H | H : _ = _ |- _ => discriminate H end;
    match goal with A : Symb _ = Sym _ k, B : Symb _ = Sym _ k |- _ => injection A as _ <-; discriminate B | _ => idtac end.
Qed.
Lemma lifted_linear : linear lifted_pat.
Proof.
  intros k [|[|] [|? p]] [|[|] [|? q]] H1 H2; cbn in H1, H2; auto; try tauto; try (destruct H1; discriminate);
    try (destruct H2; discriminate).
Qed.
Lemma fun_inside : forall a b c ks us S, increasing S -> length ks = length us ->
  exists S', scope ((bind [] fun_pat (mk_list [a; b; c]) :: slices ks us) ++ [S]) S' /\
    inside ("args"%string :: "closure"%string :: "body"%string :: ks) (a :: b :: c :: us) [] S S'.
Proof.
  intros a b c ks us S I L. destruct (scope_exists ((bind [] fun_pat (mk_list [a; b; c]) :: slices ks us) ++ [S])) as [S' SC]. exists S'. split; auto.
  apply scope_iff in SC. destruct SC as [I' G]. split; auto. intro k. rewrite G. unfold slices.
  cbn [mk_list bind app lget env_get map combine car cdr].
  destruct (sym_match (sy "args") k) eqn:E1; [apply sym_match_eq in E1; subst k; reflexivity|].
  destruct (sym_match (sy "closure") k) eqn:E2; [apply sym_match_eq in E2; subst k; reflexivity|].
  destruct (sym_match (sy "body") k) eqn:E3; [auto|]. rewrite lget_single. cbn [lget env_get].
  destruct (env_get (combine (map sy ks) us) k); auto.
Qed.
Lemma names_kept : forall s (xs : list symbol) p, is_list p = false -> kept s (mk_list (map (Sym false) xs ++ [p])).
Proof.
  intros s xs p N. left. destruct xs as [|x [|y xs]]; unfold is_func; cbn [map app mk_list car cdr].
  - apply andb_false_r.
  - apply andb_false_r.
  - unfold is_clos. cbn [car is_null negb is_pair andb is_list orb]. rewrite andb_false_r. reflexivity.
Qed.

Section Cc10.
Variable O : oracle.
Notation Runs := (runs O).
Notation free := Cc7Proofs.free.

Lemma kvar_runs : forall n p S w, (0 <= n)%Z -> int64 n -> placeholder n p -> free S w -> env_get S (sy "arglen") = Some (Num n) ->
  Runs S kvar_e w (Ret (mk_list [p]) w).
Proof.
  intros n p S w P B [l [W ->]] [I [R5 D]] G. assert (R := proj1 R5).
  change (Runs S (Pair false (sym "list") (mk_list [(| sym "sym"; (| sym "cons"; Chr 95; (| sym "ntoa"; sym "arglen" |) |) |)])) w (Ret (mk_list [sym_of (mk_chars (95%Z :: l))]) w)).
  apply f_list1; [exact R|]. apply f_sym_of; [apply ready5_calls; [auto|cbn; tauto]|].
  change (mk_chars (95%Z :: l)) with (val2 "cons" (Chr 95) (mk_chars l)). two "cons"%string; [apply f_const; reflexivity|].
  change (Runs S (Pair false (sym "ntoa") (mk_list [sym "arglen"])) w (Ret (mk_chars l) w)).
  destruct (ntoa_ok O n P B) as [l' [W' H]]. rewrite (writes_one _ _ _ W W').
  apply (H S w I R); [apply ready5_calls; [auto|cbn; tauto]|apply env_get_shows; exact D|apply ready_means; [auto|cbn; tauto]|].
  apply list1. apply f_sym, means_get. exact G.
Qed.
Lemma cps_ok : forall f xs cl b p n r S w, f <> sy "fsym" -> means S w f (mk_list [mk_list (map (Sym false) xs); cl; b]) ->
  placeholder (Z.of_nat (length xs)) p -> is_list p = false -> lifts (Z.of_nat (length xs) + 1) b [p] n r -> (n < 2 ^ 63)%Z ->
  increasing S -> ready5 S w -> shows S (sy "descend") None ->
  applied O S (lib5 ">&") [Symb f] w (Ret (mk_list [mk_list (map (Sym false) xs ++ [p]); cl; mk_list r]) w).
Proof.
  intros f xs cl b p n r S w NF MF P PL LF B I R D. rewrite lib5_cps. apply apply_fun0; [exact I|auto|reflexivity|]. intros S1 IN.
  assert (F0 : free S w) by (split; [exact I|split; [exact R|apply env_get_shows; exact D]]).
  assert (F1 : free S1 w) by (eapply free_inside; [exact IN|reflexivity|exact F0]). assert (R1 := proj1 (proj2 F1)). assert (R1' := proj1 R1).
  assert (I1 : increasing S1) by apply IN.
  pose proof (proj1 lifts_up _ _ _ _ _ LF) as UP.
  assert (MF1 : means S1 w f (mk_list [mk_list (map (Sym false) xs); cl; b])).
  { eapply means_same; [|exact MF]. destruct IN as [_ G]. rewrite G. cbn [lget]. rewrite combine_none by (intros s [<-|[]]; exact NF).
    cbn [env_get]. destruct (env_get S f); reflexivity. }
  set (A := mk_list (map (Sym false) xs)) in *. set (N := Z.of_nat (length xs)) in *.
  pose (us := [Num N; mk_list [p]; mk_list (map (Sym false) xs ++ [p]); mk_list r]).
  destruct (fun_inside A cl b [] [] S1 I1 eq_refl) as [T0 [SC0 IN0]].
  destruct (fun_inside A cl b ["arglen"]%string [Num N] S1 I1 eq_refl) as [T1 [SC1 IN1]].
  destruct (fun_inside A cl b ["arglen"; "kvar"]%string [Num N; mk_list [p]] S1 I1 eq_refl) as [T2 [SC2 IN2]].
  destruct (fun_inside A cl b ["arglen"; "kvar"; "fargs"]%string [Num N; mk_list [p]; mk_list (map (Sym false) xs ++ [p])] S1 I1 eq_refl) as [T3 [SC3 IN3]].
  destruct (fun_inside A cl b ["arglen"; "kvar"; "fargs"; "lifted"]%string us S1 I1 eq_refl) as [T4 [SC4 IN4]].
  assert (FT0 : free T0 w) by (eapply free_inside; [exact IN0|reflexivity|exact F1]).
  assert (FT1 : free T1 w) by (eapply free_inside; [exact IN1|reflexivity|exact F1]).
  assert (FT2 : free T2 w) by (eapply free_inside; [exact IN2|reflexivity|exact F1]).
  assert (FT3 : free T3 w) by (eapply free_inside; [exact IN3|reflexivity|exact F1]).
  assert (FT4 : free T4 w) by (eapply free_inside; [exact IN4|reflexivity|exact F1]).
  eapply (let_runs O S1 false) with (ls := bind [] fun_pat (mk_list [A; cl; b]) :: slices ["arglen"; "kvar"; "fargs"; "lifted"]%string us) (w1 := w);
    [apply ready_calls; [exact R1'|cbn; tauto]|auto| |exact SC4|].
  - eapply bindings_step with (S := S1) (v := mk_list [A; cl; b]) (v' := mk_list [A; cl; b]) (b := bind [] fun_pat (mk_list [A; cl; b])) (w1 := w);
      [apply fun_linear| | |apply stored_pattern; reflexivity|apply layer_bind, fun_linear|].
    { apply scope_iff. split; auto. intro j. cbn [app lget]. destruct (env_get S1 j); auto. }
    { apply eval_runs; [known|]. left. exists (Symb f), w. split; [arg|]. apply f_sym. exact MF1. }
    eapply bindings_step with (S := T0) (v := Num N) (v' := Num N) (b := [(sy "arglen", Num N)]) (w1 := w);
      [apply linear_sym|exact SC0| |apply kept_stored; left; reflexivity|apply (layer_bind (sym "arglen")), linear_sym|].
    { apply len_runs; [apply ready5_calls; [apply FT0|cbn; tauto]|]. left. exists A, w. split; [arg|]. exists (Num N). split; [|reflexivity].
      unfold N. constructor; [unfold A; destruct xs; [left; reflexivity|right; cbn [map mk_list]; eauto]|].
      unfold A. clear. induction xs as [|x xs IH]; cbn [map mk_list length]; [apply spine_end; intros; discriminate|constructor; exact IH]. }
    eapply bindings_step with (S := T1) (v := mk_list [p]) (v' := mk_list [p]) (b := [(sy "kvar", mk_list [p])]) (w1 := w);
      [apply linear_sym|exact SC1| |apply kept_stored; apply one_kept|apply (layer_bind (sym "kvar")), linear_sym|].
    { apply (kvar_runs N p); [unfold N; lia|unfold int64; lia|exact P|exact FT1|eapply inside_get; [exact IN1|reflexivity]]. }
    eapply bindings_step with (S := T2) (v := mk_list (map (Sym false) xs ++ [p])) (v' := mk_list (map (Sym false) xs ++ [p]))
      (b := [(sy "fargs", mk_list (map (Sym false) xs ++ [p]))]) (w1 := w);
      [apply linear_sym|exact SC2| |apply kept_stored; apply names_kept; exact PL|apply (layer_bind (sym "fargs")), linear_sym|].
    { assert (I2 : increasing T2) by apply FT2. assert (R2 : ready T2 w) by apply FT2.
      change (Runs T2 (Pair false (sym "append") (Cons (sym "args") (mk_list [sym "kvar"]))) w (Ret (mk_list (map (Sym false) xs ++ [p])) w)).
      apply append_ok with w; auto; [arg|]. change [p] with ([p] ++ []). apply joins_cons with w; [|auto|constructor].
      intros U IU BU. apply (joins_name O T2 (sy "kvar")); auto; [eapply inside_get; [exact IN2|reflexivity]|]. apply none_of; reflexivity. }
    eapply bindings_step with (S := T3) (v := Cons (Num n) (mk_list r)) (v' := Cons (Num n) (mk_list r)) (b := bind [] lifted_pat (Cons (Num n) (mk_list r))) (w1 := w);
      [apply lifted_linear|exact SC3| |apply stored_pattern; reflexivity|apply layer_bind, lifted_linear|constructor].
    assert (R3 : ready5 T3 w) by apply FT3.
    change (Runs T3 (Pair false (sym "cps:lift") (mk_list [sym "kvar"; (| sym "+"; sym "arglen"; Num 1 |); sym "body"])) w (Ret (Cons (Num n) (mk_list r)) w)).
    apply (proj1 (lifts_runs O) _ _ _ _ _ LF ltac:(unfold N; lia) B w T3 FT3); [apply ready5_means; [auto|cbn; tauto]|].
    apply list3 with w w; [arg| |arg].
    eapply (f_arith O "+"%string T3) with (v1 := Num N) (a := N) (b := 1%Z); [cbn; tauto|apply R3|arg|apply f_const; reflexivity|reflexivity|reflexivity|].
    constructor; unfold int64; lia.
  - assert (R4 : ready T4 w) by apply FT4. apply body_one.
    change (mk_list [mk_list (map (Sym false) xs ++ [p]); cl; mk_list r]) with (val2 "cons" (mk_list (map (Sym false) xs ++ [p])) (val2 "cons" cl (mk_list [mk_list r]))).
    two "cons"%string; [arg|]. two "cons"%string; [arg|].
    change (Runs T4 (Pair false (sym "list") (mk_list [sym "lifted"])) w (Ret (mk_list [mk_list r]) w)). apply f_list1; [exact R4|]. arg.
Qed.
End Cc10.
