(** * MainProofs: the command line. *)
From Verif Require Import Base Value ValueSpec Parser EvalSpec ReadSpec LexerSpec Lexer Path Load HostSpec HostProofs HostMain Main MainSpec.
From Verif Require Eval.
Open Scope nat_scope.
Open Scope list_scope.

(** What [options] ends with, as a request. *)
Definition joint (o : settings) (q : request) : parsed -> Prop := fun p =>
  match q with
  | Run b d e ops => p = Settings (mkset (bare o || b) (check o || d) (match e with Some x => Some x | None => expr o end)) ops
  | Info => p = Helped \/ p = Versioned
  | Wrong => p = Refused
  end.
Definition plus (fl : bytes) (o : settings) : settings :=
  mkset (bare o || has (letter "b") fl) (check o || has (letter "d") fl) (expr o).
Lemma letters_flags : forall fl x o, flags fl -> letters (fl ++ x) o = letters x (plus fl o).
Proof.
  induction fl as [|c fl IH]; intros x o F.
  - unfold plus. cbn. rewrite !orb_false_r. destruct o; auto.
  - inversion F as [|c' l' [-> | ->] F' E]; subst; cbn [app letters]; [change (N.eqb (letter "b") 98) with true|change (N.eqb (letter "d") 98) with false; change (N.eqb (letter "d") 100) with true]; cbv iota;
      rewrite IH by auto; unfold plus; cbn; rewrite ?orb_true_r; auto.
Qed.
Lemma flags_dash : forall fl, flags fl -> forall x, dash :: fl ++ x = [dash; dash] -> fl = [] /\ x = [dash].
Proof.
  intros fl F x E. destruct fl as [|c fl]; [cbn in E; injection E as ->; auto|].
  exfalso. injection E as E1 E2. inversion F as [|c' l' [Q|Q] F' E']; subst; discriminate.
Qed.
Lemma options_word : forall fl x r o, flags fl -> fl ++ x <> [] -> dash :: fl ++ x <> [dash; dash] ->
  options ((dash :: fl ++ x) :: r) o =
    match letters x (plus fl o) with
    | Next o' => options r o'
    | Wants o' => match r with [] => Refused | t :: r' => options r' (mkset (bare o') (check o') (Some t)) end
    | Ends p => p
    end.
Proof.
  intros fl x r o F N1 N2. rewrite <- (letters_flags fl x o F). remember (fl ++ x) as l eqn:El.
  destruct l as [|c l]; [congruence|]. change dash with 45%N in *. cbn [options].
  match goal with |- (if ?b then _ else _) = _ => destruct b eqn:B end;
    [exfalso; apply N2; apply (beq_eq (45%N :: c :: l) (bs "--")) in B; exact B|].
  reflexivity.
Qed.
Lemma asks_options : forall args q, asks args q -> forall o, joint o q (options args o).
Proof.
  intros args q A. induction A as [|a r N|r|fl r q F N A IH|fl text r q F N A IH|fl text r q F A IH|fl c x r F C|fl c x r F C N|fl F]; intro o.
  - cbn. rewrite !orb_false_r. destruct o; auto.
  - assert (E : options (a :: r) o = Settings o (a :: r)).
    { destruct a as [|b a]; auto. destruct a as [|y a]; [cbn [options]; destruct b as [|p]; auto; repeat (destruct p as [p|p|]; auto)|].
      cbn [options]. destruct b as [|p]; auto. repeat (destruct p as [p|p|]; auto). exfalso. apply (N y a). reflexivity. }
    rewrite E. cbn. rewrite !orb_false_r. destruct o; auto.
  - cbn. rewrite !orb_false_r. destruct o; auto.
  - rewrite <- (app_nil_r fl) at 2. rewrite options_word; [|auto|rewrite app_nil_r; auto|].
    + cbn [letters]. specialize (IH (plus fl o)). destruct q as [b d e ops| |]; cbn [joint also] in *; auto.
      rewrite IH. unfold plus. cbn [bare check expr]. rewrite !orb_assoc. destruct e; auto.
    + intro E. destruct (flags_dash fl F [] E); subst. congruence.
  - rewrite options_word; [|auto|destruct fl; discriminate|intro E; destruct (flags_dash fl F _ E) as [_ X]; discriminate].
    cbn [letters]. change (N.eqb (letter "e") 98) with false. change (N.eqb (letter "e") 100) with false. change (N.eqb (letter "e") 101) with true. cbv iota.
    destruct text as [|y text]; [congruence|].
    match goal with |- joint _ _ (options r ?o1) => specialize (IH o1) end.
    destruct q as [b d e ops| |]; cbn [joint also] in *; auto. rewrite IH. cbn [plus bare check expr]. rewrite !orb_assoc. destruct e; auto.
  - rewrite options_word; [|auto|destruct fl; discriminate|intro E; destruct (flags_dash fl F _ E) as [_ X]; discriminate].
    cbn [letters]. change (N.eqb (letter "e") 98) with false. change (N.eqb (letter "e") 100) with false. change (N.eqb (letter "e") 101) with true. cbv iota.
    match goal with |- joint _ _ (options r ?o1) => specialize (IH o1) end.
    destruct q as [b d e ops| |]; cbn [joint also] in *; auto. rewrite IH. cbn [plus bare check expr]. rewrite !orb_assoc. destruct e; auto.
  - rewrite options_word; [|auto|destruct fl; discriminate|intro E; destruct (flags_dash fl F _ E) as [_ X]; destruct C; subst; discriminate].
    destruct C as [-> | ->]; cbn; auto.
  - rewrite options_word; [|auto|destruct fl; discriminate|exact N].
    cbn [letters joint]. assert (NC : forall y, In y (bs "bdehv") -> N.eqb c y = false).
    { intros y I. apply N.eqb_neq. intros ->. auto. }
    rewrite !NC by (cbn; tauto). auto.
  - rewrite options_word; [|auto|destruct fl; discriminate|intro E; destruct (flags_dash fl F _ E) as [_ X]; discriminate].
    cbn. auto.
Qed.

(** Every command line asks for something. *)
Lemma some_flags : forall l, exists fl x, l = fl ++ x /\ flags fl /\ (x = [] \/ exists c y, x = c :: y /\ c <> letter "b" /\ c <> letter "d").
Proof.
  induction l as [|c l IH]; [exists [], []; repeat split; auto; constructor|].
  destruct (N.eq_dec c (letter "b")) as [->|B]; [|destruct (N.eq_dec c (letter "d")) as [->|B2]].
  - destruct IH as (fl & x & -> & F & X). exists (letter "b" :: fl), x. repeat split; auto. constructor; auto.
  - destruct IH as (fl & x & -> & F & X). exists (letter "d" :: fl), x. repeat split; auto. constructor; auto.
  - exists [], (c :: l). repeat split; auto; [constructor|]. right. exists c, l. auto.
Qed.
Lemma asks_total_len : forall n args, length args <= n -> exists q, asks args q.
Proof.
  induction n as [|n IH]; intros [|a r] L; try (cbn in L; lia); try (eexists; apply asks_nothing).
  cbn [length] in L. destruct (IH r) as [q A]; [lia|].
  destruct a as [|b [|y a]]; try (eexists; apply asks_operands; discriminate).
  destruct (N.eq_dec b dash) as [->|NB]; [|eexists; apply asks_operands; intros; congruence].
  destruct (some_flags (y :: a)) as (fl & x & E & F & X). rewrite E.
  destruct X as [->|(c & z & -> & B1 & B2)].
  - rewrite app_nil_r. eexists. apply asks_flags; [auto| |exact A]. intros ->. cbn in E. discriminate.
  - destruct (N.eq_dec c (letter "e")) as [->|B3].
    + destruct z as [|z0 z]; [|eexists; apply asks_attached; [auto|discriminate|exact A]].
      destruct r as [|t r]; [eexists; apply asks_missing; auto|].
      destruct (IH r) as [q' A']; [cbn in L; lia|]. eexists. apply asks_separate; eauto.
    + destruct (N.eq_dec c (letter "h")) as [->|B4]; [eexists; apply asks_info; auto|].
      destruct (N.eq_dec c (letter "v")) as [->|B5]; [eexists; apply asks_info; auto|].
      destruct (list_eq_dec N.eq_dec (dash :: fl ++ c :: z) [dash; dash]) as [E2|N2].
      * match goal with |- exists q, asks (?a :: r) q => replace a with [dash; dash] by (symmetry; exact E2) end. eexists. apply asks_end.
      * eexists. apply asks_unknown; auto. cbn. intros [I|[I|[I|[I|[I|[]]]]]]; subst; auto.
Qed.
Lemma asks_total : forall args, exists q, asks args q.
Proof. intro args. eapply asks_total_len. apply le_n. Qed.
Lemma asks_only : forall args q q', asks args q -> asks args q' -> q = q'.
Proof.
  intros args q q' A A'. assert (J := asks_options _ _ A (mkset false false None)). assert (J' := asks_options _ _ A' (mkset false false None)).
  destruct q as [b d e ops| |], q' as [b' d' e' ops'| |]; cbn [joint] in *; auto; try (rewrite J in J'; (discriminate || (destruct J'; discriminate)));
    try (destruct J as [J|J]; rewrite J in J'; discriminate).
  rewrite J in J'. injection J' as -> -> Ee ->. destruct e, e'; try discriminate; congruence.
Qed.

Section Run.
Variables (H : host) (D : disk) (O : oracle) (balanced : st -> bool).
Lemma mode_runs : forall cwd input o ops s v s', does H D O cwd input (expr o) ops s v s' ->
  exists N, forall n, N <= n -> mode H D O n o ops cwd input s = Got v s'.
Proof.
  intros cwd input o ops s v s' X. unfold mode. inversion X; subst.
  - eapply main_file_runs; eauto.
  - eapply main_expr_runs; eauto.
  - eapply main_repl_runs; eauto.
Qed.
Lemma mnml_runs : forall args environ config cwd input b d e ops s v s', asks args (Run b d e ops) ->
  (if b then s = fresh else boot H D ops environ config = Got tt s) -> does H D O cwd input e ops s v s' ->
  exists N, forall n, N <= n -> exists z, mnml H D O balanced n args environ config cwd input = Got z s' /\
    (seen z = 0%Z <-> v <> Nil /\ (d = true -> balanced s' = true)).
Proof.
  intros args environ config cwd input b d e ops s v s' A B X.
  assert (J := asks_options _ _ A (mkset false false None)). cbn [joint bare check expr orb] in J.
  set (o := mkset b d (match e with Some x => Some x | None => None end)) in *.
  assert (Eo : expr o = e) by (destruct e; reflexivity). rewrite <- Eo in X.
  destruct (mode_runs _ _ _ _ _ _ _ X) as [N M]. exists N. intros n L.
  unfold mnml. rewrite J. assert (S : start H D o ops environ config = Got tt s).
  { unfold start. cbn [o bare]. destruct b; [subst s|]; auto. }
  rewrite S. cbn [andthen_]. rewrite (M n L). cbn [andthen_]. eexists. split; [reflexivity|].
  cbn [o check]. destruct d; cbn [andb].
  - destruct (balanced s') eqn:Q; cbn [negb].
    + unfold status. destruct v; cbn; split; intuition (try discriminate; auto).
    + split; [discriminate|]. intros [_ K]. discriminate K. auto.
  - unfold status. destruct v; cbn; split; intuition (try discriminate; auto).
Qed.
End Run.
