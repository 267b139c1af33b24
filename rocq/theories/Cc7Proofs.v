(** * Cc7Proofs: cps:swap. *)
From Verif Require Import Base Value ValueSpec ValueProofs Tails Print Eval EvalSpec EvalProofs
  Sem1 Sem2 Sem3 Sem4 Sem5 TailsProofs TailsSem BuiltinSpec Sem6 Cases Lib LibSpec LibBase LibProofs LibDerived LibMore LibAssoc LibNum
  LibSort Lib2Proofs Install CcSpec CcProofs Cc2Proofs Cc3Proofs Cc4Proofs Cc7Spec.
Open Scope nat_scope.

(** ** The definition, as stored *)
Notation next_pat := (Cons (sym "next") Wild).
Notation id_pat := (Cons (sym "id") (sym "result")).
Notation swap_call := (| sym "cps:swap"; sym "kvar"; (| sym "+"; sym "id"; Num 1 |); sym "e" |).
Notation swap_let :=
  (Cons (sym "let") (Cons (bindings [(sym "larg", (| sym "cps:symbol"; sym "id" |)); (next_pat, swap_call)])
    (mk_list [(| sym "cons"; sym "next"; (| sym "cons"; sym "larg"; sym "result" |) |)]))).
Notation swap_fun := (| sym "if"; (| sym "lst?"; sym "e" |); swap_let; (| sym "cons"; sym "id"; (| sym "cons"; sym "e"; sym "result" |) |) |).
Notation swap_pars := (mk_list [sym "e"; id_pat]).
Notation swap_body := (| sym "foldr"; Cons (sym "\") (Cons swap_pars (mk_list [swap_fun])); sym "body"; (| sym "cons"; sym "counter"; sym "kvar" |) |).
Lemma lib5_swap : lib5 "cps:swap" = lam (pars ["kvar"; "counter"; "body"]%string) [] [swap_body].
Proof. vm_compute. reflexivity. Qed.

(** ** A number is written in one way *)
Lemma reads_above : forall l n, reads l n -> (0 <= n)%Z /\ forall d r, l = d :: r -> d <> 48%Z -> (0 < n)%Z.
Proof.
  intros l n H. induction H as [|l n d D H [P IH]]; [split; [lia|discriminate]|]. unfold digit in D. split; [lia|].
  intros e r E N. destruct l as [|e' l]; injection E as <- <-; [lia|]. specialize (IH e' l eq_refl N). lia.
Qed.
Lemma reads_one : forall l n, reads l n -> (forall r, l <> 48%Z :: r) -> forall l', reads l' n -> (forall r, l' <> 48%Z :: r) -> l = l'.
Proof.
  intros l n H. induction H as [|l n d D H IH]; intros N l' H' N'.
  - destruct l' as [|d r]; [reflexivity|]. exfalso. assert (X : (0 < 0)%Z); [|lia]. eapply (proj2 (reads_above _ _ H')); [reflexivity|].
    intros ->. eapply N'. reflexivity.
  - remember (10 * n + (d - 48))%Z as m eqn:M. destruct H' as [|l1 n1 d1 D1 H1].
    + exfalso. assert (X : (0 < 10 * n + (d - 48))%Z); [|lia].
      assert (Y : reads (l ++ [d]) (10 * n + (d - 48))) by (constructor; auto).
      destruct (l ++ [d]) as [|e r] eqn:E; [destruct l; discriminate E|]. eapply (proj2 (reads_above _ _ Y)); [reflexivity|]. intros ->. eapply N. reflexivity.
    + unfold digit in D, D1. assert (X : n1 = n /\ d1 = d) by lia. destruct X as [-> ->]. f_equal. apply IH; [|exact H1|].
      * intros r ->. eapply N. reflexivity.
      * intros r ->. eapply N'. reflexivity.
Qed.
Lemma writes_one : forall n l l', writes_number n l -> writes_number n l' -> l = l'.
Proof.
  assert (Z : forall l d r, reads l 0 -> l = d :: r -> d <> 48%Z -> False).
  { intros l d r H E N. pose proof (proj2 (reads_above _ _ H) d r E N). lia. }
  intros n l l' [H [[-> ->]|[d [r [E N]]]]] [H' [[E1 ->]|[d' [r' [E' N']]]]].
  - reflexivity.
  - exfalso. eapply Z; eauto.
  - exfalso. subst n. eapply Z; eauto.
  - eapply reads_one; eauto; intros q ->; congruence.
Qed.

Lemma swaps_up : forall c es k n r, swaps c es k n r -> (c <= n)%Z.
Proof. intros c es k n r H. induction H; lia. Qed.

Section Cc7.
Variable O : oracle.
Notation Runs := (runs O).

(** ** [let] with a pattern after a name *)
Lemma next_linear : linear next_pat.
Proof.
  intros k [|[|] [|? p]] [|[|] [|? q]] H1 H2; cbn in H1, H2; auto; try tauto; try (destruct H1; discriminate);
    try (destruct H2; discriminate).
Qed.
Lemma let_next : forall S t e1 e2 body w u w1 x v w2 o, increasing S -> ready S w -> Runs S e1 w (Ret u w1) -> kept "larg" u ->
  (forall S', inside ["larg"]%string [u] [] S S' -> Runs S' e2 w1 (Ret (Cons x v) w2)) ->
  (forall S', inside ["larg"; "next"]%string [u; x] [] S S' -> runs_body O S' body Nil w2 o) ->
  Runs S (Pair t (sym "let") (Cons (bindings [(sym "larg", e1); (next_pat, e2)]) (mk_list body))) w o.
Proof.
  intros S t e1 e2 body w u w1 x v w2 o I R E1 K E2 B.
  assert (OP : bind [] next_pat (Cons x v) = [(sy "next", x)]) by reflexivity.
  destruct (slices_inside ["larg"]%string [u] S I) as [S1 [SC1 IN1]]. destruct (slices_inside ["larg"; "next"]%string [u; x] S I) as [S2 [SC2 IN2]].
  eapply (let_runs O S t) with (ls := slices ["larg"; "next"]%string [u; x]); [apply ready_calls; [exact R|cbn; tauto]|auto| |exact SC2|apply B; exact IN2].
  eapply bindings_step with (S := S) (v := u) (v' := u) (b := [(sy "larg", u)]);
    [apply linear_sym| |exact E1|apply kept_stored; exact K|apply (layer_bind (sym "larg")), linear_sym|].
  - apply scope_iff. split; auto. intro j. cbn [app lget]. destruct (env_get S j); auto.
  - eapply bindings_step with (S := S1) (v := Cons x v) (v' := Cons x v) (b := bind [] next_pat (Cons x v));
      [apply next_linear|exact SC1|apply E2; exact IN1|apply stored_pattern; reflexivity|apply layer_bind, next_linear|].
    rewrite OP. constructor.
Qed.

(** ** The function of the fold *)
Lemma id_linear : linear id_pat.
Proof.
  intros k [|[|] [|? p]] [|[|] [|? q]] H1 H2; cbn in H1, H2; auto; try tauto; try (destruct H1; discriminate);
    try (destruct H2; discriminate).
  - destruct H1 as [? H1], H2 as [? H2]. injection H1 as _ <-. discriminate.
  - destruct H1 as [? H1], H2 as [? H2]. injection H1 as _ <-. discriminate.
Qed.
Lemma apply_id : forall S d x a b r w v w', increasing S -> NoDup (map fst d) -> is_tail_call v = false ->
  (forall S', inside ["e"; "id"; "result"]%string [a; b; r] d S S' -> Runs S' x w (Ret v w')) ->
  applied O S (lam swap_pars d [x]) [a; Cons b r] w (Ret v w').
Proof.
  intros S d x a b r w v w' I N Q H h t es w0 M A. rewrite !mk_arg_list in *.
  eapply (call_any O S t h [sym "e"; id_pat] Nil d [x] es Nil [a; Cons b r]); eauto.
  - discriminate.
  - repeat constructor; [apply linear_sym|apply id_linear].
  - apply runs_list_len in A. auto.
  - constructor; [apply layer_bind, linear_sym|constructor; [apply layer_bind, id_linear|constructor]].
  - constructor.
  - intros S' I' G. apply body_one, H. split; auto. intro k. rewrite G.
    cbn [bind app lget env_get map combine].
    destruct (sym_match (sy "e") k) eqn:E0; [reflexivity|].
    destruct (sym_match (sy "id") k) eqn:E1; [|destruct (sym_match (sy "result") k) eqn:E2; auto].
    apply sym_match_eq in E1. subst k. reflexivity.
Qed.
Definition free (S : env) (w : world) : Prop := increasing S /\ ready5 S w /\ env_get S (sy "descend") = None.
Definition swapping (k : list atom) (w0 : world) : behaviour := fun vs w b w' => w = w0 /\ w' = w0 /\
  exists e i r, vs = [e; Cons (Num i) (mk_list r)] /\
   (is_list e = false /\ b = Cons (Num i) (mk_list (e :: r)) \/
    is_list e = true /\ int64 i /\ int64 (i + 1) /\ exists n r1 p, is_func p = false /\
      (forall S, free S w0 -> applied O S (lib5 "cps:symbol") [Num i] w0 (Ret p w0)) /\
      (forall S, free S w0 -> applied O S (lib5 "cps:swap") [mk_list k; Num (i + 1); e] w0 (Ret (Cons (Num n) r1) w0)) /\
      b = Cons (Num n) (mk_list (p :: r))).
Lemma free_inside : forall hs vs S S' w, inside hs vs [] S S' -> clear_of hs ("descend"%string :: names5) = true -> free S w -> free S' w.
Proof.
  intros hs vs S S' w IN C [I [R D]].
  assert (C1 : clear_of hs (["descend"%string] ++ names5) = true) by exact C. apply clear_both in C1. destruct C1 as [C1 C2].
  split; [apply IN|]. split; [eapply inside_ready5; eauto|]. destruct IN as [_ G]. rewrite G. cbn [lget].
  rewrite combine_none by (intros h J; apply (clear_not hs ["descend"%string] "descend" h C1); [left; reflexivity|exact J]). cbn [env_get]. rewrite D. reflexivity.
Qed.
Lemma swapping_acts : forall k c w0, free c w0 -> env_get c (sy "kvar") = Some (mk_list k) ->
  acts O c ["fun"; "lst"; "acc"]%string (lam swap_pars c [swap_fun]) (swapping k w0).
Proof.
  intros k c w0 [I [R5 D]] KV. split.
  2: { intros vs w b w' [-> [-> [e [i [r [-> [[_ ->]|[_ [_ [_ [n [r1 [p [_ [_ [_ ->]]]]]]]]]]]]]]]]; split; auto. }
  intros T vs w b w' IT AP _ [-> [-> [e [i [r [-> C]]]]]].
  apply apply_id; [exact IT|apply increasing_NoDup; exact I| |].
  { destruct C as [[_ ->]|[_ [_ [_ [n [r1 [p [_ [_ [_ ->]]]]]]]]]]; reflexivity. }
  intros T' INT.
  assert (RT : ready5 T w0) by (eapply ready5_apart; [exact AP|reflexivity|exact R5]).
  assert (RT' : ready5 T' w0) by (eapply inside_ready5d; [exact INT|reflexivity|exact R5|exact RT]). assert (RT1 := proj1 RT').
  assert (GK : env_get T' (sy "kvar") = Some (mk_list k)).
  { destruct INT as [_ G]. rewrite G. cbn [lget]. rewrite combine_none by (apply none_of; reflexivity). rewrite KV. reflexivity. }
  assert (GD : env_get T' (sy "descend") = None).
  { destruct INT as [_ G]. rewrite G. cbn [lget]. rewrite combine_none by (apply none_of; reflexivity). rewrite D.
    rewrite apart_get in AP. rewrite AP by (apply none_of; reflexivity). rewrite D. reflexivity. }
  assert (FT : free T' w0) by (split; [apply INT|split; [exact RT'|exact GD]]).
  assert (T0 : Runs T' (sym "e") w0 (Ret e w0)) by arg. assert (T1 : Runs T' (sym "id") w0 (Ret (Num i) w0)) by arg.
  assert (T2 : Runs T' (sym "result") w0 (Ret (mk_list r) w0)) by arg.
  eapply f_if with (w1 := w0); [auto|one "lst?"%string; exact T0|]. change (val1 "lst?" e) with (truth (is_list e)).
  destruct C as [[N ->]|[N [B1 [B2 [n [r1 [p [FP [HP [HS ->]]]]]]]]]]; rewrite N.
  - cbn [truth is_null car cdr].
    change (Cons (Num i) (mk_list (e :: r))) with (val2 "cons" (Num i) (val2 "cons" e (mk_list r))).
    two "cons"%string; [exact T1|]. two "cons"%string; [exact T0|exact T2].
  - replace (is_null (truth true)) with false by reflexivity. cbn [car].
    apply (let_next T' false _ swap_call _ w0 p w0 (Num n) r1 w0); [apply INT|exact RT1| |left; exact FP| |].
    + change (Runs T' (Pair false (sym "cps:symbol") (mk_list [sym "id"])) w0 (Ret p w0)).
      apply (HP T' FT); [apply ready5_means; [auto|cbn; tauto]|]. apply list1. exact T1.
    + intros S2 IN2. assert (F2 : free S2 w0) by (eapply free_inside; [exact IN2|reflexivity|exact FT]). assert (R2 := proj1 (proj2 F2)).
      change (Runs S2 (Pair false (sym "cps:swap") (mk_list [sym "kvar"; (| sym "+"; sym "id"; Num 1 |); sym "e"])) w0 (Ret (Cons (Num n) r1) w0)).
      apply (HS S2 F2); [apply ready5_means; [auto|cbn; tauto]|]. apply list3 with w0 w0.
      * apply f_sym. eapply inside_out; [exact IN2|reflexivity|exact GK].
      * eapply (f_arith O "+"%string S2) with (v1 := Num i) (a := i) (b := 1%Z); [cbn; tauto|apply R2| |apply f_const; reflexivity|reflexivity|reflexivity|constructor; auto].
        apply f_sym. eapply inside_out; [exact IN2|reflexivity|]. eapply inside_get; [exact INT|reflexivity].
      * apply f_sym. eapply inside_out; [exact IN2|reflexivity|]. eapply inside_get; [exact INT|reflexivity].
    + intros S2 IN2. assert (F2 : free S2 w0) by (eapply free_inside; [exact IN2|reflexivity|exact FT]). assert (R2 := proj1 (proj2 F2)). assert (R2' := proj1 R2).
      apply body_one.
      change (Cons (Num n) (mk_list (p :: r))) with (val2 "cons" (Num n) (val2 "cons" p (mk_list r))).
      two "cons"%string; [arg|]. two "cons"%string; [arg|].
      apply f_sym. eapply inside_out; [exact IN2|reflexivity|]. eapply inside_get; [exact INT|reflexivity].
Qed.

(** ** The whole *)
Lemma swap_applied : forall k c es n r w, folds_right (swapping k w) (Cons (Num c) (mk_list k)) es w (Cons (Num n) r) w ->
  forall S, free S w -> applied O S (lib5 "cps:swap") [mk_list k; Num c; mk_list es] w (Ret (Cons (Num n) r) w).
Proof.
  intros k c es n r w H S F. rewrite lib5_swap. apply apply_fun0; [apply F|auto|reflexivity|]. intros S1 IN.
  assert (F1 : free S1 w) by (eapply free_inside; [exact IN|reflexivity|exact F]). assert (R' := proj1 (proj1 (proj2 F1))).
  change (Runs S1 (Pair false (sym "foldr") (mk_list
    [Cons (sym "\") (Cons swap_pars (mk_list [swap_fun])); sym "body"; (| sym "cons"; sym "counter"; sym "kvar" |)])) w (Ret (Cons (Num n) r) w)).
  eapply (call_foldr O S1 (lam swap_pars S1 [swap_fun]) (swapping k w) es (Cons (Num c) (mk_list k)) w);
    [apply swapping_acts; [exact F1|eapply inside_get; [exact IN|reflexivity]]|exact H|reflexivity|apply IN|auto|auto|].
  apply list3 with w w; [apply f_lambda; auto|arg|].
  change (Cons (Num c) (mk_list k)) with (val2 "cons" (Num c) (mk_list k)). two "cons"%string; arg.
Qed.
Lemma swap_folds : forall c es k n r, swaps c es k n r -> (0 <= c)%Z -> (n < 2 ^ 63)%Z -> forall w,
  folds_right (swapping k w) (Cons (Num c) (mk_list k)) es w (Cons (Num n) (mk_list r)) w.
Proof.
  intros c es k n r H. induction H as [c k|c e es k i r N1 N2 H IH|c es1 es k i r n r1 p H IH P H1 IH1]; intros C B w.
  - constructor.
  - eapply fr_cons; [apply IH; auto|]. split; [reflexivity|]. split; [reflexivity|]. exists e, i, r. split; [reflexivity|]. left.
    split; [|reflexivity]. destruct e; try reflexivity; [congruence|]. exfalso. eapply N2. reflexivity.
  - pose proof (swaps_up _ _ _ _ _ H) as U. pose proof (swaps_up _ _ _ _ _ H1) as U1.
    eapply fr_cons; [apply IH; [auto|lia]|]. split; [reflexivity|]. split; [reflexivity|]. exists (mk_list es1), i, r. split; [reflexivity|]. right.
    split; [destruct es1; reflexivity|]. split; [unfold int64; lia|]. split; [unfold int64; lia|]. exists n, (mk_list r1), p.
    destruct P as [l [W ->]].
    split; [unfold sym_of; destruct (is_pair _ && is_string _); reflexivity|]. split; [|split; [|reflexivity]].
    + intros S [I [R D]]. destruct (symbol_ok O i ltac:(lia) ltac:(unfold int64; lia)) as [l' [W' SO]]. rewrite (writes_one _ _ _ W W').
      apply SO; auto. apply env_get_shows. exact D.
    + intros S F. apply swap_applied; [apply IH1; lia|exact F].
Qed.
Lemma swap_ok : forall c es k n r, swaps c es k n r -> (0 <= c)%Z -> (n < 2 ^ 63)%Z ->
  forall S w, increasing S -> ready5 S w -> shows S (sy "descend") None ->
  applied O S (lib5 "cps:swap") [mk_list k; Num c; mk_list es] w (Ret (Cons (Num n) (mk_list r)) w).
Proof.
  intros c es k n r H C B S w I R D. apply swap_applied; [apply swap_folds; auto|]. split; [exact I|]. split; [exact R|]. apply env_get_shows. exact D.
Qed.
End Cc7.
