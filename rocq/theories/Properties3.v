(** * Property theorems, part 3: the evaluator. *)
From Verif Require Import Value ValueSpec ValueProofs Tails Eval Sexp EvalSpec EvalProofs
  Sem1 Sem2 Sem3 Sem4 Sem5 TailsProofs TailsSem TailsRec Cases.
Open Scope nat_scope.

(** ** C29 *)
Theorem C29_larger_limit : forall O n m c x w, n <= m -> eval O n c x w <> NoFuel ->
  eval O m c x w = eval O n c x w.
Proof. exact more_budget. Qed.
Print Assumptions C29_larger_limit.
Theorem C29_one_outcome : forall O c x w o1 o2, runs O c x w o1 -> runs O c x w o2 -> o1 = o2.
Proof. exact runs_unique. Qed.
Print Assumptions C29_one_outcome.
Example C29_example :
  eval yes 1 [] (rd "(+ 1 (* 2 3))") world0 = NoFuel /\
  exists w, eval yes 8 [] (rd "(+ 1 (* 2 3))") world0 = Ret (Num 7) w.
Proof. split; [vm_compute; reflexivity|]. eexists. vm_compute. reflexivity. Qed.

(** ** C30 *)
Theorem C30_name_resolution : forall O c t k w o,
  runs O c (Sym t k) w o <-> exists v, o = Ret v w /\ means c w k v.
Proof. exact symbol_runs. Qed.
Print Assumptions C30_name_resolution.
Example C30_example :
  let w := state "(setq x 1) (setq y 2)" in
  means [(sy "x", Num 5)] w (sy "x") (Num 5) /\ means [(sy "x", Num 5)] w (sy "y") (Num 2) /\
  means [(sy "x", Num 5)] w (sy "z") Nil.
Proof. cbv zeta; ands; apply means_eval; vm_compute; reflexivity. Qed.

(** ** C31 *)
Theorem C31_too_many : forall O c t h w f w1 entries vs o,
  runs O c h w (Ret f w1) -> is_func f = true -> car f = arg_list entries Nil ->
  length entries < length vs ->
  (runs O c (Pair t h (mk_list vs)) w o <-> o = Ret Nil w1).
Proof. exact too_many. Qed.
Print Assumptions C31_too_many.
(** The values would each print something. *)
Example C31_example : forall o,
  runs yes [] (rd "(f (prin 1) (prin 2))") (state "(def f (x) (+ x 1))") o <->
  o = Ret Nil (state "(def f (x) (+ x 1))").
Proof.
  intro o.
  apply (C31_too_many yes [] false (Symb (sy "f")) _ (car (cdr (Cons Nil (Cons (rd "((x) NIL (+ x 1))") Nil))))
    _ [Symb (sy "x")] [rd "(prin 1)"; rd "(prin 2)"] o).
  - computed.
  - vm_compute; reflexivity.
  - vm_compute; reflexivity.
  - cbn; lia.
Qed.

(** ** C32 *)
Theorem C32_curry_partial : forall O c t h ps1 ps2 d body es1 es2 w w1,
  runs O c h w (Ret (lam (mk_list (ps1 ++ ps2)) d body) w1) -> body <> [] -> is_tail_call h = false ->
  linear (mk_list (ps1 ++ ps2)) -> NoDup (map fst d) -> increasing c ->
  (forall k p, occurs (mk_list ps1) p k -> shows d k None) ->
  length es1 = length ps1 -> es2 <> [] -> length es2 <= length ps2 ->
  (forall vs w2 ls S o, runs_list O c (es1 ++ es2) w1 (Ret vs w2) -> layers (ps1 ++ ps2) vs ls ->
     scope (ls ++ [d; c]) S -> runs_body O S body Nil w2 o -> quiet o) ->
  forall o, runs O c (Pair t (Cons h (mk_list es1)) (mk_list es2)) w o <->
            runs O c (Pair t h (mk_list (es1 ++ es2))) w o.
Proof. exact curry. Qed.
Print Assumptions C32_curry_partial.
(** ((f 1) 2 3) and (f 1 2 3). *)
Definition c32_world := state "(def f (x y z) (list z y x))".
Example C32_example : forall o,
  runs yes [] (rd "((f 1) 2 3)") c32_world o <-> runs yes [] (rd "(f 1 2 3)") c32_world o.
Proof.
  apply (C32_curry_partial yes [] false (Symb (sy "f")) [Symb (sy "x")] [Symb (sy "y"); Symb (sy "z")] []
    [rd "(list z y x)"] [Num 1] [Num 2; Num 3] c32_world c32_world).
  - computed.
  - discriminate.
  - reflexivity.
  - apply (names_linear [sy "x"; sy "y"; sy "z"]). repeat constructor; cbn; intuition discriminate.
  - constructor.
  - constructor.
  - intros. constructor.
  - reflexivity.
  - discriminate.
  - cbn; lia.
  - intros vs w2 ls S o RL LS SC RB.
    assert (X : Ret vs w2 = Ret [Num 1; Num 2; Num 3] c32_world).
    { same RL. }
    injection X as -> ->.
    apply (names_scope [sy "x"; sy "y"; sy "z"] [Num 1; Num 2; Num 3] _ _ _ eq_refl LS) in SC.
    subst S.
    assert (o = Ret (rd "(3 2 1)") c32_world) by
      (same RB).
    subst o. reflexivity.
Qed.
(** False in general: a parameter named as in the captured scope, and a function
    with a self-call in tail position. *)
Theorem C32_captured_name_refuted :
  value "(let ((x . 5)) (let ((f . (\ (x y) (+ x y)))) (f 1 2)))" world0 = Some (Num 3) /\
  value "(let ((x . 5)) (let ((f . (\ (x y) (+ x y)))) ((f 1) 2)))" world0 = Some (Num 7).
Proof. vm_compute. auto. Qed.
Print Assumptions C32_captured_name_refuted.
Theorem C32_self_call_refuted :
  let w := state "(def f (x y) (if (= x 0) y (f (- x 1) (+ y 1))))" in
  value "(f 3 4)" w = Some (Num 7) /\
  exists r, value "((f 3) 4)" w = Some r /\ r <> Num 7 /\ is_pair r = true.
Proof. vm_compute. split; auto. eexists; ands; eauto; discriminate. Qed.
Print Assumptions C32_self_call_refuted.

(** ** C33 *)
Theorem C33_catch_all : forall O c t u k h d body vals w w1 S,
  runs O c h w (Ret (lam (Sym u k) d body) w1) -> is_tail_call h = false -> body <> [] ->
  NoDup (map fst d) -> increasing c -> scope [[(k, vals)]; d; c] S ->
  (forall o, runs_body O S body Nil w1 o -> quiet o) ->
  forall o, runs O c (Pair t h vals) w o <-> runs_body O S body Nil w1 o.
Proof.
  exact (fun O c t u k h d body vals w w1 S R T B N I SC Q =>
    call_scope O c t h [] (Sym u k) d body [] vals w w1 [] w1 [] [[(k, vals)]] S R T B
      (Forall_nil _) N I eq_refl (list_end O c w1) layers_nil (rest_some u k vals) SC Q).
Qed.
Print Assumptions C33_catch_all.
Theorem C33_quote : forall O c t x w o, calls c w "quote" ->
  (runs O c (Pair t (Symb (sy "quote")) x) w o <-> o = Ret x w).
Proof. exact quote_runs. Qed.
Print Assumptions C33_quote.
Example C33_example : forall o,
  let w := state "(def f l l)" in
  runs yes [] (rd "(f (prin 1) y . z)") w o <-> o = Ret (rd "((prin 1) y . z)") w.
Proof.
  intros o w.
  assert (E : forall o, runs_body yes [(sy "l", rd "((prin 1) y . z)")] [Symb (sy "l")] Nil w o ->
    o = Ret (rd "((prin 1) y . z)") w).
  { intros o1 H. same H. }
  change (rd "(f (prin 1) y . z)") with (Pair false (Symb (sy "f")) (rd "((prin 1) y . z)")).
  rewrite (C33_catch_all yes [] false false (sy "l") (Symb (sy "f")) [] [Symb (sy "l")]
    (rd "((prin 1) y . z)") w w [(sy "l", rd "((prin 1) y . z)")]).
  - split; [apply E|]. intros ->. computed.
  - computed.
  - reflexivity.
  - discriminate.
  - constructor.
  - constructor.
  - exact (flat_scope [[(sy "l", rd "((prin 1) y . z)")]; []; []]).
  - intros o1 H. rewrite (E o1 H). reflexivity.
Qed.
Example C33_quote_example : calls [(sy "x", Num 1)] world0 "quote".
Proof. apply means_eval. vm_compute. reflexivity. Qed.

(** ** C34 *)
Theorem C34_if : forall O c t t1 e rem w o, calls c w "if" ->
  (runs O c (Pair t (Symb (sy "if")) (Pair t1 e rem)) w o <->
   andthen (runs O c e w) (fun v w1 => runs O c (if is_null v then car (cdr rem) else car rem) w1) o).
Proof. exact if_runs. Qed.
Print Assumptions C34_if.
Theorem C34_when : forall O c t t1 e body w o, calls c w "when" ->
  (runs O c (Pair t (Symb (sy "when")) (Pair t1 e (mk_list body))) w o <->
   andthen (runs O c e w) (fun v w1 o =>
     if is_null v then o = Ret Nil w1 else runs_body O c body Nil w1 o) o).
Proof. exact when_runs. Qed.
Print Assumptions C34_when.
Theorem C34_unless : forall O c t t1 e body w o, calls c w "unless" ->
  (runs O c (Pair t (Symb (sy "unless")) (Pair t1 e (mk_list body))) w o <->
   andthen (runs O c e w) (fun v w1 o =>
     if is_null v then runs_body O c body Nil w1 o else o = Ret Nil w1) o).
Proof. exact unless_runs. Qed.
Print Assumptions C34_unless.
Example C34_example :
  calls [(sy "x", Num 1)] world0 "if" /\ calls [(sy "x", Num 1)] world0 "when" /\
  calls [(sy "x", Num 1)] world0 "unless" /\
  (exists w, runs yes [] (rd "(if (= 1 2) (prin 1) (prin 2))") world0 (Ret (Num 2) w) /\
     outs w = [(1%N, [50%N])]).
Proof.
  ands; try (apply means_eval; vm_compute; reflexivity).
  eexists. split; [computed|]. reflexivity.
Qed.

(** ** C35 *)
Theorem C35_let : forall O c t bs body w ls w1 S, calls c w "let" -> increasing c ->
  runs_bindings O c bs [] w ls w1 -> scope (ls ++ [c]) S ->
  forall o, runs O c (Pair t (Symb (sy "let")) (Cons (bindings bs) (mk_list body))) w o <->
            runs_body O S body Nil w1 o.
Proof. exact let_runs. Qed.
Print Assumptions C35_let.
(** The second binding sees the first. *)
Example C35_example : forall o,
  runs yes [(sy "z", Num 9)] (rd "(let ((a . 1) (b . (+ a z))) (* b 2))") world0 o <->
  o = Ret (Num 20) world0.
Proof.
  intro o.
  assert (B : runs_bindings yes [(sy "z", Num 9)]
     [(Symb (sy "a"), Num 1); (Symb (sy "b"), rd "(+ a z)")] [] world0
     [[(sy "a", Num 1)]; [(sy "b", Num 10)]] world0).
  { eapply bindings_step with (v := Num 1) (b := [(sy "a", Num 1)]).
    - apply linear_sym.
    - apply flat_scope.
    - computed.
    - apply stored_value. reflexivity.
    - apply (layer_bind (Symb (sy "a"))). apply linear_sym.
    - eapply bindings_step with (v := Num 10) (b := [(sy "b", Num 10)]).
      + apply linear_sym.
      + apply flat_scope.
      + computed.
      + apply stored_value. reflexivity.
      + apply (layer_bind (Symb (sy "b"))). apply linear_sym.
      + constructor. }
  change (rd "(let ((a . 1) (b . (+ a z))) (* b 2))") with
    (Pair false (Symb (sy "let")) (Cons (bindings [(Symb (sy "a"), Num 1); (Symb (sy "b"), rd "(+ a z)")])
       (mk_list [rd "(* b 2)"]))).
  assert (C : calls [(sy "z", Num 9)] world0 "let") by (apply means_eval; vm_compute; reflexivity).
  assert (I : increasing [(sy "z", Num 9)]) by repeat constructor.
  rewrite (C35_let yes _ false _ _ world0 _ world0 _ C I B (flat_scope _)).
  split.
  - intro H. same H.
  - intros ->. computed.
Qed.

(** ** C36: false of the code; the first binding wins. *)
Theorem C36_let_refuted : value "(let ((a . 1) (a . 2)) a)" world0 = Some (Num 1).
Proof. vm_compute. reflexivity. Qed.
Print Assumptions C36_let_refuted.
Theorem C36_argument_refuted : value "((\ (a a) a) 1 2)" world0 = Some (Num 1).
Proof. vm_compute. reflexivity. Qed.
Print Assumptions C36_argument_refuted.
Theorem C36_first_wins_partial : forall O c t bs k w l1 b l2 v w1, calls c w "let" -> increasing c ->
  runs_bindings O c bs [] w (l1 ++ b :: l2) w1 -> layered l1 k None -> shows b k (Some v) ->
  forall o, runs O c (Pair t (Symb (sy "let")) (Cons (bindings bs) (mk_list [Symb k]))) w o <->
            o = Ret v w1.
Proof. exact let_first_wins. Qed.
Print Assumptions C36_first_wins_partial.
Example C36_example :
  runs_bindings yes [] [(Symb (sy "a"), Num 1); (Symb (sy "a"), Num 2)] [] world0
     ([] ++ [(sy "a", Num 1)] :: [[(sy "a", Num 2)]]) world0 /\ layered [] (sy "a") None /\
  shows [(sy "a", Num 1)] (sy "a") (Some (Num 1)).
Proof.
  ands; [|reflexivity|constructor].
  eapply bindings_step with (v := Num 1) (b := [(sy "a", Num 1)]); [apply linear_sym|apply flat_scope|computed
    |apply stored_value; reflexivity|apply (layer_bind (Symb (sy "a"))); apply linear_sym|].
  eapply bindings_step with (v := Num 2) (b := [(sy "a", Num 2)]); [apply linear_sym|apply flat_scope|computed
    |apply stored_value; reflexivity|apply (layer_bind (Symb (sy "a"))); apply linear_sym|].
  constructor.
Qed.

(** ** C37 *)
Theorem C37_capture : forall O c t args body w o, calls c w "\" ->
  (runs O c (Pair t (Symb (sy "\")) (Cons args (mk_list body))) w o <-> o = Ret (lam args c body) w).
Proof. exact lambda_runs. Qed.
Print Assumptions C37_capture.
Theorem C37_call : forall O c t h ps tail d body es rest w w1 vs w2 ls rl S,
  runs O c h w (Ret (lam (arg_list ps tail) d body) w1) -> is_tail_call h = false -> body <> [] ->
  Forall linear ps -> NoDup (map fst d) -> increasing c ->
  length es = length ps -> runs_list O c es w1 (Ret vs w2) ->
  layers ps vs ls -> rest_layer tail rest rl -> scope (ls ++ rl ++ [d; c]) S ->
  (forall o, runs_body O S body Nil w2 o -> quiet o) ->
  forall o, runs O c (Pair t h (arg_list es rest)) w o <-> runs_body O S body Nil w2 o.
Proof. exact call_scope. Qed.
Print Assumptions C37_call.
(** The scope it speaks of exists and is unique. *)
Theorem C37_scope_exists : forall ls, exists s, scope ls s.
Proof. exact scope_exists. Qed.
Print Assumptions C37_scope_exists.
Theorem C37_scope_unique : forall ls s s', scope ls s -> scope ls s' -> s = s'.
Proof. exact scope_unique. Qed.
Print Assumptions C37_scope_unique.
(** x is the parameter, y comes from the definition, z from the caller. *)
Definition c37_world := state "(setq x 100) (setq g (let ((x . 10) (y . 20)) (\ (x) (list x y z))))".
Example C37_example : forall o,
  runs yes [(sy "y", Num 2); (sy "z", Num 3)] (rd "(g 1)") c37_world o <->
  o = Ret (rd "(1 20 3)") c37_world.
Proof.
  intro o. set (c := [(sy "y", Num 2); (sy "z", Num 3)]).
  set (d := [(sy "x", Num 10); (sy "y", Num 20)]).
  assert (SC := flat_scope ([[(sy "x", Num 1)]] ++ [] ++ [d; c])).
  assert (E : forall o, runs_body yes (flat ([[(sy "x", Num 1)]] ++ [] ++ [d; c])) [rd "(list x y z)"] Nil c37_world o ->
    o = Ret (rd "(1 20 3)") c37_world).
  { intros o1 H. same H. }
  change (rd "(g 1)") with (Pair false (Symb (sy "g")) (arg_list [Num 1] Nil)).
  rewrite (C37_call yes c false (Symb (sy "g")) [Symb (sy "x")] Nil d [rd "(list x y z)"] [Num 1] Nil
    c37_world c37_world [Num 1] c37_world [[(sy "x", Num 1)]] [] (flat ([[(sy "x", Num 1)]] ++ [] ++ [d; c]))).
  - split; [apply E|]. intros ->. computed.
  - computed.
  - reflexivity.
  - discriminate.
  - constructor; [apply linear_sym|constructor].
  - repeat constructor; cbn; intuition discriminate.
  - repeat constructor.
  - reflexivity.
  - computed.
  - apply (names_layers [sy "x"] [Num 1]). reflexivity.
  - constructor.
  - exact SC.
  - intros o1 H. rewrite (E o1 H). reflexivity.
Qed.

(** ** C38 *)
Theorem C38_tail_calls_partial : forall O c t d f ps tail before x es rest w vs w1 ls rl S v w2,
  means c w f (lam (arg_list ps tail) d (before ++ [mark_expr f (arg_list ps tail) x])) ->
  Forall linear ps -> NoDup (map fst d) -> increasing c ->
  unmarked x = true -> simple_tails x -> plain_match x -> (forall k, In k keywords -> f <> sy k) ->
  length es = length ps -> runs_list O c es w (Ret vs w1) ->
  layers ps vs ls -> rest_layer tail rest rl -> scope (ls ++ rl ++ [d; c]) S ->
  layered (ls ++ rl) f None -> (forall s, In s keywords -> layered (ls ++ rl) (sy s) None) ->
  means S w1 f (lam (arg_list ps tail) d (before ++ [mark_expr f (arg_list ps tail) x])) ->
  held S w1 w2 f -> steady S w1 w2 ->
  (forall S' w' o, activation O c d f ps tail before x S w1 S' w' ->
     runs_body O S' (before ++ [x]) Nil w' o -> quiet o) ->
  (runs O c (Pair t (Symb f) (arg_list es rest)) w (Ret v w2) <->
   runs_body O S (before ++ [x]) Nil w1 (Ret v w2)).
Proof. exact tail_calls. Qed.
Print Assumptions C38_tail_calls_partial.

(** A recursive sum: three activations. *)
Definition c38_world := state "(def f (n a) (if (= n 0) a (f (- n 1) (+ a n))))".
Definition c38_body := rd "(if (= n 0) a (f (- n 1) (+ a n)))".
Definition c38_scope (n a : Z) : env := [(sy "a", Num a); (sy "n", Num n)].
Lemma c38_next : forall n a l w, tails yes (c38_scope n a) c38_body c38_world l w ->
  forall v, runs yes (c38_scope n a) (rd "(= n 0)") c38_world (Ret v c38_world) ->
  l = (if is_null v then rd "(f (- n 1) (+ a n))" else Symb (sy "a")) /\ w = c38_world.
Proof.
  intros n a l w T v R. apply tails_if_inv in T. destruct T as [v' [w1 [R' T]]].
  assert (E := runs_unique _ _ _ _ _ _ R R'). injection E as <- <-.
  destruct (is_null v); inversion T; subst; auto; exfalso;
    match goal with H : sy "f" = sy _ |- _ => discriminate H end.
Qed.
Lemma c38_activations : forall S' w',
  activation yes [] [] (sy "f") (names [sy "n"; sy "a"]) Nil [] c38_body (c38_scope 2 0) c38_world S' w' ->
  w' = c38_world /\ In S' [c38_scope 2 0; c38_scope 1 2; c38_scope 0 3].
Proof.
  intros S' w' A. induction A as [|S1 w1 v w2 t u es rest w3 vs w4 ls rl S2 A IH B T L RL LS RR SC]; [cbn; auto|].
  destruct IH as [-> IS]. inversion B; subst. inversion RR; subst.
  assert (W : forall n a n' a', S1 = c38_scope n a ->
    runs yes (c38_scope n a) (rd "(= n 0)") c38_world (Ret Nil c38_world) ->
    list_eval yes 200 (c38_scope n a) [rd "(- n 1)"; rd "(+ a n)"] c38_world = Ret [Num n'; Num a'] c38_world ->
    w4 = c38_world /\ S2 = c38_scope n' a').
  { intros n a n' a' -> R E. destruct (c38_next _ _ _ _ T _ R) as [X ->]. cbn [is_null] in X.
    destruct es as [|e1 [|e2 [|]]]; try discriminate L. inversion X; subst.
    assert (Y : Ret vs w4 = Ret [Num n'; Num a'] c38_world) by
      (apply (list_det yes 200 _ _ _ _ _ RL); [exact E|discriminate]).
    injection Y as -> ->. split; auto.
    apply (names_scope [sy "n"; sy "a"] [Num n'; Num a'] _ ([] ++ [[]; []]) _ eq_refl LS) in SC. exact SC. }
  destruct IS as [<-|[<-|[<-|[]]]].
  - destruct (W 2%Z 0%Z 1%Z 2%Z) as [-> ->]; [reflexivity|computed|vm_compute; reflexivity|cbn; auto].
  - destruct (W 1%Z 2%Z 0%Z 3%Z) as [-> ->]; [reflexivity|computed|vm_compute; reflexivity|cbn; auto].
  - exfalso. assert (R : runs yes (c38_scope 0 3) (rd "(= n 0)") c38_world (Ret Tru c38_world)) by computed.
    destruct (c38_next _ _ _ _ T _ R) as [X _]. discriminate X.
Qed.
Example C38_example :
  runs yes [] (rd "(f 2 0)") c38_world (Ret (Num 3) c38_world) <->
  runs_body yes (c38_scope 2 0) [c38_body] Nil c38_world (Ret (Num 3) c38_world).
Proof.
  set (F := lam (arg_list (names [sy "n"; sy "a"]) Nil) []
    ([] ++ [mark_expr (sy "f") (arg_list (names [sy "n"; sy "a"]) Nil) c38_body])).
  change (rd "(f 2 0)") with (Pair false (Symb (sy "f")) (arg_list [Num 2; Num 0] Nil)).
  apply (C38_tail_calls_partial yes [] false [] (sy "f") (names [sy "n"; sy "a"]) Nil [] c38_body
    [Num 2; Num 0] Nil c38_world [Num 2; Num 0] c38_world [[(sy "n", Num 2)]; [(sy "a", Num 0)]] [] (c38_scope 2 0)).
  - apply means_eval. vm_compute. reflexivity.
  - apply linear_names.
  - constructor.
  - constructor.
  - reflexivity.
  - apply simple_if.
    + intros t1 e t2 th r E. inversion E; subst. constructor. reflexivity.
    + intros t1 e t2 th t3 el r E. inversion E; subst. apply simple_call.
      intros k K. cbn in K. repeat (destruct K as [<-|K]; [discriminate|]). tauto.
  - apply plain_if; apply plain_leaf; intros t u k d K E; [discriminate E|]. inversion E as [[E1 E2]].
    cbn in K. repeat (destruct K as [<-|K]; [discriminate|]). tauto.
  - intros k K. cbn in K. repeat (destruct K as [<-|K]; [discriminate|]). tauto.
  - reflexivity.
  - computed.
  - apply (names_layers [sy "n"; sy "a"] [Num 2; Num 0]). reflexivity.
  - constructor.
  - exact (flat_scope ([[(sy "n", Num 2)]; [(sy "a", Num 0)]] ++ [] ++ [[]; []])).
  - apply layered_lget. reflexivity.
  - intros s K. cbn in K. apply layered_lget. repeat (destruct K as [<-|K]; [reflexivity|]). tauto.
  - apply means_eval. vm_compute. reflexivity.
  - right. exists []. split; auto.
  - intros k K. cbn in K. split; [|right; exists []; split; auto].
    repeat (destruct K as [<-|K]; [apply means_eval; vm_compute; reflexivity|]). tauto.
  - intros S' w' o A R. apply c38_activations in A. destruct A as [-> IS].
    assert (X : o = Ret (Num 3) c38_world).
    { destruct IS as [<-|[<-|[<-|[]]]]; same R. }
    subst o. reflexivity.
Qed.
(** False when the function is called by another name. *)
Theorem C38_alias_refuted :
  exists w F x r w', w = state "(def f (n a) (if (= n 0) a (f (- n 1) (+ a n)))) (setq g f)" /\
  F = lam (mk_list (names [sy "n"; sy "a"])) [] [mark_expr (sy "f") (mk_list (names [sy "n"; sy "a"])) x] /\
  means [] w (sy "f") F /\ means [] w (sy "g") F /\
  runs_body yes (c38_scope 2 0) [x] Nil w (Ret (Num 3) w) /\
  runs yes [] (rd "(f 2 0)") w (Ret (Num 3) w) /\
  runs yes [] (rd "(g 2 0)") w (Ret r w') /\ r <> Num 3.
Proof.
  eexists; eexists; exists c38_body; eexists; eexists; ands; [reflexivity|reflexivity| | | | | |].
  - apply means_eval. vm_compute. reflexivity.
  - apply means_eval. vm_compute. reflexivity.
  - computed.
  - computed.
  - computed.
  - discriminate.
Qed.
Print Assumptions C38_alias_refuted.

(** ** C39 *)
Theorem C39_marks_partial : forall f args x p s, simple_tails x -> unmarked x = true ->
  part (mark_expr f args x) p = Sym true s ->
  s = f /\ exists q t u d, p = (q ++ [false])%list /\ tail_at x q /\ part x q = Pair t (Sym u f) d /\
    may_apply args d = true.
Proof. exact marks_at_tails. Qed.
Print Assumptions C39_marks_partial.
Example C39_example :
  part (mark_expr (sy "f") (mk_list (names [sy "n"; sy "a"])) c38_body) [true; true; true; false; false] = Sym true (sy "f") /\
  simple_tails c38_body.
Proof.
  split; [vm_compute; reflexivity|]. apply simple_if.
  - intros t1 e t2 th r E. inversion E; subst. constructor. reflexivity.
  - intros t1 e t2 th t3 el r E. inversion E; subst. apply simple_call.
    intros k K. cbn in K. repeat (destruct K as [<-|K]; [discriminate|]). tauto.
Qed.
(** False for [when] and [unless] with more than one expression: the first one is
    marked; and the program below prints one line where recursion prints three. *)
Theorem C39_when_refuted :
  let x := rd "(when (> n 0) (f (- n 1)) (printl n))" in
  part (mark_expr (sy "f") (mk_list (names [sy "n"])) x) [true; true; false; false] = Sym true (sy "f") /\
  ~ tail_at x [true; true; false] /\
  outs (state "(def f (n) (when (> n 0) (f (- n 1)) (printl n))) (f 3)") =
    [(1%N, [10%N]); (1%N, [51%N])].
Proof.
  cbv zeta. ands; [vm_compute; reflexivity| |vm_compute; reflexivity].
  intro T. inversion T; subst;
  try match goal with H : sy ?k = sy ?k', K : In ?k _ |- _ =>
    repeat (destruct K as [<-|K]; [try (vm_compute in H; discriminate H)|]); try destruct K end;
  match goal with H : last_expr _ _ _ |- _ => inversion H; subst; discriminate end.
Qed.
Print Assumptions C39_when_refuted.

(** ** C40 *)
Theorem C40_def_partial : forall O c t u k args doc body w,
  calls c w "def" -> is_list args = true \/ is_symb args = true -> body <> [] ->
  (doc = [] /\ is_char (car (hd Nil body)) = false \/ exists z s, doc = [Cons (Chr z) s]) ->
  exists b w1, mark_body k args (mk_list body) = Some b /\
    redefined w w1 k (Cons args (Cons Nil b)) /\
    forall o, runs O c (Pair t (Symb (sy "def")) (Cons (Sym u k) (Cons args (mk_list (doc ++ body))))) w o <->
              o = Ret (Sym u k) w1.
Proof. exact def_runs. Qed.
Print Assumptions C40_def_partial.
Example C40_example : exists b w1,
  mark_body (sy "f") (rd "(n)") (mk_list [rd "(g n)"; rd "(f (- n 1))"]) = Some b /\
  redefined world0 w1 (sy "f") (Cons (rd "(n)") (Cons Nil b)) /\
  forall o, runs yes [] (rd "(def f (n) (^d ^o ^c) (g n) (f (- n 1)))") world0 o <-> o = Ret (Symb (sy "f")) w1.
Proof.
  apply (C40_def_partial yes [] false false (sy "f") (rd "(n)") [rd "(^d ^o ^c)"] [rd "(g n)"; rd "(f (- n 1))"] world0).
  - apply means_eval. vm_compute. reflexivity.
  - left. reflexivity.
  - discriminate.
  - right. exists 100%Z, (rd "(^o ^c)"). reflexivity.
Qed.
(** False for an empty body, a body that is only a documentation string, and the
    binding of a builtin by [let]: the interpreter dereferences a null pointer. *)
Theorem C40_refuted :
  runs yes [] (rd "(def f (n))") world0 (Stop UB) /\
  runs yes [] (rd "(def f (n) (^d ^o ^c))") world0 (Stop UB) /\
  runs yes [] (rd "(let ((g . car)) 1)") world0 (Stop UB).
Proof. ands; computed. Qed.
Print Assumptions C40_refuted.

(** ** C41 *)
Theorem C41_setq_partial : forall O c t u k t1 t2 e w v w1, calls c w "setq" ->
  runs O c e w (Ret v w1) -> v <> Nil ->
  exists w2, redefined w1 w2 k v /\
    forall o, runs O c (Pair t (Symb (sy "setq")) (Pair t1 (Sym u k) (Pair t2 e Nil))) w o <-> o = Ret v w2.
Proof. exact setq_runs. Qed.
Print Assumptions C41_setq_partial.
Example C41_example : exists w2, redefined (state "(setq x 1)") w2 (sy "x") (Num 4) /\
  forall o, runs yes [] (rd "(setq x (+ x 3))") (state "(setq x 1)") o <-> o = Ret (Num 4) w2.
Proof.
  apply (C41_setq_partial yes [] false false (sy "x") false false (rd "(+ x 3)") (state "(setq x 1)") (Num 4)).
  - apply means_eval. vm_compute. reflexivity.
  - computed.
  - discriminate.
Qed.
(** False for NIL: nothing is stored. *)
Theorem C41_nil : forall O c t u k t1 t2 e w w1, calls c w "setq" -> runs O c e w (Ret Nil w1) ->
  forall o, runs O c (Pair t (Symb (sy "setq")) (Pair t1 (Sym u k) (Pair t2 e Nil))) w o <-> o = Ret Nil w1.
Proof. exact setq_nil. Qed.
Print Assumptions C41_nil.
Example C41_nil_example : exists w, calls [] w "setq" /\ runs yes [] (rd "(cdr (list 1))") w (Ret Nil w).
Proof. exists (state "(setq x 1)"). split; [apply means_eval; vm_compute; reflexivity|computed]. Qed.
Theorem C41_nil_refuted : exists w, w = state "(setq x 1) (setq x NIL)" /\ means [] w (sy "x") (Num 1).
Proof. eexists. split; [reflexivity|]. apply means_eval. vm_compute. reflexivity. Qed.
Print Assumptions C41_nil_refuted.

(** ** C42 *)
Theorem C42_global_partial : forall O c t t1 es t2 ev w u k w1 v w2 old, calls c w "<-" ->
  runs O c es w (Ret (Sym u k) w1) -> runs O c ev w1 (Ret v w2) ->
  shows c k None -> shows (globals w2) k (Some old) ->
  exists w3, redefined w2 w3 k v /\
    forall o, runs O c (Pair t (Symb (sy "<-")) (Pair t1 es (Pair t2 ev Nil))) w o <->
              o = Ret (Cons (Sym u k) old) w3.
Proof. exact set_runs. Qed.
Print Assumptions C42_global_partial.
Theorem C42_unbound : forall O c t t1 es t2 ev w u k w1 v w2, calls c w "<-" ->
  runs O c es w (Ret (Sym u k) w1) -> runs O c ev w1 (Ret v w2) ->
  shows c k None -> shows (globals w2) k None ->
  forall o, runs O c (Pair t (Symb (sy "<-")) (Pair t1 es (Pair t2 ev Nil))) w o <-> o = Ret Nil w2.
Proof. exact set_unbound. Qed.
Print Assumptions C42_unbound.
Example C42_example : exists w3, redefined (state "(setq x 1)") w3 (sy "x") (Num 2) /\
  forall o, runs yes [] (rd "(<- 'x 2)") (state "(setq x 1)") o <-> o = Ret (Cons (Symb (sy "x")) (Num 1)) w3.
Proof.
  apply (C42_global_partial yes [] false false (rd "'x") false (Num 2) (state "(setq x 1)") false (sy "x")
    (state "(setq x 1)") (Num 2) (state "(setq x 1)") (Num 1)).
  - apply means_eval. vm_compute. reflexivity.
  - computed.
  - computed.
  - constructor.
  - apply shows_get. vm_compute. reflexivity.
Qed.
Example C42_unbound_example :
  calls [] world0 "<-" /\ runs yes [] (rd "'x") world0 (Ret (Symb (sy "x")) world0) /\
  shows (globals world0) (sy "x") None.
Proof. ands; [apply means_eval; vm_compute; reflexivity|computed|apply shows_get; vm_compute; reflexivity]. Qed.
(** The value returned is not the previous value but the pair of name and value. *)
Theorem C42_old_value_refuted : value "(<- 'x 2)" (state "(setq x 1)") = Some (Cons (Symb (sy "x")) (Num 1)).
Proof. vm_compute. reflexivity. Qed.
Print Assumptions C42_old_value_refuted.

(** ** C43 *)
Theorem C43_arithmetic : forall O s c t u t1 e1 t2 e2 w a w1 b w2, In s ["+"; "-"; "*"; "/"; "%"]%string ->
  calls c w s -> runs O c e1 w (Ret (Num a) w1) -> runs O c e2 w1 (Ret (Num b) w2) ->
  forall o, runs O c (Pair t (Sym u (sy s)) (Pair t1 e1 (Pair t2 e2 Nil))) w o <->
    (exists r, computes s a b r /\ o = Ret (Num r) w2) \/
    ((forall r, ~ computes s a b r) /\ o = Stop UB).
Proof. exact arith_exact. Qed.
Print Assumptions C43_arithmetic.
Theorem C43_comparison : forall O s R c t u t1 e1 t2 e2 w a w1 b w2, relation s R ->
  calls c w s -> runs O c e1 w (Ret (Num a) w1) -> runs O c e2 w1 (Ret (Num b) w2) ->
  forall o, runs O c (Pair t (Sym u (sy s)) (Pair t1 e1 (Pair t2 e2 Nil))) w o <->
    (R a b /\ o = Ret Tru w2) \/ (~ R a b /\ o = Ret Nil w2).
Proof. exact compare_exact. Qed.
Print Assumptions C43_comparison.
Example C43_example :
  calls [] world0 "/" /\ calls [] world0 "<" /\
  computes "/" (-7) 2 (-3) /\ computes "%" (-7) 2 (-1) /\
  (forall r, ~ computes "/" (-9223372036854775808) (-1) r) /\
  runs yes [] (rd "(/ -7 2)") world0 (Ret (Num (-3)) world0).
Proof.
  ands; try (apply means_eval; vm_compute; reflexivity).
  - apply c_div with (r := (-1)%Z); try lia. unfold int64; lia.
  - apply c_mod with (q := (-3)%Z); try lia. unfold int64; lia.
  - intros r H. inversion H; subst. unfold int64 in *. nia.
  - computed.
Qed.

(** ** C44 *)
Theorem C44_stacks_restored : forall O c x w v w', runs O c x w (Ret v w') -> extends w w'.
Proof. exact runs_extends. Qed.
Print Assumptions C44_stacks_restored.
Theorem C44_redirected : forall O (output : bool) c t u s t1 e body w v w1,
  s = (if output then "out" else "in")%string -> calls c w s ->
  runs O c e w (Ret v w1) ->
  (v = Nil \/ (exists z, v = Num z) \/ (is_pair v = true /\ is_string v = true)) ->
  (output = false -> ichan w1 <> []) -> O (opens w1) output v = true ->
  forall o, runs O c (Pair t (Sym u (sy s)) (Pair t1 e (mk_list body))) w o <->
    andthen (runs_body O c body Nil (entered output w1)) (fun r w2 o => o = Ret r (restored w1 w2)) o.
Proof. exact chan_runs. Qed.
Print Assumptions C44_redirected.
Theorem C44_open_fails : forall O (output : bool) c t u s t1 e rem w v w1,
  s = (if output then "out" else "in")%string -> calls c w s ->
  runs O c e w (Ret v w1) ->
  (v = Nil \/ (exists z, v = Num z) \/ (is_pair v = true /\ is_string v = true)) ->
  (output = false -> ichan w1 <> []) -> O (opens w1) output v = false ->
  forall o, runs O c (Pair t (Sym u (sy s)) (Pair t1 e rem)) w o <-> o = Ret Nil w1.
Proof. exact chan_failed. Qed.
Print Assumptions C44_open_fails.
(** Nested redirections: the pieces go to channels 2, 3, 2, 1. *)
Example C44_example :
  calls [] world0 "out" /\ calls [] world0 "in" /\
  map fst (rev (outs (state "(out '(^a) (prin 1) (out '(^b) (prin 2)) (prin 3)) (prin 4)"))) = [2; 3; 2; 1]%N /\
  ochan (state "(out '(^a) (prin 1) (out '(^b) (prin 2)) (prin 3)) (prin 4)") = [1%N].
Proof. ands; try (apply means_eval); vm_compute; reflexivity. Qed.

(** ** C16, second half.  The subject is evaluated in the caller's scope with the
    interpreter's own name ANY bound on top. *)
Theorem C16_first_clause : forall O c t e cl w v w1, calls c w "match" ->
  runs O ((sy "ANY", Cons e (bindings cl)) :: c) e w (Ret v w1) ->
  (forall pre p x post, cl = (pre ++ (p, x) :: post)%list ->
     Forall (fun q => ~ instance (fst q) v) pre -> instance p v ->
     forall o, runs O c (Pair t (Symb (sy "match")) (Cons e (bindings cl))) w o <-> runs O c x w1 o) /\
  (Forall (fun q => ~ instance (fst q) v) cl ->
     forall o, runs O c (Pair t (Symb (sy "match")) (Cons e (bindings cl))) w o <-> o = Ret Nil w1).
Proof. exact match_runs. Qed.
Print Assumptions C16_first_clause.
Example C16_first_clause_example : forall o,
  runs yes [] (rd "(match '(1 2) ((3 _) . 1) ((1 _) . (+ 2 3)) (_ . 7))") world0 o <->
  runs yes [] (rd "(+ 2 3)") world0 o.
Proof.
  destruct (C16_first_clause yes [] false (rd "'(1 2)")
    [(rd "(3 _)", Num 1); (rd "(1 _)", rd "(+ 2 3)"); (Wild, Num 7)] world0 (rd "(1 2)") world0) as [H _].
  - apply means_eval. vm_compute. reflexivity.
  - computed.
  - apply (H [(rd "(3 _)", Num 1)] (rd "(1 _)") (rd "(+ 2 3)") [(Wild, Num 7)]).
    + reflexivity.
    + constructor; [|constructor]. intro I. apply atom_match_instance in I. discriminate I.
    + apply atom_match_instance. reflexivity.
Qed.
