(** * Properties7: the remaining builtins (C53 - C62), and [=] in programs. *)
From Verif Require Import Value ValueSpec ValueProofs Tails Eval Sexp EvalSpec EvalProofs Print PrintSpec PrintProofs
  Sem1 Sem2 Sem3 Sem4 Sem5 Cases BuiltinSpec Sem6.
Open Scope nat_scope.

Ltac known := apply means_eval; vm_compute; reflexivity.

(** ** C07, C08 in programs *)
Theorem C07_program : forall O s c t u t1 e1 t2 e2 w o, In s ["="; "<>"]%string -> calls c w s ->
  (runs O c (Pair t (Sym u (sy s)) (Pair t1 e1 (Pair t2 e2 Nil))) w o <->
   andthen (runs O c e1 w) (fun v1 w1 => andthen (runs O c e2 w1) (fun v2 w2 o =>
     exists r, answer (if String.eqb s "=" then same v1 v2 else ~ same v1 v2) r /\ o = Ret r w2)) o).
Proof. exact equal_runs. Qed.
Print Assumptions C07_program.
Example C07_program_example : calls [(sy "x", Num 1)] world0 "=" /\
  value "(= '(1 (2 . ^a)) (list 1 (cons 2 ^a)))" world0 = Some Tru /\
  value "(<> '(1 (2 . ^a)) (list 1 (cons 2 ^b)))" world0 = Some Tru.
Proof. ands; [known|vm_compute; reflexivity|vm_compute; reflexivity]. Qed.

(** ** C53 *)
Theorem C53_predicates : forall O s P c t u t1 e w o, predicate s P -> calls c w s ->
  (runs O c (Pair t (Sym u (sy s)) (Pair t1 e Nil)) w o <->
   andthen (runs O c e w) (fun v w1 o => exists r, answer (P v) r /\ o = Ret r w1) o).
Proof. exact predicate_runs. Qed.
Print Assumptions C53_predicates.
Example C53_example : calls [(sy "x", Num 1)] world0 "str?" /\
  (exists P, predicate "str?" P /\ P (rd "(^a ^b)") /\ ~ P (rd "(^a . ^b)")) /\
  value "(list (str? '(^a ^b)) (str? '(^a . ^b)) (lst? NIL) (atm? NIL) (nil? '(1)) (tru? 1) (sym? 'a))" world0
    = Some (mk_list [Tru; Nil; Tru; Nil; Nil; Nil; Tru]).
Proof.
  ands; [known| |vm_compute; reflexivity].
  exists text_value. ands; [constructor|vm_compute; repeat constructor|].
  intro H. vm_compute in H. inversion H; subst. inversion H1.
Qed.

(** ** C54 *)
Theorem C54_cons : forall O c t u t1 e1 t2 e2 w o, calls c w "cons" ->
  (runs O c (Pair t (Sym u (sy "cons")) (Pair t1 e1 (Pair t2 e2 Nil))) w o <->
   andthen (runs O c e1 w) (fun v1 w1 => andthen (runs O c e2 w1) (fun v2 w2 o => o = Ret (Cons v1 v2) w2)) o).
Proof. exact cons_runs. Qed.
Print Assumptions C54_cons.
Theorem C54_car_cdr : forall O s c t u t1 e w o, In s ["car"; "cdr"]%string -> calls c w s ->
  (runs O c (Pair t (Sym u (sy s)) (Pair t1 e Nil)) w o <->
   andthen (runs O c e w) (fun v w1 o => exists r, half s v r /\ o = Ret r w1) o).
Proof. exact half_runs. Qed.
Print Assumptions C54_car_cdr.
(** Taking apart what was put together; both parts have been evaluated. *)
Theorem C54_inverse : forall O s c t u t1 t2 u2 t3 e1 t4 e2 w o, In s ["car"; "cdr"]%string ->
  calls c w s -> calls c w "cons" ->
  (runs O c (Pair t (Sym u (sy s)) (Pair t1 (Pair t2 (Sym u2 (sy "cons")) (Pair t3 e1 (Pair t4 e2 Nil))) Nil)) w o <->
   andthen (runs O c e1 w) (fun v1 w1 => andthen (runs O c e2 w1) (fun v2 w2 o =>
     o = Ret (if String.eqb s "car" then v1 else v2) w2)) o).
Proof. exact car_cons. Qed.
Print Assumptions C54_inverse.
Theorem C54_len : forall O c t u t1 e w o, calls c w "len" ->
  (runs O c (Pair t (Sym u (sy "len")) (Pair t1 e Nil)) w o <->
   andthen (runs O c e w) (fun v w1 o => exists r, length_of v r /\ o = Ret r w1) o).
Proof. exact len_runs. Qed.
Print Assumptions C54_len.
Example C54_example : calls [(sy "x", Num 1)] world0 "len" /\ calls [(sy "x", Num 1)] world0 "cons" /\
  value "(list (car (cons 1 2)) (cdr (cons 1 2)) (car 5) (cdr NIL) (len '(1 2 3)) (len '(1 . 2)) (len 'a))" world0
    = Some (mk_list [Num 1; Num 2; Nil; Nil; Num 3; Num 1; Nil]).
Proof. ands; [known|known|vm_compute; reflexivity]. Qed.

(** ** C55 *)
Theorem C55_and : forall O c t u t1 e1 t2 e2 w o, calls c w "and" ->
  (runs O c (Pair t (Sym u (sy "and")) (Pair t1 e1 (Pair t2 e2 Nil))) w o <->
   andthen (runs O c e1 w) (fun v1 w1 => andthen (runs O c e2 w1) (fun v2 w2 o =>
     exists r, answer (v1 <> Nil /\ v2 <> Nil) r /\ o = Ret r w2)) o).
Proof. exact and_runs. Qed.
Print Assumptions C55_and.
Theorem C55_or : forall O c t u t1 e1 t2 e2 w o, calls c w "or" ->
  (runs O c (Pair t (Sym u (sy "or")) (Pair t1 e1 (Pair t2 e2 Nil))) w o <->
   andthen (runs O c e1 w) (fun v1 w1 o =>
     (v1 <> Nil /\ o = Ret Tru w1) \/
     (v1 = Nil /\ andthen (runs O c e2 w1) (fun v2 w2 o => exists r, answer (v2 <> Nil) r /\ o = Ret r w2) o)) o).
Proof. exact or_runs. Qed.
Print Assumptions C55_or.
(** [or] stops at the first value that is not NIL; [and] evaluates both. *)
Example C55_example : calls [(sy "x", Num 1)] world0 "and" /\ calls [(sy "x", Num 1)] world0 "or" /\
  (exists w, runs yes [] (rd "(or (prin 1) (prin 2))") world0 (Ret Tru w) /\ outs w = [(1%N, [49%N])]) /\
  (exists w, runs yes [] (rd "(and (nil? (prin 1)) (prin 2))") world0 (Ret Nil w) /\
     outs w = [(1%N, [50%N]); (1%N, [49%N])]).
Proof. ands; [known|known| |]; eexists; (split; [computed|reflexivity]). Qed.

(** ** C56 *)
Theorem C56_list : forall O c t u es w o, calls c w "list" ->
  (runs O c (Pair t (Sym u (sy "list")) (mk_list es)) w o <->
   andthen (runs_list O c (rev es) w) (fun vs w1 o => o = Ret (mk_list (rev vs)) w1) o).
Proof. exact list_runs. Qed.
Print Assumptions C56_list.
(** The values in the order written, evaluated from the last to the first. *)
Example C56_example : calls [(sy "x", Num 1)] world0 "list" /\
  exists w, runs yes [] (rd "(list (prin 1) (prin 2) (prin 3))") world0 (Ret (mk_list [Num 1; Num 2; Num 3]) w) /\
    outs w = [(1%N, [49%N]); (1%N, [50%N]); (1%N, [51%N])].
Proof. split; [known|]. eexists. split; [computed|reflexivity]. Qed.

(** ** C57 *)
(** Exact, but with the subject inside the application of each predicate. *)
Theorem C57_cond_partial : forall O c t u t1 e l w o, calls c w "cond" ->
  (runs O c (Pair t (Sym u (sy "cond")) (Pair t1 e (clauses l))) w o <-> cond_runs O c e l w o).
Proof. exact cond_call_runs. Qed.
Print Assumptions C57_cond_partial.
(** The subject is evaluated once per predicate tried, not once. *)
Theorem C57_once_refuted : exists w, runs yes [] (rd "(cond (prin 5) (nil? . 1) (num? . 2))") world0 (Ret (Num 2) w) /\
  outs w = [(1%N, [53%N]); (1%N, [53%N])].
Proof. eexists. split; [computed|reflexivity]. Qed.
Print Assumptions C57_once_refuted.
Example C57_example : calls [(sy "x", Num 1)] world0 "cond" /\
  rd "(cond 5 (nil? . 1) ((\ (x) 7) . 2) (num? . 3) (_ . 4))" =
    Cons (Symb (sy "cond")) (Cons (Num 5) (clauses
      [(Symb (sy "nil?"), Num 1); (rd "(\ (x) 7)", Num 2); (Symb (sy "num?"), Num 3); (Wild, Num 4)])) /\
  value "(cond 5 (nil? . 1) ((\ (x) 7) . 2) (num? . 3) (_ . 4))" world0 = Some (Num 3).
Proof. ands; [known|vm_compute; reflexivity|vm_compute; reflexivity]. Qed.

(** ** C58 *)
Theorem C58_while : forall O c t u t1 e body w o, calls c w "while" ->
  (runs O c (Pair t (Sym u (sy "while")) (Pair t1 e (mk_list body))) w o <->
   while_runs O c e body Nil w o).
Proof. exact while_call_runs. Qed.
Print Assumptions C58_while.
Theorem C58_prog : forall O c t u es w o, calls c w "prog" ->
  (runs O c (Pair t (Sym u (sy "prog")) (mk_list es)) w o <-> runs_body O c es Nil w o).
Proof. exact prog_runs. Qed.
Print Assumptions C58_prog.
Example C58_example :
  let w := state "(setq i 0) (setq s 0)" in calls [] w "while" /\ calls [] w "prog" /\
  value "(prog (while (< i 5) (setq i (+ i 1)) (setq s (+ s i))) (list i s))" w
    = Some (mk_list [Num 5; Num 15]) /\
  value "(while (< i 3) (setq i (+ i 1)) (* i 10))" w = Some (Num 30) /\
  value "(while NIL 1)" w = Some Nil.
Proof. cbv zeta. ands; [known|known|vm_compute; reflexivity|vm_compute; reflexivity|vm_compute; reflexivity]. Qed.

(** ** C59 *)
Theorem C59_pipe : forall O c t u t1 x l w o, calls c w "|>" ->
  (runs O c (Pair t (Sym u (sy "|>")) (Pair t1 x (mk_list l))) w o <-> pipe_runs O c x l w o).
Proof. exact pipe_call_runs. Qed.
Print Assumptions C59_pipe.
(** Every stage is evaluated once. *)
Example C59_example : calls [(sy "x", Num 1)] world0 "|>" /\
  value "(|> '(1 2 3) cdr car)" world0 = Some (Num 2) /\
  exists w, runs yes [] (rd "(|> (prin 7) (\ (x) (prin x)) (\ (y) (list y y)))") world0
      (Ret (mk_list [Num 7; Num 7]) w) /\ outs w = [(1%N, [55%N]); (1%N, [55%N])].
Proof. ands; [known|vm_compute; reflexivity|]. eexists. split; [computed|reflexivity]. Qed.

(** ** C60 *)
(** The literal text of a concrete value. *)
Lemma literal_case : forall v t, c_value v -> lisp_prin [] (fun _ => 0%N) v true = Some t -> literal_text v t.
Proof.
  intros v t C E. destruct (literal_print [] (fun _ => 0%N) v C) as [t' [L [_ E']]].
  split; auto. rewrite E in E'. inversion E'. auto.
Qed.
Theorem C60_print : forall O s text sep nl c t u es w v w1 w2, printer s text sep nl -> calls c w s ->
  writes O c text sep es Nil w v w1 -> (if nl then sent [10%N] w1 w2 else w2 = w1) ->
  runs O c (Pair t (Sym u (sy s)) (mk_list es)) w (Ret v w2).
Proof. exact print_runs. Qed.
Print Assumptions C60_print.
Example C60_example : exists w1 w2,
  writes yes [] literal_text (Some (bs " ")) [rd "'(a . 1)"; rd "(+ 1 2)"] Nil world0 (Num 3) w1 /\
  sent [10%N] w1 w2 /\
  runs yes [] (rd "(printl '(a . 1) (+ 1 2))") world0 (Ret (Num 3) w2) /\
  outs w2 = [(1%N, [10%N]); (1%N, bs "3"); (1%N, bs " "); (1%N, bs "(a . 1)")].
Proof.
  set (out l := mkw builtins l [0%N] [1%N] 2).
  assert (S : forall t l, sent t (out l) (out ((1%N, t) :: l))) by (intros; exists 1%N; ands; reflexivity).
  set (wa := out [(1%N, bs "3"); (1%N, bs " "); (1%N, bs "(a . 1)")]).
  exists wa, (out ((1%N, [10%N]) :: outs wa)).
  assert (W : writes yes [] literal_text (Some (bs " ")) [rd "'(a . 1)"; rd "(+ 1 2)"] Nil world0 (Num 3) wa).
  { eapply writes_next with (v := rd "(a . 1)") (t := bs "(a . 1)"); [computed| |apply (S _ [])|apply S|].
    - apply literal_case; [|reflexivity]. vm_compute. ands; try reflexivity; repeat constructor; discriminate.
    - eapply writes_last; [computed| |apply S].
      apply literal_case; [cbn; lia|reflexivity]. }
  ands; auto. apply S.
  change (rd "(printl '(a . 1) (+ 1 2))") with (Pair false (Sym false (sy "printl")) (mk_list [rd "'(a . 1)"; rd "(+ 1 2)"])).
  eapply (C60_print yes "printl"); [constructor|known|exact W|apply S].
Qed.

(** ** C61 *)
Theorem C61_eval : forall O c t u t1 e w o, calls c w "eval" ->
  (runs O c (Pair t (Sym u (sy "eval")) (Pair t1 e Nil)) w o <->
   andthen (runs O c e w) (fun v w1 => runs O c v w1) o).
Proof. exact eval_runs. Qed.
Print Assumptions C61_eval.
Theorem C61_chr : forall O c t u t1 e w z w1, calls c w "chr" -> runs O c e w (Ret (Num z) w1) ->
  exists k, as_char z k /\ runs O c (Pair t (Sym u (sy "chr")) (Pair t1 e Nil)) w (Ret (Chr k) w1).
Proof. exact chr_runs. Qed.
Print Assumptions C61_chr.
Example C61_example : calls [(sy "x", Num 1)] world0 "eval" /\
  value "(let ((x . 4)) (eval (list '+ 'x 1)))" world0 = Some (Num 5) /\
  value "(list (chr 97) (chr 353) (chr 200))" world0 = Some (mk_list [Chr 97; Chr 97; Chr (-56)]).
Proof. ands; [known|vm_compute; reflexivity|vm_compute; reflexivity]. Qed.

(** ** C62 *)
(** Exact, but the subject is evaluated in a scope where the name [ANY] denotes the
    arguments of [match]. *)
Theorem C62_match_partial : forall O c t u t1 e l w o, calls c w "match" ->
  (runs O c (Pair t (Sym u (sy "match")) (Pair t1 e (clauses l))) w o <->
   andthen (runs O ((sy "ANY", Pair t1 e (clauses l)) :: c) e w)
     (fun v w1 o => exists x, chosen v l x /\ runs O c x w1 o) o).
Proof. exact match_call_runs. Qed.
Print Assumptions C62_match_partial.
Theorem C62_any_refuted : value "(let ((ANY . 5)) (match ANY (5 . 'yes) (_ . 'no)))" world0 = Some (Symb (sy "no")) /\
  value "(let ((any . 5)) (match any (5 . 'yes) (_ . 'no)))" world0 = Some (Symb (sy "yes")).
Proof. split; vm_compute; reflexivity. Qed.
Print Assumptions C62_any_refuted.
(** The subject is evaluated once. *)
Example C62_example : calls [(sy "x", Num 1)] world0 "match" /\
  exists w, runs yes [] (rd "(match (list (prin 1) 2) ((2 _) . 'a) ((1 _) . 'b) (_ . 'c))") world0 (Ret (Symb (sy "b")) w) /\
    outs w = [(1%N, [49%N])].
Proof. split; [known|]. eexists. split; [computed|reflexivity]. Qed.
