(** * Properties15: the test framework and the terminal helpers of the bundled library
    (C90, C91, C92).

    [ready3]: besides the names of [ready], those used by test.l and term.l have the
    values they have once the files are loaded. *)
From Verif Require Import Base Value ValueSpec ValueProofs Tails Parser PrintSpec Print Eval Sexp EvalSpec EvalProofs
  Sem1 Sem2 Sem3 Sem4 Sem5 TailsProofs TailsSem BuiltinSpec Sem6 Cases Lib LibSpec LibBase LibProofs LibDerived LibMore LibAssoc
  LibCases LibSort Lib2Proofs Properties12 Lib3 Lib3Spec Lib3Term Lib3Assert Lib3Run.
Open Scope nat_scope.
Open Scope list_scope.

(** ** The state after loading the files *)
Lemma same_values4 : map (fun s => env_get (globals library4) (sy s)) (used ++ given) = map (fun s => Some (lib s)) (used ++ given).
Proof. vm_compute. reflexivity. Qed.
Lemma new_values4 : map (fun s => env_get (globals library4) (sy s)) (used3 ++ given3) = map (fun s => Some (lib4 s)) (used3 ++ given3).
Proof. vm_compute. reflexivity. Qed.
Lemma run_values4 : map (fun s => env_get (globals library4) (sy s)) ["assert:equal"; "assert:predicate"; "test:run"]%string =
  map (fun s => Some (lib4 s)) ["assert:equal"; "assert:predicate"; "test:run"]%string.
Proof. vm_compute. reflexivity. Qed.
Lemma ready3_scope : forall c w, globals w = globals library4 -> avoids c (used ++ given) = true -> avoids c (used3 ++ given3) = true -> ready3 c w.
Proof.
  intros c w E H1 H2. split; intros s I.
  - apply (avoids_means c w (used ++ given) s (lib s) H1 I). rewrite E. exact (in_maps _ _ _ _ _ s same_values4 I).
  - apply (avoids_means c w (used3 ++ given3) s (lib4 s) H2 I). rewrite E. exact (in_maps _ _ _ _ _ s new_values4 I).
Qed.
Lemma test_means : forall c w s, globals w = globals library4 -> avoids c ["assert:equal"; "assert:predicate"; "test:run"]%string = true ->
  In s ["assert:equal"; "assert:predicate"; "test:run"]%string -> means c w (sy s) (lib4 s).
Proof.
  intros c w s E H I. apply (avoids_means c w _ s (lib4 s) H I). rewrite E. exact (in_maps _ _ _ _ _ s run_values4 I).
Qed.
(** A text read by the reader, with strings. *)
Definition source (s : string) : atom :=
  match lisp_read world (at_read 50) 50 [] (bs s ++ [10%N]) world0 with Value _ x _ _ _ => x | _ => Nil end.
(** A scope with program arguments that are only the name of the program. *)
Definition alone : env := [(sy "ARGV", mk_list [mk_list (text "suite.l")])].
Lemma alone_increasing : increasing alone.
Proof. repeat constructor. Qed.
Example library4_case : ready3 [] library4 /\ ready3 alone library4.
Proof. split; apply ready3_scope; vm_compute; reflexivity. Qed.

(** ** C90: assertions *)
(** For expressions and values that [let] does not mark (C37): T if the values are equal;
    otherwise NIL, after the two values are written. *)
Theorem C90_equal_partial : forall O c t e x v1 v2 w0 w1 w2, means c w0 (sy "assert:equal") (lib4 "assert:equal") -> increasing c ->
  runs O c e w0 (Ret v1 w1) -> ready3 c w1 -> gives O c equal_hid x w1 v2 w2 -> ready3 c w2 -> kept "OP" x -> kept "EVAL" v2 ->
  (same v1 v2 -> runs O c (Pair t (sym "assert:equal") (mk_list [e; x])) w0 (Ret Tru w2)) /\
  (~ same v1 v2 -> forall t1 t2 w3, literal_text v1 t1 -> literal_text v2 t2 -> says (complaint "Expect" "Actual" t1 t2) w2 w3 ->
     runs O c (Pair t (sym "assert:equal") (mk_list [e; x])) w0 (Ret Nil w3)).
Proof.
  intros. split; intros.
  - eapply assert_equal_holds; [| |exact H1|exact H2|exact H3|exact H4|exact H5|exact H6|exact H7]; auto.
  - eapply assert_equal_fails; [| |exact H1|exact H2|exact H3|exact H4|exact H5|exact H6|exact H7|exact H8|exact H9|exact H10]; auto.
Qed.
Print Assumptions C90_equal_partial.
Theorem C90_predicate_partial : forall O c t e x p v b w0 w1 w2 w3, means c w0 (sy "assert:predicate") (lib4 "assert:predicate") -> increasing c ->
  runs O c e w0 (Ret p w1) -> ready3 c w1 -> gives O c predicate_hid x w1 v w2 -> ready3 c w2 -> kept "OP" x -> kept "EVAL" v ->
  judges O c p v w2 b w3 -> ready3 c w3 ->
  (b <> Nil -> runs O c (Pair t (sym "assert:predicate") (mk_list [e; x])) w0 (Ret Tru w3)) /\
  (b = Nil -> forall t1 t2 w4, literal_text p t1 -> literal_text v t2 -> says (complaint "Predicate" "Value" t1 t2) w3 w4 ->
     runs O c (Pair t (sym "assert:predicate") (mk_list [e; x])) w0 (Ret Nil w4)).
Proof.
  intros. split; intros.
  - eapply assert_predicate_holds; [| |exact H1|exact H2|exact H3|exact H4|exact H5|exact H6|exact H7|exact H9]; auto.
  - subst b. eapply assert_predicate_fails; [| |exact H1|exact H2|exact H3|exact H4|exact H8|exact H5|exact H6|exact H7|exact H10|exact H11|exact H12]; auto.
Qed.
Print Assumptions C90_predicate_partial.
(** The expression sees the names of the assertion; and [let] marks what it is given. *)
Theorem C90_refuted :
  runs yes [(sy "EXPECT", Num 2)] (sym "EXPECT") library4 (Ret (Num 2) library4) /\
  runs yes [(sy "EXPECT", Num 2)] (rd "(assert:equal 1 EXPECT)") library4 (Ret Tru library4) /\
  runs yes [] (rd "(= car car)") library4 (Ret Tru library4) /\
  runs yes [] (rd "(assert:equal car car)") library4 (Stop UB).
Proof. split; [|split; [|split]]; computed. Qed.
Print Assumptions C90_refuted.

(** [(assert:equal n (+ 1 1))], in any scope. *)
Lemma two_gives : forall O c hid w, clear_of hid (used ++ given) = true -> ready3 c w -> gives O c hid (| sym "+"; Num 1; Num 1 |) w (Num 2) w.
Proof.
  intros O c hid w C R S I AP. assert (R' : ready S w) by (eapply ready_apart; [exact AP|exact C|apply R]).
  eapply (f_arith O "+"%string S) with (v1 := Num 1) (w1 := w) (v2 := Num 1) (a := 1%Z) (b := 1%Z);
    [cbn; tauto|auto|apply f_const; auto|apply f_const; auto|reflexivity|reflexivity|constructor]; vm_compute; split; congruence.
Qed.
Lemma asserted : forall O c hid w, clear_of hid ((used ++ given) ++ used3 ++ given3) = true -> clear_of hid ["assert:equal"%string] = true ->
  ready3 c w -> means c w (sy "assert:equal") (lib4 "assert:equal") ->
  gives O c hid (rd "(assert:equal 2 (+ 1 1))") w Tru w.
Proof.
  intros O c hid w C1 C2 R M S I AP.
  assert (R' : ready3 S w) by (eapply ready3_apart; [exact AP| |exact R]; auto).
  apply (assert_equal_holds O S false (Num 2) (| sym "+"; Num 1; Num 1 |) (Num 2) (Num 2) w w w).
  - eapply means_apart; [exact AP| |exact M]. exact C2.
  - exact I.
  - apply f_const; auto.
  - exact R'.
  - apply two_gives; [reflexivity|auto].
  - exact R'.
  - right. vm_compute. reflexivity.
  - left. reflexivity.
  - constructor.
Qed.
Lemma avoids_nil : forall l, avoids [] l = true.
Proof. intro l. apply forallb_forall. auto. Qed.
Lemma ready3_nil : forall w, globals w = globals library4 -> ready3 [] w.
Proof. intros w E. apply ready3_scope; [exact E|apply avoids_nil|apply avoids_nil]. Qed.
Lemma library4_out : hd_error (ochan library4) = Some 1%N.
Proof. vm_compute. reflexivity. Qed.
Lemma literal_digit : forall d, (48 <= d < 58)%N -> literal_text (Num (Z.of_N (d - 48))) [d].
Proof.
  intros d H. split; [cbn; unfold int64; lia|]. apply lit_num. apply decimal_pos; [|cbn; lia].
  split; [constructor; [unfold is_digit; lia|constructor]|].
  destruct (N.eq_dec d 48) as [->|N]; [left; reflexivity|right; exists d, []; split; [reflexivity|exact N]].
Qed.
(** [(\ (x) (< x k))] *)
Definition below (k : Z) : atom := lam (pars ["x"]%string) [] [(| sym "<"; sym "x"; Num k |)].
Lemma below_judges : forall O c k z w, ready3 c w -> exists b, answer (Z.lt z k) b /\ judges O c (below k) (Num z) w b w.
Proof.
  intros O c k z w R. exists (if (z <? k)%Z then Tru else Nil).
  assert (A : answer (Z.lt z k) (if (z <? k)%Z then Tru else Nil)).
  { destruct (Z.ltb_spec z k); [left; auto|right; split; [lia|auto]]. }
  split; [exact A|]. intros S I AP. apply apply_fun0; [auto|auto|destruct (z <? k)%Z; reflexivity|]. intros S' IN.
  assert (R' : ready S' w).
  { eapply ready_apart; [eapply inside_apart; exact IN|reflexivity|]. eapply ready_apart; [exact AP|reflexivity|apply R]. }
  destruct (f_cmp O "<"%string Z.lt S' false false false (sym "x") false (Num k) w z w k w) as [b [Q X]];
    [cbn; tauto|constructor|auto|arg|apply f_const; auto|].
  destruct A as [[A1 A2]|[A1 A2]], Q as [[Q1 Q2]|[Q1 Q2]]; rewrite A2; subst b; auto; tauto.
Qed.
Definition two : atom := (| sym "+"; Num 1; Num 1 |).
Example C90_example :
  (means [] library4 (sy "assert:equal") (lib4 "assert:equal") /\ increasing [] /\
   runs yes [] (Num 3) library4 (Ret (Num 3) library4) /\ ready3 [] library4 /\
   gives yes [] equal_hid two library4 (Num 2) library4 /\ kept "OP" two /\ kept "EVAL" (Num 2) /\
   same (Num 2) (Num 2) /\ ~ same (Num 3) (Num 2) /\ literal_text (Num 3) (bs "3") /\ literal_text (Num 2) (bs "2") /\
   exists w3, says (complaint "Expect" "Actual" (bs "3") (bs "2")) library4 w3) /\
  (means [] library4 (sy "assert:predicate") (lib4 "assert:predicate") /\
   runs yes [] (rd "(\ (x) (< x 5))") library4 (Ret (below 5) library4) /\
   gives yes [] predicate_hid two library4 (Num 2) library4 /\
   judges yes [] (below 5) (Num 2) library4 Tru library4 /\ judges yes [] (below 1) (Num 2) library4 Nil library4) /\
  (exists w, runs yes [] (rd "(assert:equal 3 (+ 1 1))") library4 (Ret Nil w) /\
     concat (rev (map snd (outs w))) =
       ([27; 91] ++ bs "0;31m> FAILED " ++ [27; 91; 48; 109; 10] ++
        bs "! " ++ [27; 91; 52; 109] ++ bs "Expect" ++ [27; 91; 48; 109] ++ bs ": 3" ++ [10] ++
        bs "! " ++ [27; 91; 52; 109] ++ bs "Actual" ++ [27; 91; 48; 109] ++ bs ": 2" ++ [10])%N) /\
  runs yes [] (rd "(assert:predicate (\ (x) (< x 5)) (+ 1 1))") library4 (Ret Tru library4).
Proof.
  assert (R := ready3_nil library4 eq_refl). split; [|split; [|split]].
  - split; [apply test_means; [reflexivity|apply avoids_nil|cbn; tauto]|]. split; [constructor|].
    split; [apply f_const; auto|]. split; [exact R|]. split; [apply two_gives; [reflexivity|exact R]|].
    split; [right; vm_compute; reflexivity|]. split; [left; reflexivity|]. split; [constructor|].
    split; [intro X; inversion X|]. split; [apply (literal_digit 51); lia|].
    split; [apply (literal_digit 50); lia|].
    destruct (says_exists (complaint "Expect" "Actual" (bs "3") (bs "2")) library4 1%N library4_out) as (w3 & S3 & _). eauto.
  - split; [apply test_means; [reflexivity|apply avoids_nil|cbn; tauto]|]. split; [computed|].
    split; [apply two_gives; [reflexivity|exact R]|].
    split; [destruct (below_judges yes [] 5 2 library4 R) as [b [[[_ ->]|[N _]] J]]; [exact J|lia]|].
    destruct (below_judges yes [] 1 2 library4 R) as [b [[[N _]|[_ ->]] J]]; [lia|exact J].
  - eexists. split; [computed|vm_compute; reflexivity].
  - computed.
Qed.

(** ** C91: running a suite *)
(** Without arguments for the program, and with tests of different names: the tests run in
    order, each once, whatever the others give; a line tells the outcome of each; the value
    is T exactly if every test gave T. *)
Theorem C91_run_partial : forall O c t e name tests b argv w0 w1 w2 w3,
  means c w0 (sy "test:run") (lib4 "test:run") -> increasing c -> env_get c (sy "|<-") = None ->
  runs O c e w0 (Ret (mk_list (chars name)) w1) -> is_bytes name ->
  Forall (fun p => is_bytes (fst p)) tests -> NoDup (map fst tests) -> int64 (Z.of_nat (widest tests)) ->
  ready3 c w1 -> means c w1 (sy "ARGV") argv -> cdr argv = Nil ->
  says (header name) w1 w2 -> tries O c (widest tests) tests w2 b w3 ->
  runs O c (Pair t (sym "test:run") (Cons e (suite tests))) w0 (Ret (truth b) w3).
Proof. exact test_run_ok. Qed.
Print Assumptions C91_run_partial.
(** Two tests of the same name: the first runs twice and the second never; an argument
    that is not an option does not stop the tests. *)
Theorem C91_refuted :
  (exists w, runs yes alone (source "(test:run ""s"" (""a"" . (tru? (prin 1))) (""a"" . (tru? (prin 2))))") library4 (Ret Nil w) /\
     ~ In (1%N, bs "2") (outs w)) /\
  (exists w, runs yes alone (source "(test:run ""s"" (""a"" . (assert:equal 1 1)) (""a"" . (assert:equal 1 2)))") library4 (Ret Tru w)) /\
  (exists w, runs yes [(sy "ARGV", mk_list [mk_list (text "suite.l"); mk_list (text "-x")])]
     (source "(test:run ""s"" (""a"" . (assert:equal 1 1)))") library4 (Ret Tru w)).
Proof.
  split; [|split].
  - eexists. split; [computed|]. vm_compute. intuition discriminate.
  - eexists. computed.
  - eexists. computed.
Qed.
Print Assumptions C91_refuted.

Definition three_tests : list (bytes * atom) :=
  [(bs "sum", rd "(assert:equal 2 (+ 1 1))"); (bs "a", Num 3); (bs "none", Nil)].
Lemma three_tries : forall w, globals w = globals library4 -> hd_error (ochan w) = Some 1%N ->
  exists w', tries yes alone (widest three_tests) three_tests w false w'.
Proof.
  intros w E H. assert (RD : forall x, globals x = globals library4 -> ready3 alone x).
  { intros x Ex. apply ready3_scope; [exact Ex|vm_compute; reflexivity|vm_compute; reflexivity]. }
  destruct (says_exists (report (widest three_tests) tick (bs "sum") "0;32" "passed") w _ H) as (w1 & S1 & G1 & C1).
  destruct (says_exists (report (widest three_tests) (bs "! ") (bs "a") "0;31" "failed") w1 1%N) as (w2 & S2 & G2 & C2); [congruence|].
  destruct (says_exists (report (widest three_tests) (bs "! ") (bs "none") "0;31" "not found") w2 1%N) as (w3 & S3 & G3 & C3); [congruence|].
  exists w3. eapply tries_pass with (w1 := w) (w2 := w1); [discriminate|right; vm_compute; reflexivity|reflexivity| |auto|exact S1|].
  { apply asserted; [reflexivity|reflexivity|auto|]. apply test_means; [auto|reflexivity|cbn; tauto]. }
  eapply tries_fail with (v := Num 3) (w1 := w1) (w2 := w2); [discriminate|left; reflexivity|reflexivity| |discriminate|apply RD; congruence|exact S2|].
  { intros S I AP. apply f_const; auto. }
  eapply tries_missing; [exact S3|]. constructor.
Qed.
Example C91_example :
  (exists w2 w3, means alone library4 (sy "test:run") (lib4 "test:run") /\ increasing alone /\ env_get alone (sy "|<-") = None /\
     runs yes alone (mk_list (text "demo")) library4 (Ret (mk_list (chars (bs "demo"))) library4) /\ is_bytes (bs "demo") /\
     Forall (fun p => is_bytes (fst p)) three_tests /\ NoDup (map fst three_tests) /\ int64 (Z.of_nat (widest three_tests)) /\
     ready3 alone library4 /\ means alone library4 (sy "ARGV") (mk_list [mk_list (text "suite.l")]) /\
     cdr (mk_list [mk_list (text "suite.l")]) = Nil /\
     says (header (bs "demo")) library4 w2 /\ tries yes alone (widest three_tests) three_tests w2 false w3) /\
  source "(test:run ""demo"" (""sum"" . (assert:equal 2 (+ 1 1))) (""a"" . 3) (""none""))" =
    Pair false (sym "test:run") (Cons (mk_list (text "demo")) (suite three_tests)) /\
  (exists w, runs yes alone (source "(test:run ""demo"" (""sum"" . (assert:equal 2 (+ 1 1))) (""a"" . 3) (""none""))") library4 (Ret Nil w) /\
     concat (rev (map snd (outs w))) =
       ([27; 91] ++ bs "1m[" ++ [27; 91; 48; 109; 27; 91; 49; 109] ++ bs "demo" ++ [27; 91; 48; 109; 27; 91; 49; 109] ++ bs "]" ++ [27; 91; 48; 109; 10] ++
        tick ++ bs "sum : " ++ [27; 91] ++ bs "0;32mpassed" ++ [27; 91; 48; 109; 10] ++
        bs "! a   : " ++ [27; 91] ++ bs "0;31mfailed" ++ [27; 91; 48; 109; 10] ++
        bs "! none: " ++ [27; 91] ++ bs "0;31mnot found" ++ [27; 91; 48; 109; 10])%N) /\
  (exists w, runs yes alone (source "(test:run ""demo"" (""sum"" . (assert:equal 2 (+ 1 1))))") library4 (Ret Tru w)).
Proof.
  split; [|split; [|split]].
  - destruct (says_exists (header (bs "demo")) library4 _ library4_out) as (w2 & S2 & G2 & C2).
    destruct (three_tries w2 G2) as [w3 T3]; [rewrite C2; exact library4_out|]. exists w2, w3.
    split; [apply test_means; [reflexivity|reflexivity|cbn; tauto]|]. split; [apply alone_increasing|]. split; [reflexivity|].
    split; [apply text_runs; discriminate|]. split; [plain|]. split; [repeat constructor; cbn; lia|].
    split; [repeat constructor; cbn; intuition discriminate|]. split; [vm_compute; split; discriminate|].
    split; [apply library4_case|]. split; [apply means_get; reflexivity|]. split; [reflexivity|]. split; [exact S2|exact T3].
  - vm_compute. reflexivity.
  - eexists. split; [computed|vm_compute; reflexivity].
  - eexists. computed.
Qed.

(** ** C92: terminal helpers *)
Theorem C92_escape : forall O c w, increasing c -> ready3 c w ->
  (forall code s, applied O c (lib4 "term:esc") [mk_list code; mk_list s] w (Ret (mk_list (esc code s)) w)) /\
  (forall name code s, In (name, code) styles ->
     applied O c (lib4 ("term:" ++ name)) [mk_list s] w (Ret (mk_list (esc (text code) s)) w)).
Proof. intros O c w I R. split; [intros; apply esc_ok; auto|intros; apply style_ok; auto]. Qed.
Print Assumptions C92_escape.
(** The result has the width asked for (none if it is negative): the text with spaces
    after or before it, or its beginning or its end. *)
Theorem C92_width : forall O c z s w, increasing c -> ready3 c w -> int64 z -> int64 (z - Z.of_nat (length s)) ->
  (applied O c (lib4 "term:left") [Num z; mk_list s] w (Ret (mk_list (fit_left (Z.to_nat z) s)) w) /\
   applied O c (lib4 "term:right") [Num z; mk_list s] w (Ret (mk_list (fit_right (Z.to_nat z) s)) w)) /\
  length (fit_left (Z.to_nat z) s) = Z.to_nat z /\ length (fit_right (Z.to_nat z) s) = Z.to_nat z.
Proof.
  intros O c z s w I R B1 B2. split; [split; apply fit_ok; cbn; auto|]. unfold fit_left, fit_right. split.
  - rewrite app_length, firstn_length, repeat_length. lia.
  - rewrite app_length, skipn_length, repeat_length. lia.
Qed.
Print Assumptions C92_width.
Definition value4 (s : string) (w : world) : option atom :=
  match eval yes 200 [] (source s) w with Ret v _ => Some v | _ => None end.
Example C92_example : ready3 [] library4 /\ In ("green", "0;32")%string styles /\ int64 5 /\ int64 (5 - Z.of_nat (length (text "abc"))) /\
  value4 "(term:left 5 ""abc"")" library4 = Some (mk_list (text "abc  ")) /\
  value4 "(term:right 5 ""abc"")" library4 = Some (mk_list (text "  abc")) /\
  value4 "(term:left 2 ""abc"")" library4 = Some (mk_list (text "ab")) /\
  value4 "(term:right 2 ""abc"")" library4 = Some (mk_list (text "bc")) /\
  value4 "(term:left (- 0 1) ""abc"")" library4 = Some Nil /\
  value4 "(term:green ""ok"")" library4 = Some (mk_list (Chr 27 :: text "[0;32mok" ++ [Chr 27] ++ text "[0m")).
Proof.
  split; [apply library4_case|]. split; [cbn; tauto|]. split; [vm_compute; split; discriminate|]. split; [vm_compute; split; discriminate|].
  repeat split; vm_compute; reflexivity.
Qed.
