(** * Lib3Run: test:run. *)
From Verif Require Import Base Value ValueSpec ValueProofs Tails PrintSpec Print Eval EvalSpec EvalProofs
  Sem1 Sem2 Sem3 Sem4 Sem5 TailsProofs TailsSem BuiltinSpec Sem6 Cases Lib LibSpec LibBase LibProofs LibDerived LibMore LibAssoc
  LibCases LibSort Lib2Proofs Lib3 Lib3Spec Lib3Term Lib3Assert.
Open Scope nat_scope.

(** ** The definitions, as stored *)
Notation pat_pars := (mk_list [sym "acc"; Cons (sym "name") Wild]).
Notation let_of bs body := (Cons (sym "let") (Cons (bindings (map (fun p => (sym (fst p), snd p)) bs)) (mk_list body))).
Notation hdr_body := (Cons (sym "prinl") (mk_list [Cons (sym "term:bold") (mk_list [mk_list (text "[")]);
  Cons (sym "term:bold") (mk_list [sym "SUITE"]); Cons (sym "term:bold") (mk_list [mk_list (text "]")])])).
Notation pad_fun := (let_of [("nlen"%string, (| sym "len"; sym "name" |))]
  [(| sym "if"; (| sym ">"; sym "nlen"; sym "acc" |); sym "nlen"; sym "acc" |)]).
Notation pad_body := (| sym "foldl"; Cons (sym "\") (Cons pat_pars (mk_list [pad_fun])); Num 0; sym "LST" |).
Notation line mark color word r :=
  (Cons (sym "prog") (mk_list [Cons (sym "prinl") (mk_list [mk_list mark; (| sym "|<-"; sym "name" |); mk_list (text ": ");
     Cons (sym color) (mk_list [mk_list (text word)])]); r])).
Notation exe_cond := (Cons (sym "cond") (Cons (| sym "eval"; sym "test" |) (clauses
  [(sym "tru?", line (chars tick) "term:green" "passed" Tru); (Wild, line (text "! ") "term:red" "failed" Nil)]))).
Notation exe_in := (| sym "if"; sym "test"; (| sym "and"; sym "acc"; exe_cond |); line (text "! ") "term:red" "not found" Nil |).
Notation exe_body := (let_of [("test"%string, (| sym "assoc"; sym "name"; sym "TESTS" |))] [exe_in]).
Notation with_t := (let_of [("|<-"%string, (| sym "term:left"; (| sym "pad"; sym "TST" |) |))] [mk_list [sym "hdr"]; (| sym "foldl"; sym "exe"; Tru; sym "TST" |)]).
Notation list_them := (Cons (sym "prog") (mk_list [mk_list [sym "hdr"]; (| sym "iter"; Cons (sym "\") (Cons (mk_list [Cons (sym "name") Wild])
  (mk_list [Cons (sym "prinl") (mk_list [mk_list (text "- "); (| sym "|<-"; sym "name" |)])])); sym "TESTS" |)])).
Notation run_them := (Cons (sym "when") (Cons (| sym "not"; (| sym "has"; sym "args"; mk_list (text "-h") |) |)
  (mk_list [mk_list [sym "hdr"]; (| sym "foldl"; sym "exe"; Tru; sym "TESTS" |)]))).
Notation all_tests := (let_of [("|<-"%string, (| sym "term:left"; (| sym "pad"; sym "TESTS" |) |))]
  [(| sym "if"; (| sym "has"; sym "args"; mk_list (text "-l") |); list_them; run_them |)]).
Notation run_lets := [("args"%string, (| sym "args:parse"; sym "options" |));
  ("hdr"%string, Cons (sym "\") (Cons Nil (mk_list [hdr_body])));
  ("pad"%string, Cons (sym "\") (Cons (pars ["LST"]%string) (mk_list [pad_body])));
  ("exe"%string, Cons (sym "\") (Cons pat_pars (mk_list [exe_body])))].
Notation run_in := (| sym "if"; (| sym "has"; sym "args"; mk_list (text "-t") |); with_t; all_tests |).
Lemma lib4_run : lib4 "test:run" = lam (arg_list [sym "SUITE"] (sym "TESTS")) [] [let_of run_lets [run_in]].
Proof. vm_compute. reflexivity. Qed.
Notation parse_body := (| sym "args:parse_r"; sym "SCHEMA"; (| sym "cdr"; sym "ARGV" |); Nil |).
Lemma lib4_parse : lib4 "args:parse" = lam (pars ["SCHEMA"]%string) [] [parse_body].
Proof. vm_compute. reflexivity. Qed.
Lemma lib4_parse_r : exists x, lib4 "args:parse_r" = lam (pars ["SCHEMA"; "LST"; "RES"]%string) [] [(| sym "if"; (| sym "nil?"; sym "LST" |); sym "RES"; x |)].
Proof. eexists. vm_compute. reflexivity. Qed.

(** ** Scopes *)
Lemma inside_apart1 : forall hs vs a v S S', inside hs vs [(sy a, v)] S S' -> apart (hs ++ [a]) S S'.
Proof.
  intros hs vs a v S S' [_ G]. apply apart_get. intros k N. rewrite G. cbn [lget].
  rewrite combine_none by (intros s J; apply N, in_or_app; auto). cbn [env_get].
  destruct (sym_match (sy a) k) eqn:E.
  - apply sym_match_eq in E. subst k. exfalso. apply (N a); auto. apply in_or_app. cbn; auto.
  - destruct (env_get S k); auto.
Qed.
Lemma inside_unique : forall hs vs d S S1 S2, inside hs vs d S S1 -> inside hs vs d S S2 -> S1 = S2.
Proof. intros hs vs d S S1 S2 [I1 G1] [I2 G2]. apply increasing_ext; auto. intro k. rewrite G1, G2. auto. Qed.
Lemma inside_keep : forall hs vs S S' k, inside hs vs [] S S' -> forallb (fun s => negb (sym_match (sy s) k)) hs = true ->
  env_get S' k = env_get S k.
Proof.
  intros hs vs S S' k IN N. assert (A := inside_apart _ _ _ _ IN). rewrite apart_get in A. apply A, none_of, N.
Qed.

Section Run.
Variable O : oracle.
Notation Runs := (runs O).

(** ** A function of an accumulator and a pair *)
Lemma name_linear : linear (Cons (sym "name") Wild).
Proof.
  intros k [|[|] [|? p]] [|[|] [|? q]] H1 H2; cbn in H1, H2; auto; try tauto; try (destruct H1; discriminate);
    try (destruct H2; discriminate).
Qed.
Lemma apply_pat : forall S d x r a b w v w', increasing S -> NoDup (map fst d) -> is_tail_call v = false ->
  (forall S', inside ["acc"; "name"]%string [r; a] d S S' -> Runs S' x w (Ret v w')) ->
  applied O S (lam pat_pars d [x]) [r; Cons a b] w (Ret v w').
Proof.
  intros S d x r a b w v w' I N Q H h t es w0 M A. rewrite !mk_arg_list in *.
  eapply (call_any O S t h [sym "acc"; Cons (sym "name") Wild] Nil d [x] es Nil [r; Cons a b]); eauto.
  - discriminate.
  - repeat constructor; [apply linear_sym|apply name_linear].
  - apply runs_list_len in A. auto.
  - constructor; [apply layer_bind, linear_sym|constructor; [apply layer_bind, name_linear|constructor]].
  - constructor.
  - intros S' I' G. apply body_one, H. split; auto. intro k. rewrite G. cbn [bind app lget env_get map combine].
    destruct (sym_match (sy "acc") k); auto.
Qed.
Lemma acts_pat : forall c d hid x (F : behaviour), NoDup (map fst d) -> clear_of hid (used ++ given) = true ->
  (forall vs w b w', F vs w b w' -> is_tail_call b = false /\ (ready c w -> ready c w')) ->
  (forall vs w b w', F vs w b w' -> exists r a b, vs = [r; Cons a b]) ->
  (forall S S' r a e w b w', increasing S -> apart hid c S -> inside ["acc"; "name"]%string [r; a] d S S' ->
     ready c w -> F [r; Cons a e] w b w' -> Runs S' x w (Ret b w')) ->
  acts O c hid (lam pat_pars d [x]) F.
Proof.
  intros c d hid x F N C1 H1 HL H2. split; [|apply H1].
  intros S vs w b w' I AP R HF. destruct (H1 _ _ _ _ HF) as [Q K]. destruct (HL _ _ _ _ HF) as [r [a [e ->]]].
  apply apply_pat; auto. intros S' IN. eapply H2; eauto.
Qed.

(** ** The arguments of the program *)
Lemma parse_none : forall S w argv, increasing S -> ready3 S w -> means S w (sy "ARGV") argv -> cdr argv = Nil ->
  applied O S (lib4 "args:parse") [lib4 "options"] w (Ret Nil w).
Proof.
  intros S w argv I R MA C. rewrite lib4_parse. apply apply_fun0; [auto|auto|reflexivity|]. intros S' IN.
  assert (AP := inside_apart _ _ _ _ IN).
  assert (R3 : ready3 S' w) by (eapply ready3_apart; [exact AP|reflexivity|auto]).
  assert (R' : ready S' w) by apply R3.
  change (Runs S' (Pair false (sym "args:parse_r") (mk_list [sym "SCHEMA"; (| sym "cdr"; sym "ARGV" |); Nil])) w (Ret Nil w)).
  assert (X : applied O S' (lib4 "args:parse_r") [lib4 "options"; Nil; Nil] w (Ret Nil w)).
  { destruct lib4_parse_r as [x ->]. apply apply_fun0; [apply IN|auto|reflexivity|]. intros S2 IN2.
    assert (R2 : ready S2 w) by (eapply ready_apart; [eapply inside_apart; exact IN2|reflexivity|auto]).
    eapply f_if; [auto|one "nil?"%string; arg|]. cbn. arg. }
  apply X; [apply ready3_means; [auto|cbn; tauto]|].
  apply list3 with w w; [arg| |apply f_const; auto].
  replace (Ret Nil w) with (Ret (val1 "cdr" argv) w) by (rewrite <- C; reflexivity). one "cdr"%string. apply f_sym.
  apply (means_apart ["SCHEMA"]%string S S' w "ARGV" argv); auto.
Qed.
Lemma has_none : forall S w s, increasing S -> ready S w -> s <> EmptyString -> env_get S (sy "args") = Some Nil ->
  Runs S (| sym "has"; sym "args"; mk_list (text s) |) w (Ret Nil w).
Proof.
  intros S w s I R N E. destruct (has_ok O S [] (mk_list (text s)) w I R) as [v [[[[a [[] _]] _]|[_ ->]] A]].
  apply (A (sy "has") false [sym "args"; mk_list (text s)] w); [apply ready_means; [auto|cbn; tauto]|].
  apply list2 with w; [apply get_sym; auto|apply text_runs; auto].
Qed.

(** ** The width *)
Definition widening : behaviour := pure (fun vs b => exists m nm x,
  vs = [Num (Z.of_nat m); Cons (mk_list (chars nm)) x] /\ b = Num (Z.of_nat (Nat.max m (length nm)))).
Lemma widen_fold : forall tests m w,
  folds_left (fun vs w1 b w2 => widening vs w1 b w2 /\ w1 = w) (map (fun p => Cons (mk_list (chars (fst p))) (snd p)) tests) (Num (Z.of_nat m)) w
    (Num (Z.of_nat (Nat.max m (widest tests)))) w.
Proof.
  induction tests as [|[nm x] tests IH]; intros m w; cbn [map fst snd widest fold_right].
  - rewrite Nat.max_0_r. constructor.
  - econstructor; [split; [split; [exists m, nm, x; auto|reflexivity]|reflexivity]|].
    fold (widest tests). rewrite Nat.max_assoc. apply IH.
Qed.
Lemma suite_list : forall tests, suite tests = mk_list (map (fun p => Cons (mk_list (chars (fst p))) (snd p)) tests).
Proof. intros tests. unfold suite, alist. rewrite map_map. reflexivity. Qed.
Lemma chars_length : forall t, length (chars t) = length t.
Proof. intros. apply map_length. Qed.
Lemma pad_ok : forall S d tests w, increasing S -> increasing d -> ready3 S w -> ready3 d w ->
  applied O S (lam (pars ["LST"]%string) d [pad_body]) [suite tests] w (Ret (Num (Z.of_nat (widest tests))) w).
Proof.
  intros S d tests w I Id R Rd. apply apply_fun; [auto|apply increasing_NoDup; auto|discriminate|auto|reflexivity|].
  intros S' IN. apply body_one.
  assert (R3 : ready3 S' w) by (eapply inside_ready3; [exact IN|reflexivity|auto|auto]).
  assert (R' : ready S' w) by apply R3. assert (I' : increasing S') by apply IN.
  change (Runs S' (Pair false (sym "foldl") (mk_list [Cons (sym "\") (Cons pat_pars (mk_list [pad_fun])); Num 0; sym "LST"])) w
    (Ret (Num (Z.of_nat (widest tests))) w)).
  eapply (call_foldl O S' (lam pat_pars S' [pad_fun]) (fun vs w1 b w2 => widening vs w1 b w2 /\ w1 = w)
    (map (fun p => Cons (mk_list (chars (fst p))) (snd p)) tests) (Num 0) w); [| |reflexivity|auto|auto|auto|].
  - apply acts_pat; [apply increasing_NoDup; auto|reflexivity| | |].
    + intros vs w1 b w2 [[[m [nm [x [-> ->]]]] ->] _]. auto.
    + intros vs w1 b w2 [[[m [nm [x [-> ->]]]] ->] _]. eauto.
    + intros T T' r a e w1 b w2 IT APT INT RT [[[m [nm [x [E ->]]]] ->] ->]. injection E as -> -> ->.
      assert (RT3 : ready3 T' w).
      { eapply inside_ready3; [exact INT|reflexivity|auto|eapply ready3_apart; [exact APT|reflexivity|auto]]. }
      assert (IT' : increasing T') by apply INT.
      assert (G1 := inside_get _ _ _ _ _ (sy "acc") _ INT eq_refl).
      assert (G2 := inside_get _ _ _ _ _ (sy "name") _ INT eq_refl).
      apply (f_let O T' false [("nlen"%string, (| sym "len"; sym "name" |))] _ w [Num (Z.of_nat (length nm))] w); [auto|apply RT3| |].
      * eapply lets_cons with (w1 := w); [intros T2 IN2|left; reflexivity|constructor].
        rewrite <- (chars_length nm). apply len_list.
        -- eapply ready3_apart; [eapply inside_apart; exact IN2|reflexivity|auto].
        -- apply get_sym. rewrite <- G2. apply (inside_keep _ _ _ _ _ IN2). reflexivity.
      * intros T2 IN2. apply body_one.
        assert (RT2 : ready T2 w) by (eapply ready3_apart; [eapply inside_apart; exact IN2|reflexivity|auto]).
        assert (H1 := inside_get _ _ _ _ _ (sy "nlen") _ IN2 eq_refl).
        assert (H2 : env_get T2 (sy "acc") = Some (Num (Z.of_nat m))).
        { rewrite <- G1. apply (inside_keep _ _ _ _ _ IN2). reflexivity. }
        destruct (f_cmp O ">"%string Z.gt T2 false false false (sym "nlen") false (sym "acc") w (Z.of_nat (length nm)) w (Z.of_nat m) w)
          as [b [[[Q ->]|[Q ->]] X]]; [cbn; tauto|constructor|auto|apply get_sym; auto|apply get_sym; auto| |];
          (eapply f_if; [auto|exact X|]); cbn [is_null car cdr].
        -- rewrite Nat.max_r by lia. apply get_sym; auto.
        -- rewrite Nat.max_l by lia. apply get_sym; auto.
  - assert (X := widen_fold tests 0 w). rewrite Nat.max_0_l in X.
    exact X.
  - apply list3 with w w; [apply f_lambda; auto|apply f_const; auto|]. rewrite <- suite_list. arg.
Qed.

(** ** A line *)
Definition padder (n : nat) : atom := lam (pars ["STR"]%string) [(sy "WLEN", Num (Z.of_nat n))] [fit_let left_in].
Lemma chars_fit : forall n nm, length nm <= n ->
  fit_left (Z.to_nat (Z.of_nat n)) (chars nm) = chars (nm ++ repeat 32%N (n - length nm)).
Proof.
  intros n nm L. rewrite Nat2Z.id. unfold fit_left. rewrite chars_length, firstn_all2 by (rewrite chars_length; auto).
  rewrite chars_app. f_equal. generalize (n - length nm). intro k. induction k as [|k IH]; [reflexivity|]. cbn [repeat]. rewrite IH. reflexivity.
Qed.
Lemma padder_runs : forall S t n nm w, increasing S -> ready3 S w -> means S w (sy "|<-") (padder n) ->
  env_get S (sy "name") = Some (mk_list (chars nm)) -> length nm <= n -> int64 (Z.of_nat n) ->
  Runs S (Pair t (sym "|<-") (mk_list [sym "name"])) w (Ret (mk_list (chars (nm ++ repeat 32%N (n - length nm)))) w).
Proof.
  intros S t n nm w I R M E L B.
  assert (A : applied O S (padder n) [mk_list (chars nm)] w (Ret (mk_list (chars (nm ++ repeat 32%N (n - length nm)))) w)).
  { unfold padder. apply apply_fun; [auto|repeat constructor; cbn; tauto|discriminate|auto|apply mk_quiet|].
    intros S' IN. apply body_one. rewrite <- chars_fit by auto. apply left_body; [apply IN| | | |auto|].
    - eapply ready3_apart; [eapply inside_apart1; exact IN|reflexivity|auto].
    - destruct IN as [_ G]. rewrite G. reflexivity.
    - destruct IN as [_ G]. rewrite G. reflexivity.
    - rewrite chars_length. unfold int64 in *. lia. }
  apply A; [auto|apply list1, get_sym; auto].
Qed.
Lemma line_runs : forall S mark color code word r n nm w w', In (color, code) styles -> In ("term:" ++ color)%string given3 ->
  mark <> [] -> is_bytes mark -> word <> EmptyString -> is_bytes (bs word) -> is_bytes (bs code) -> self r = true ->
  increasing S -> ready3 S w -> means S w (sy "|<-") (padder n) ->
  env_get S (sy "name") = Some (mk_list (chars nm)) -> is_bytes nm -> length nm <= n -> int64 (Z.of_nat n) ->
  says (report n mark nm code word) w w' ->
  Runs S (line (chars mark) ("term:" ++ color) word r) w (Ret r w').
Proof.
  intros S mark color code word r n nm w w' J G Nm Bm Nw Bw Bc Sr I R M E Bn L B SA.
  assert (RD : forall l wa, says l w wa -> ready3 S wa /\ means S wa (sy "|<-") (padder n)).
  { intros l wa H. split; [eapply ready3_says; eauto|]. apply says_keeps in H. eapply means_world; [|exact M]. tauto. }
  unfold report in SA. inversion SA as [|? ? ? w1 ? S1 SA1]; subst. inversion SA1 as [|? ? ? w2 ? S2 SA2]; subst.
  inversion SA2 as [|? ? ? w3 ? S3 SA3]; subst. inversion SA3 as [|? ? ? w4 ? S4 SA4]; subst.
  inversion SA4 as [|? ? ? w5 ? S5 SA5]; subst. inversion SA5; subst.
  assert (Q1 : says [mark] w w1) by (econstructor; [exact S1|constructor]).
  assert (Q3 : says [mark; nm ++ repeat 32%N (n - length nm); bs ": "] w w3).
  { econstructor; [exact S1|]. econstructor; [exact S2|]. econstructor; [exact S3|constructor]. }
  destruct (RD _ _ Q1) as [R1 M1]. destruct (RD _ _ Q3) as [R3 _].
  apply prog_runs; [known3|].
  assert (P : exists v, Runs S (Cons (sym "prinl") (mk_list [mk_list (chars mark); (| sym "|<-"; sym "name" |); mk_list (text ": ");
     Cons (sym ("term:" ++ color)) (mk_list [mk_list (text word)])])) w (Ret v w')).
  { eapply f_prinl; [auto| |exact S5].
    eapply pieces_more with (t := mark); [|auto|exact S1|].
    { destruct mark; [congruence|]. apply f_text. }
    eapply pieces_more with (t := nm ++ repeat 32%N (n - length nm)); [| |exact S2|].
    { apply padder_runs; auto. }
    { apply Forall_app. split; auto. apply Forall_forall. intros x H. apply repeat_spec in H. subst. lia. }
    eapply pieces_more with (t := bs ": "); [apply f_word; discriminate|plain|exact S3|].
    eapply pieces_one with (t := escaped code (bs word)); [|apply escaped_bytes; auto|exact S4].
    apply (f_style O color code S false); auto. apply f_word; auto. }
  destruct P as [v P]. econstructor; [exact P|]. econstructor; [apply f_const; auto|]. constructor.
Qed.

(** ** One test *)
Definition attempt (S : env) (n : nat) (nm : bytes) (x acc : atom) (w : world) (b : atom) (w' : world) : Prop :=
  (x = Nil /\ says (report n (bs "! ") nm "0;31" "not found") w w' /\ b = Nil) \/
  (x <> Nil /\ kept "test" x /\ exists v w1, gives O S harness x w v w1 /\ ready3 S w1 /\
     (v = Tru /\ says (report n tick nm "0;32" "passed") w1 w' /\ b = truth (negb (is_null acc)) \/
      v <> Tru /\ says (report n (bs "! ") nm "0;31" "failed") w1 w' /\ b = Nil)).
Lemma schar_inj : forall a b, (a < 256)%N -> (b < 256)%N -> schar a = schar b -> a = b.
Proof.
  intros a b A B. unfold schar. destruct (Z.ltb_spec (Z.of_N a) 128), (Z.ltb_spec (Z.of_N b) 128); lia.
Qed.
Lemma same_chars : forall a b, is_bytes a -> is_bytes b -> same (mk_list (chars a)) (mk_list (chars b)) -> a = b.
Proof.
  intros a. induction a as [|x a IH]; intros [|y b] A B H; auto; try (inversion H; fail).
  inversion A; subst. inversion B; subst. inversion H as [ | | | | | |? ? ? ? ? ? Q1 Q2]; subst. inversion Q1.
  f_equal; [apply schar_inj; auto|apply IH; auto].
Qed.
Lemma finds_test : forall tests nm x, NoDup (map fst tests) -> Forall (fun p => is_bytes (fst p)) tests -> In (nm, x) tests ->
  finds (mk_list (chars nm)) (map (fun p : bytes * atom => (mk_list (chars (fst p)), snd p)) tests) x.
Proof.
  induction tests as [|[k y] tests IH]; intros nm x N B J; [destruct J|].
  inversion N; subst. inversion B as [|? ? B1 B2]; subst. cbn [map fst snd] in *. destruct J as [J|J].
  - injection J as -> ->. apply finds_here, same_refl.
  - apply finds_later; [|apply IH; auto]. intro X.
    assert (is_bytes nm) by (rewrite Forall_forall in B2; apply (B2 (nm, x) J)).
    apply same_chars in X; auto. subst k. apply H1. apply (in_map fst) in J. exact J.
Qed.
Lemma widest_in : forall tests nm x, In (nm, x) tests -> length nm <= widest tests.
Proof.
  induction tests as [|[k y] tests IH]; intros nm x J; [destruct J|]. cbn [widest fold_right fst]. destruct J as [J|J].
  - injection J as -> ->. apply Nat.le_max_l.
  - apply IH in J. unfold widest in J. lia.
Qed.

Section Exe.
Variables (S S3 Sc : env) (tests : list (bytes * atom)).
Notation n := (widest tests).
Hypothesis IS3 : increasing S3.
Hypothesis ISc : increasing Sc.
Hypothesis A3 : apart harness S S3.
Hypothesis Ac : apart harness S Sc.
Hypothesis Gc : env_get Sc (sy "TESTS") = Some (suite tests).
Hypothesis Nc : env_get Sc (sy "|<-") = None.
Hypothesis G3 : env_get S3 (sy "|<-") = Some (padder n).
Hypothesis ND : NoDup (map fst tests).
Hypothesis BT : Forall (fun p => is_bytes (fst p)) tests.
Hypothesis QT : Forall (fun p => is_tail_call (snd p) = false) tests.
Hypothesis B64 : int64 (Z.of_nat n).

Definition running : behaviour := fun vs w b w' => exists nm x acc,
  vs = [acc; Cons (mk_list (chars nm)) x] /\ In (nm, x) tests /\ ready3 S w /\ attempt S n nm x acc w b w'.
Lemma running_facts : forall vs w b w', running vs w b w' -> is_tail_call b = false /\ ready3 S w'.
Proof.
  intros vs w b w' (nm & x & acc & -> & J & R & [(-> & SA & ->)|(NX & K & v & w1 & GV & R1 & [(-> & SA & ->)|(NT & SA & ->)])]).
  - split; auto. eapply ready3_says; eauto.
  - split; [destruct acc; reflexivity|]. eapply ready3_says; eauto.
  - split; auto. eapply ready3_says; eauto.
Qed.
Lemma exe_acts : acts O S3 ["fun"; "acc"; "lst"]%string (lam pat_pars Sc [exe_body]) running.
Proof.
  apply acts_pat; [apply increasing_NoDup; auto|reflexivity| | |].
  - intros vs w b w' H. apply running_facts in H. destruct H as [Q R]. split; auto. intros _.
    eapply (ready3_apart harness S S3); [exact A3|reflexivity|auto].
  - intros vs w b w' (nm & x & acc & -> & _). eauto.
  - intros T T' acc a e w b w' IT APT INT RT (nm & x & acc' & EV & J & R & AT). injection EV as <- -> ->.
    assert (HT : apart harness S T).
    { eapply apart_trans; [exact A3|]. eapply apart_incl; [|exact APT]. intros s H. cbn in H |- *. tauto. }
    assert (HT' : apart harness S T').
    { eapply inside_apart_d; [exact INT| |exact Ac|exact HT]. intros s H. cbn in H |- *. tauto. }
    assert (IT' : increasing T') by apply INT.
    assert (G1 := inside_get _ _ _ _ _ (sy "acc") _ INT eq_refl).
    assert (G2 := inside_get _ _ _ _ _ (sy "name") _ INT eq_refl).
    assert (GT : env_get T' (sy "TESTS") = Some (suite tests)).
    { destruct INT as [_ G]. rewrite G. cbn [lget]. rewrite Gc. reflexivity. }
    assert (GP : env_get T' (sy "|<-") = Some (padder n)).
    { destruct INT as [_ G]. rewrite G. cbn [lget]. rewrite Nc. rewrite apart_get in APT. rewrite APT by (apply none_of; reflexivity).
      rewrite G3. reflexivity. }
    assert (RW : forall wx X, ready3 S wx -> apart harness S X -> ready3 X wx).
    { intros wx X RX AX. eapply ready3_apart; [exact AX|reflexivity|exact RX]. }
    assert (RT' : ready3 T' w) by auto.
    assert (K : kept "test" x).
    { destruct AT as [(-> & _)|(_ & K & _)]; auto. left. reflexivity. }
    assert (Bn : is_bytes nm) by (rewrite Forall_forall in BT; apply (BT (nm, x) J)).
    assert (Ln : length nm <= n) by (eapply widest_in; eauto).
    apply (f_let O T' false [("test"%string, (| sym "assoc"; sym "name"; sym "TESTS" |))] [exe_in] w [x] w); [auto|apply RT'| |].
    + eapply lets_cons with (w1 := w); [intros T2 IN2|exact K|constructor].
      assert (AP2 := inside_apart _ _ _ _ IN2).
      assert (R2 : ready T2 w) by (eapply ready_apart; [exact AP2|reflexivity|apply RT']).
      apply (assoc_ok O (mk_list (chars nm)) (map (fun p : bytes * atom => (mk_list (chars (fst p)), snd p)) tests) x
        (finds_test tests nm x ND BT J)) with (S := T2) (w := w) (es := [sym "name"; sym "TESTS"]);
        [|apply IN2|auto|apply ready_means; [auto|cbn; tauto]|].
      * apply Forall_forall. intros p H. apply in_map_iff in H. destruct H as [q [<- H]]. cbn [fst snd].
        split; [apply mk_quiet|]. rewrite Forall_forall in QT. auto.
      * apply list2 with w; apply get_sym.
        -- rewrite <- G2. apply (inside_keep _ _ _ _ _ IN2). reflexivity.
        -- fold (suite tests). rewrite <- GT. apply (inside_keep _ _ _ _ _ IN2). reflexivity.
    + intros T2 IN2. apply body_one.
      assert (I2 : increasing T2) by apply IN2.
      assert (AP2 : apart harness S T2).
      { eapply apart_trans; [exact HT'|]. eapply apart_incl; [|exact (inside_apart _ _ _ _ IN2)]. intros s H. cbn in H |- *. tauto. }
      assert (H1 : env_get T2 (sy "acc") = Some acc) by (rewrite <- G1; apply (inside_keep _ _ _ _ _ IN2); reflexivity).
      assert (H2 : env_get T2 (sy "name") = Some (mk_list (chars nm))) by (rewrite <- G2; apply (inside_keep _ _ _ _ _ IN2); reflexivity).
      assert (H3 : env_get T2 (sy "|<-") = Some (padder n)) by (rewrite <- GP; apply (inside_keep _ _ _ _ _ IN2); reflexivity).
      assert (H4 := inside_get _ _ _ _ _ (sy "test") x IN2 eq_refl).
      assert (RT2 : ready3 T2 w) by auto. assert (R2 : ready T2 w) by apply RT2.
      eapply f_if; [auto|apply get_sym; exact H4|].
      destruct AT as [(-> & SA & ->)|(NX & _ & v & w1 & GV & R1 & AT)].
      * cbn [is_null car cdr]. apply (line_runs T2 (bs "! ") "red" "0;31" "not found" Nil n nm w w');
          auto; try plain; try discriminate; [cbn; tauto|cbn; tauto|apply means_get; auto].
      * replace (is_null x) with false by (destruct x; auto; congruence). cbn [car cdr].
        assert (RC : ready3 T2 w1) by auto.
        assert (EX : Runs T2 (| sym "eval"; sym "test" |) w (Ret v w1)).
        { apply eval_runs; [known|]. left. exists x, w. split; [apply get_sym; auto|]. apply GV; auto. }
        assert (TR : exists r, answer (v = Tru) r /\ Runs T2 (mk_list [sym "tru?"; (| sym "eval"; sym "test" |)]) w (Ret r w1)).
        { destruct (test_of "tru?" v) eqn:TV; [exists Tru|exists Nil].
          - assert (EV : v = Tru) by (apply (test_is "tru?" _ v p_tru); auto). split; [left; auto|].
            apply (predicate_runs O "tru?" _ T2 false false false _ w _ p_tru); [known3|].
            left. exists v, w1. split; auto. exists Tru. split; auto. left; auto.
          - assert (EV : v <> Tru) by (intro X; apply (test_is "tru?" _ v p_tru) in X; congruence). split; [right; auto|].
            apply (predicate_runs O "tru?" _ T2 false false false _ w _ p_tru); [known3|].
            left. exists v, w1. split; auto. exists Nil. split; auto. right; auto. }
        destruct TR as [r [AN TR]].
        destruct AT as [(-> & SA & ->)|(NT & SA & ->)].
        -- destruct AN as [[_ ->]|[AN _]]; [|congruence].
           replace (truth (negb (is_null acc))) with (val2 "and" acc Tru) by (destruct acc; reflexivity).
           eapply (f_two O "and"); [cbn; tauto|auto|apply get_sym; exact H1|].
           apply cond_call_runs; [known3|]. eapply cond_yes; [discriminate|exact TR|].
           apply (line_runs T2 tick "green" "0;32" "passed" Tru n nm w1 w');
             auto; try plain; try discriminate; [cbn; tauto|cbn; tauto|apply means_get; auto].
        -- destruct AN as [[AN _]|[_ ->]]; [congruence|].
           replace (Ret Nil w') with (Ret (val2 "and" acc Nil) w') by (destruct acc; reflexivity).
           eapply (f_two O "and"); [cbn; tauto|auto|apply get_sym; exact H1|].
           apply cond_call_runs; [known3|]. eapply cond_no; [discriminate|exact TR|discriminate|].
           apply cond_default.
           apply (line_runs T2 (bs "! ") "red" "0;31" "failed" Nil n nm w1 w');
             auto; try plain; try discriminate; [cbn; tauto|cbn; tauto|apply means_get; auto].
Qed.
Lemma tries_fold : forall l w b w' z, tries O S n l w b w' -> incl l tests -> ready3 S w ->
  folds_left running (map (fun p => Cons (mk_list (chars (fst p))) (snd p)) l) (truth z) w (truth (z && b)) w' /\ ready3 S w'.
Proof.
  intros l w b w' z H. revert z. induction H as [w|nm x l w w1 w2 b w3 NX K Q GV R1 SA H IH|nm x l w v w1 w2 b w3 NX K Q GV NT R1 SA H IH|nm l w w1 b w2 SA H IH];
    intros z IL R; cbn [map fst snd].
  - rewrite Bool.andb_true_r. split; [constructor|auto].
  - assert (R2 : ready3 S w2) by (eapply ready3_says; eauto).
    destruct (IH z) as [F R3]; [intros p J; apply IL; cbn; auto|auto|]. split; auto.
    econstructor; [|exact F]. exists nm, x, (truth z). split; [reflexivity|]. split; [apply IL; cbn; auto|]. split; [exact R|].
    right. split; auto. split; auto. exists Tru, w1. split; [exact GV|]. split; [exact R1|]. left. split; auto. split; auto. destruct z; reflexivity.
  - assert (R2 : ready3 S w2) by (eapply ready3_says; eauto).
    destruct (IH false) as [F R3]; [intros p J; apply IL; cbn; auto|auto|]. cbn [andb] in F. rewrite Bool.andb_false_r. split; auto.
    econstructor; [|exact F]. exists nm, x, (truth z). split; [reflexivity|]. split; [apply IL; cbn; auto|]. split; [exact R|].
    right. split; auto. split; auto. exists v, w1. split; [exact GV|]. split; [exact R1|]. right. auto.
  - assert (R2 : ready3 S w1) by (eapply ready3_says; eauto).
    destruct (IH false) as [F R3]; [intros p J; apply IL; cbn; auto|auto|]. cbn [andb] in F. rewrite Bool.andb_false_r. split; auto.
    econstructor; [|exact F]. exists nm, Nil, (truth z). split; [reflexivity|]. split; [apply IL; cbn; auto|]. split; [exact R|].
    left. auto.
Qed.
End Exe.
Lemma tries_quiet : forall S n l w b w', tries O S n l w b w' -> Forall (fun p => is_tail_call (snd p) = false) l.
Proof. induction 1; constructor; auto. Qed.

(** ** The header *)
Lemma header_runs : forall S d name w w', increasing S -> increasing d -> ready3 S w -> ready3 d w ->
  env_get d (sy "SUITE") = Some (mk_list (chars name)) -> is_bytes name -> says (header name) w w' ->
  exists v, is_tail_call v = false /\ applied O S (lam (pars []) d [hdr_body]) [] w (Ret v w').
Proof.
  intros S d name w w' I Id R Rd G B SA.
  unfold header in SA. inversion SA as [|? ? ? w1 ? S1 SA1]; subst. inversion SA1 as [|? ? ? w2 ? S2 SA2]; subst.
  inversion SA2 as [|? ? ? w3 ? S3 SA3]; subst. inversion SA3 as [|? ? ? w4 ? S4 SA4]; subst. inversion SA4; subst.
  assert (Q1 : says [escaped "1" (bs "[")] w w1) by (econstructor; [exact S1|constructor]).
  assert (Q2 : says [escaped "1" (bs "["); escaped "1" name] w w2) by (econstructor; [exact S1|]; econstructor; [exact S2|constructor]).
  exists (mk_list (chars (escaped "1" (bs "]")))). split; [apply mk_quiet|].
  apply apply_fun; [auto|apply increasing_NoDup; auto|discriminate|auto|apply mk_quiet|].
  intros S' IN. apply body_one. assert (I' : increasing S') by apply IN.
  assert (R0 : ready3 S' w) by (eapply inside_ready3; [exact IN|reflexivity|auto|auto]).
  assert (R1 : ready3 S' w1) by (eapply ready3_says; eauto). assert (R2 : ready3 S' w2) by (eapply ready3_says; eauto).
  assert (G' : env_get S' (sy "SUITE") = Some (mk_list (chars name))).
  { destruct IN as [_ X]. rewrite X. cbn [map combine lget env_get]. rewrite G. reflexivity. }
  assert (ST : forall x b wx, ready3 S' wx -> Runs S' x wx (Ret (mk_list (chars b)) wx) ->
    Runs S' (Cons (sym "term:bold") (mk_list [x])) wx (Ret (mk_list (chars (escaped "1" b))) wx)).
  { intros x b wx Rx E. apply (f_style O "bold" "1" S' false); auto; cbn; tauto. }
  eapply print_runs; [apply pr_prinl|known3| |exact S4].
  eapply writes_next; [apply ST; [auto|apply f_word; discriminate]|apply chars_leaf, escaped_bytes; plain|exact S1|reflexivity|].
  eapply writes_next; [apply ST; [auto|apply get_sym; exact G']|apply chars_leaf, escaped_bytes; [plain|exact B]|exact S2|reflexivity|].
  eapply writes_last; [apply ST; [auto|apply f_word; discriminate]|apply chars_leaf, escaped_bytes; plain|exact S3].
Qed.

(** ** The suite *)
Lemma test_run_ok : forall S t e name tests b argv w0 w1 w2 w3,
  means S w0 (sy "test:run") (lib4 "test:run") -> increasing S -> env_get S (sy "|<-") = None ->
  Runs S e w0 (Ret (mk_list (chars name)) w1) -> is_bytes name ->
  Forall (fun p => is_bytes (fst p)) tests -> NoDup (map fst tests) -> int64 (Z.of_nat (widest tests)) ->
  ready3 S w1 -> means S w1 (sy "ARGV") argv -> cdr argv = Nil ->
  says (header name) w1 w2 -> tries O S (widest tests) tests w2 b w3 ->
  Runs S (Pair t (sym "test:run") (Cons e (suite tests))) w0 (Ret (truth b) w3).
Proof.
  intros S t e name tests b argv w0 w1 w2 w3 M I NB E Bn BT ND B64 R MA CA SH TR.
  change (Cons e (suite tests)) with (arg_list [e] (suite tests)). rewrite lib4_run in M.
  eapply (call_any O S t (sy "test:run") [sym "SUITE"] (sym "TESTS") [] [let_of run_lets [run_in]] [e] (suite tests) [mk_list (chars name)] w0 w1);
    [exact M|auto|constructor|discriminate|repeat constructor; apply linear_sym|reflexivity|apply list1; exact E| | |destruct b; reflexivity|].
  { constructor; [apply layer_bind, linear_sym|constructor]. }
  { apply rest_some. }
  intros S1 I1 G1. apply body_one. cbn [bind app lget env_get] in G1.
  assert (IN1 : inside ["SUITE"; "TESTS"]%string [mk_list (chars name); suite tests] [] S S1).
  { split; auto. intro k. rewrite G1. cbn [map combine lget env_get]. destruct (sym_match (sy "SUITE") k); auto. }
  assert (AP1 := inside_apart _ _ _ _ IN1).
  assert (HA : forall ks vs S2, incl ks harness -> inside ks vs [] S1 S2 -> apart harness S S2).
  { intros ks vs S2 IK IN2. eapply apart_trans; [eapply apart_incl; [|exact AP1]|eapply apart_incl; [|apply (inside_apart _ _ _ _ IN2)]]; auto.
    intros s H. cbn in H |- *. tauto. }
  assert (RW : forall wx X, ready3 S wx -> apart harness S X -> ready3 X wx).
  { intros wx X RX AX. eapply ready3_apart; [exact AX|reflexivity|exact RX]. }
  assert (GS : env_get S1 (sy "SUITE") = Some (mk_list (chars name))) by (rewrite G1; reflexivity).
  assert (GT : env_get S1 (sy "TESTS") = Some (suite tests)) by (rewrite G1; reflexivity).
  assert (NB1 : env_get S1 (sy "|<-") = None).
  { rewrite (inside_keep _ _ _ _ (sy "|<-") IN1) by reflexivity. exact NB. }
  assert (R1 : ready3 S1 w1) by (apply RW; auto; eapply apart_incl; [|exact AP1]; intros s H; cbn in H |- *; tauto).
  destruct (slices_inside ["args"%string] [Nil] S1 I1) as [Sa [_ INa]].
  set (hdr := lam (pars []) Sa [hdr_body]).
  destruct (slices_inside ["args"; "hdr"]%string [Nil; hdr] S1 I1) as [Sb [_ INb]].
  set (pad := lam (pars ["LST"]%string) Sb [pad_body]).
  destruct (slices_inside ["args"; "hdr"; "pad"]%string [Nil; hdr; pad] S1 I1) as [Sc [_ INc]].
  set (exe := lam pat_pars Sc [exe_body]).
  assert (Ia : increasing Sa) by apply INa. assert (Ib : increasing Sb) by apply INb. assert (Ic : increasing Sc) by apply INc.
  assert (Aa : apart harness S Sa) by (eapply HA; [|exact INa]; intros s H; cbn in H |- *; tauto).
  assert (Ab : apart harness S Sb) by (eapply HA; [|exact INb]; intros s H; cbn in H |- *; tauto).
  assert (Ac : apart harness S Sc) by (eapply HA; [|exact INc]; intros s H; cbn in H |- *; tauto).
  apply (f_let O S1 false run_lets [run_in] w1 [Nil; hdr; pad; exe] w1); [auto|apply R1| |].
  - eapply lets_cons with (w1 := w1); [intros X IN|left; reflexivity|].
    { assert (AX : apart harness S X) by (eapply (HA [] []); [intros s []|exact IN]).
      apply (parse_none X w1 argv (proj1 IN) (RW _ _ R AX)) with (es := [sym "options"]) (w0 := w1).
      - eapply means_apart; [exact AX|reflexivity|exact MA].
      - exact CA.
      - apply ready3_means; [auto|cbn; tauto].
      - apply list1, f_sym. apply ready3_means; [auto|cbn; tauto]. }
    eapply lets_cons with (w1 := w1); [intros X IN|right; vm_compute; reflexivity|].
    { rewrite (inside_unique _ _ _ _ _ _ IN INa). apply f_lambda. apply RW; auto. }
    eapply lets_cons with (w1 := w1); [intros X IN|right; vm_compute; reflexivity|].
    { rewrite (inside_unique _ _ _ _ _ _ IN INb). apply f_lambda. apply RW; auto. }
    eapply lets_cons with (w1 := w1); [intros X IN|right; vm_compute; reflexivity|constructor].
    { rewrite (inside_unique _ _ _ _ _ _ IN INc). apply f_lambda. apply RW; auto. }
  - intros S2 IN2. apply body_one. cbn [map fst] in IN2.
    assert (I2 : increasing S2) by apply IN2.
    assert (A2 : apart harness S S2) by (eapply HA; [|exact IN2]; intros s H; cbn in H |- *; tauto).
    assert (R2 : ready3 S2 w1) by auto. assert (R2' : ready S2 w1) by apply R2.
    assert (H1 := inside_get _ _ _ _ _ (sy "args") _ IN2 eq_refl).
    assert (H2 := inside_get _ _ _ _ _ (sy "hdr") _ IN2 eq_refl).
    assert (H3 := inside_get _ _ _ _ _ (sy "pad") _ IN2 eq_refl).
    assert (H4 := inside_get _ _ _ _ _ (sy "exe") _ IN2 eq_refl).
    assert (H5 : env_get S2 (sy "TESTS") = Some (suite tests)) by (rewrite <- GT; apply (inside_keep _ _ _ _ _ IN2); reflexivity).
    eapply f_if; [auto|apply has_none; auto; discriminate|]. cbn [is_null car cdr].
    apply (f_let O S2 false [("|<-"%string, (| sym "term:left"; (| sym "pad"; sym "TESTS" |) |))]
      [(| sym "if"; (| sym "has"; sym "args"; mk_list (text "-l") |); list_them; run_them |)] w1 [padder (widest tests)] w1); [auto|auto| |].
    + eapply lets_cons with (w1 := w1); [intros X IN|right; vm_compute; reflexivity|constructor].
      assert (AX : apart harness S X).
      { eapply apart_trans; [exact A2|]. eapply apart_incl; [|exact (inside_apart _ _ _ _ IN)]. intros s []. }
      assert (RX : ready3 X w1) by auto.
      assert (GX : forall k, env_get X k = env_get S2 k) by (intro k; apply (inside_keep _ _ _ _ _ IN); reflexivity).
      apply (part_fun O X false (sy "term:left") "WLEN" "STR" [fit_let left_in] (| sym "pad"; sym "TESTS" |) w1); [discriminate| |].
      * rewrite <- lib4_left. apply ready3_means; [auto|cbn; tauto].
      * apply (pad_ok X Sb tests w1 (proj1 IN) Ib RX (RW _ _ R Ab)) with (es := [sym "TESTS"]); [apply means_get; rewrite GX; exact H3|].
        apply list1, get_sym. rewrite GX. exact H5.
    + intros S3 IN3. apply body_one. cbn [map fst] in IN3.
      assert (I3 : increasing S3) by apply IN3.
      assert (A3 : apart harness S S3).
      { eapply apart_trans; [exact A2|]. eapply apart_incl; [|exact (inside_apart _ _ _ _ IN3)]. intros s H; cbn in H |- *; tauto. }
      assert (R3 : ready3 S3 w1) by auto. assert (R3' : ready S3 w1) by apply R3.
      assert (J0 := inside_get _ _ _ _ _ (sy "|<-") _ IN3 eq_refl).
      assert (J1 : env_get S3 (sy "args") = Some Nil) by (rewrite <- H1; apply (inside_keep _ _ _ _ _ IN3); reflexivity).
      assert (J2 : env_get S3 (sy "hdr") = Some hdr) by (rewrite <- H2; apply (inside_keep _ _ _ _ _ IN3); reflexivity).
      assert (J4 : env_get S3 (sy "exe") = Some exe) by (rewrite <- H4; apply (inside_keep _ _ _ _ _ IN3); reflexivity).
      assert (J5 : env_get S3 (sy "TESTS") = Some (suite tests)) by (rewrite <- H5; apply (inside_keep _ _ _ _ _ IN3); reflexivity).
      eapply f_if; [auto|apply has_none; auto; discriminate|]. cbn [is_null car cdr].
      eapply f_when; [auto|one "not"%string; apply has_none; auto; discriminate|].
      cbn [val1 String.eqb Ascii.eqb Bool.eqb is_null truth].
      assert (Ga : env_get Sa (sy "SUITE") = Some (mk_list (chars name))) by (rewrite <- GS; apply (inside_keep _ _ _ _ _ INa); reflexivity).
      destruct (header_runs S3 Sa name w1 w2 I3 Ia R3 (RW _ _ R Aa) Ga Bn SH) as [v [_ HR]].
      econstructor; [apply (HR (sy "hdr") false [] w1); [apply means_get; exact J2|constructor]|].
      assert (FIN : Runs S3 (| sym "foldl"; sym "exe"; Tru; sym "TESTS" |) w2 (Ret (truth b) w3)); [|econstructor; [exact FIN|constructor]].
      assert (RS2 : ready3 S w2) by (eapply ready3_says; eauto).
      destruct (tries_fold S tests tests w2 b w3 true TR (fun p H => H) RS2) as [FL RS3]. cbn [andb truth] in FL.
      change (Runs S3 (Pair false (sym "foldl") (mk_list [sym "exe"; Tru; sym "TESTS"])) w2 (Ret (truth b) w3)).
      eapply (call_foldl O S3 exe (running S tests) (map (fun p => Cons (mk_list (chars (fst p))) (snd p)) tests) Tru w2);
        [|exact FL|reflexivity|auto|apply (RW _ S3 RS2 A3)|apply (RW _ S3 RS2 A3)|].
      * apply exe_acts; auto.
        -- rewrite <- GT. apply (inside_keep _ _ _ _ _ INc). reflexivity.
        -- rewrite <- NB1. apply (inside_keep _ _ _ _ _ INc). reflexivity.
        -- eapply tries_quiet; eauto.
      * apply list3 with w2 w2; [apply get_sym; auto|apply f_const; auto|apply get_sym]. rewrite <- suite_list. exact J5.
Qed.
End Run.
