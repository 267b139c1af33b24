(** * LibProofs: the list functions of the library. *)
From Verif Require Import Base Value ValueSpec ValueProofs Tails Print Eval EvalSpec EvalProofs
  Sem1 Sem2 Sem3 Sem4 Sem5 TailsProofs TailsSem BuiltinSpec Sem6 Cases Lib LibSpec LibBase.
Open Scope nat_scope.

(** The parameter [k] of the running function. *)
Ltac arg := eapply f_sym; eapply inside_arg; [eassumption|reflexivity].
Ltac one s := eapply (f_one _ s); [cbn; tauto|assumption|].
Ltac two s := eapply (f_two _ s); [cbn; tauto|assumption| |].

(** ** The definitions, as stored *)
Notation map_body :=
  (| sym "if"; (| sym "and"; (| sym "not"; (| sym "nil?"; sym "lst" |) |); (| sym "lst?"; sym "lst" |) |);
     (| sym "cons"; (| sym "fun"; (| sym "car"; sym "lst" |) |);
                    (| sym "map"; sym "fun"; (| sym "cdr"; sym "lst" |) |) |);
     sym "lst" |).
Lemma lib_map : lib "map" = lam (pars ["fun"; "lst"]%string) [] [map_body].
Proof. vm_compute. reflexivity. Qed.
Notation foldr_body :=
  (| sym "if"; (| sym "lst?"; sym "lst" |);
     (| sym "if"; (| sym "nil?"; sym "lst" |); sym "acc";
        (| sym "fun"; (| sym "car"; sym "lst" |);
                      (| sym "foldr"; sym "fun"; (| sym "cdr"; sym "lst" |); sym "acc" |) |) |);
     (| sym "fun"; sym "lst"; sym "acc" |) |).
Lemma lib_foldr : lib "foldr" = lam (pars ["fun"; "lst"; "acc"]%string) [] [foldr_body].
Proof. vm_compute. reflexivity. Qed.
Notation foldl_body :=
  (| sym "if"; (| sym "lst?"; sym "lst" |);
     (| sym "if"; (| sym "nil?"; sym "lst" |); sym "acc";
        (| Sym true (sy "foldl"); sym "fun"; (| sym "fun"; sym "acc"; (| sym "car"; sym "lst" |) |);
           (| sym "cdr"; sym "lst" |) |) |);
     (| sym "fun"; sym "acc"; sym "lst" |) |).
Lemma lib_foldl : lib "foldl" = lam (pars ["fun"; "acc"; "lst"]%string) [] [foldl_body].
Proof. vm_compute. reflexivity. Qed.
Notation map2_body :=
  (| sym "if"; (| sym "and"; (| sym "and"; (| sym "not"; (| sym "nil?"; sym "lst1" |) |); (| sym "lst?"; sym "lst1" |) |);
                             (| sym "and"; (| sym "not"; (| sym "nil?"; sym "lst2" |) |); (| sym "lst?"; sym "lst2" |) |) |);
     (| sym "cons"; (| sym "fun"; (| sym "car"; sym "lst1" |); (| sym "car"; sym "lst2" |) |);
                    (| sym "map2"; sym "fun"; (| sym "cdr"; sym "lst1" |); (| sym "cdr"; sym "lst2" |) |) |) |).
Lemma lib_map2 : lib "map2" = lam (pars ["fun"; "lst1"; "lst2"]%string) [] [map2_body].
Proof. vm_compute. reflexivity. Qed.

Section Lib.
Variable O : oracle.
Notation Runs := (runs O).

Lemma mk_quiet : forall l, is_tail_call (mk_list l) = false.
Proof. destruct l; auto. Qed.

Lemma call_acts : forall c hid f F S vs w b w' t h es w0, acts O c hid f F -> F vs w b w' -> increasing S ->
  apart hid c S -> ready c w -> means S w0 h f -> runs_list O S es w0 (Ret vs w) ->
  Runs S (Pair t (Symb h) (mk_list es)) w0 (Ret b w').
Proof. intros c hid f F S vs w b w' t h es w0 A HF I AP R M L. eapply (proj1 A); eauto. Qed.
Lemma acts_keep : forall c hid f F vs w b w', acts O c hid f F -> F vs w b w' -> ready c w -> ready c w'.
Proof. intros c hid f F vs w b w' A HF. apply A in HF. tauto. Qed.
Lemma acts_quiet : forall c hid f F vs w b w', acts O c hid f F -> F vs w b w' -> is_tail_call b = false.
Proof. intros c hid f F vs w b w' A HF. apply A in HF. tauto. Qed.

(** ** map *)
Section Map.
Variables (c : env) (f : atom) (F : behaviour).
Notation hid := ["fun"; "lst"]%string.
Hypothesis A : acts O c hid f F.

Lemma map_ok : forall l w bs w', maps F l w bs w' -> ready c w ->
  forall S, increasing S -> apart hid c S -> applied O S (lib "map") [f; mk_list l] w (Ret (mk_list bs) w').
Proof.
  intros l w bs w' H. induction H as [w|a l w b w1 bs w2 HF H IH]; intros R S I AP;
    rewrite lib_map; (apply apply_fun0; [auto|auto|apply mk_quiet|]); intros S' IN;
    assert (AP' := apart_trans _ _ _ _ AP (inside_apart _ _ _ _ IN));
    assert (R' : ready S' w) by (eapply ready_apart; eauto).
  - eapply f_if; [auto|two "and"%string; [one "not"%string; one "nil?"%string; arg|one "lst?"%string; arg]|].
    cbn. arg.
  - assert (R1 : ready c w1) by (apply A in HF; tauto).
    assert (R1' : ready S' w1) by (eapply ready_apart; eauto).
    eapply f_if; [auto|two "and"%string; [one "not"%string; one "nil?"%string; arg|one "lst?"%string; arg]|].
    cbn [val2 val1 String.eqb Ascii.eqb Bool.eqb truth negb is_null andb is_list mk_list car cdr].
    change (mk_list (b :: bs)) with (val2 "cons" b (mk_list bs)).
    eapply (f_two O "cons" S' _ _ _ _ _ _ w b w1 (mk_list bs) w2); [cbn; tauto|auto| |].
    + change (Runs S' (Pair false (sym "fun") (mk_list [(| sym "car"; sym "lst" |)])) w (Ret b w1)).
      eapply call_acts; [exact A|exact HF|apply IN|exact AP'|exact R|eapply inside_arg; [eauto|reflexivity]|].
      apply list1. change a with (val1 "car" (mk_list (a :: l))). one "car"%string. arg.
    + change (Runs S' (Pair false (sym "map") (mk_list [sym "fun"; (| sym "cdr"; sym "lst" |)])) w1 (Ret (mk_list bs) w2)).
      eapply (IH R1 S'); [destruct IN; auto|exact AP'|apply ready_means; [auto|cbn; tauto]|].
      apply list2 with w1; [arg|]. change (mk_list l) with (val1 "cdr" (mk_list (a :: l))). one "cdr"%string. arg.
Qed.
End Map.

(** ** foldr *)
Section Foldr.
Variables (c : env) (f : atom) (F : behaviour).
Notation hid := ["fun"; "lst"; "acc"]%string.
Hypothesis A : acts O c hid f F.

Lemma foldr_facts : forall z l w r w', folds_right F z l w r w' -> ready c w -> is_tail_call z = false ->
  ready c w' /\ is_tail_call r = false.
Proof.
  intros z l w r w' H R Q. induction H as [w|a l w r w1 b w2 H IH HF]; auto.
  destruct (IH R) as [R1 _]. split; [eapply acts_keep; eauto|eapply acts_quiet; eauto].
Qed.
Lemma foldr_ok : forall z l w r w', folds_right F z l w r w' -> ready c w -> is_tail_call z = false ->
  forall S, increasing S -> apart hid c S -> applied O S (lib "foldr") [f; mk_list l; z] w (Ret r w').
Proof.
  intros z l w r w' H R Q. assert (X := foldr_facts _ _ _ _ _ H R Q).
  induction H as [w|a l w r w1 b w2 H IH HF]; intros S I AP;
    rewrite lib_foldr; (apply apply_fun0; [auto|auto|tauto|]); intros S' IN;
    assert (AP' := apart_trans _ _ _ _ AP (inside_apart _ _ _ _ IN));
    assert (R' : ready S' w) by (eapply ready_apart; eauto).
  - eapply f_if; [auto|one "lst?"%string; arg|].
    cbn [val1 String.eqb Ascii.eqb Bool.eqb truth is_null is_list mk_list car cdr].
    eapply f_if; [auto|one "nil?"%string; arg|]. cbn. arg.
  - destruct (foldr_facts _ _ _ _ _ H R Q) as [R1 Q1].
    eapply f_if; [auto|one "lst?"%string; arg|].
    cbn [val1 String.eqb Ascii.eqb Bool.eqb truth is_null is_list mk_list car cdr].
    eapply f_if; [auto|one "nil?"%string; arg|].
    cbn [val1 String.eqb Ascii.eqb Bool.eqb truth is_null is_list mk_list car cdr].
    change (Runs S' (Pair false (sym "fun") (mk_list [(| sym "car"; sym "lst" |);
      (| sym "foldr"; sym "fun"; (| sym "cdr"; sym "lst" |); sym "acc" |)])) w (Ret b w2)).
    eapply call_acts; [exact A|exact HF|apply IN|exact AP'|exact R1|eapply inside_arg; [eauto|reflexivity]|].
    apply list2 with w.
    + change a with (val1 "car" (mk_list (a :: l))). one "car"%string. arg.
    + change (Runs S' (Pair false (sym "foldr") (mk_list [sym "fun"; (| sym "cdr"; sym "lst" |); sym "acc"])) w (Ret r w1)).
      eapply (IH R (conj R1 Q1) S'); [apply IN|exact AP'|apply ready_means; [auto|cbn; tauto]|].
      apply list3 with w w; [arg| |arg].
      change (mk_list l) with (val1 "cdr" (mk_list (a :: l))). one "cdr"%string. arg.
Qed.
End Foldr.

(** ** foldl *)
Section Foldl.
Variables (c : env) (f : atom) (F : behaviour).
Notation hid := ["fun"; "acc"; "lst"]%string.
Hypothesis A : acts O c hid f F.

Lemma foldl_turns : forall l z w r w', folds_left F l z w r w' -> ready c w -> is_tail_call z = false ->
  forall S, increasing S -> apart hid c S ->
  turns O S [] (sy "foldl") hid [foldl_body] [f; z; mk_list l] w r w'.
Proof.
  intros l z w r w' H. induction H as [z w|a l z w z1 w1 r w2 HF H IH]; intros R Q S I AP.
  - apply turn_done; auto; [constructor|]. intros S' IN.
    assert (AP' := apart_trans _ _ _ _ AP (inside_apart _ _ _ _ IN)).
    assert (R' : ready S' w) by (eapply ready_apart; eauto). apply body_one.
    eapply f_if; [auto|one "lst?"%string; arg|].
    cbn [val1 String.eqb Ascii.eqb Bool.eqb truth is_null is_list mk_list car cdr].
    eapply f_if; [auto|one "nil?"%string; arg|]. cbn. arg.
  - assert (R1 : ready c w1) by (eapply acts_keep; eauto).
    assert (Q1 : is_tail_call z1 = false) by (eapply acts_quiet; eauto).
    eapply turn_next; [auto|constructor|auto| |apply (IH R1 Q1 S I AP)]. intros S' IN.
    assert (AP' := apart_trans _ _ _ _ AP (inside_apart _ _ _ _ IN)).
    assert (R' : ready S' w) by (eapply ready_apart; eauto).
    assert (R1' : ready S' w1) by (eapply ready_apart; eauto). apply body_one.
    eapply f_if; [auto|one "lst?"%string; arg|].
    cbn [val1 String.eqb Ascii.eqb Bool.eqb truth is_null is_list mk_list car cdr].
    eapply f_if; [auto|one "nil?"%string; arg|].
    cbn [val1 String.eqb Ascii.eqb Bool.eqb truth is_null is_list mk_list car cdr].
    change (Runs S' (Pair false (Sym true (sy "foldl")) (mk_list [sym "fun";
      (| sym "fun"; sym "acc"; (| sym "car"; sym "lst" |) |); (| sym "cdr"; sym "lst" |)])) w
      (Ret (again (sy "foldl") hid [f; z1; mk_list l]) w1)).
    apply (marked_call O S' false [] (sy "foldl") hid [foldl_body]); [discriminate|auto|rewrite <- lib_foldl; apply ready_means; [auto|cbn; tauto]|].
    apply list3 with w w1; [arg| |].
    + change (Runs S' (Pair false (sym "fun") (mk_list [sym "acc"; (| sym "car"; sym "lst" |)])) w (Ret z1 w1)).
      eapply call_acts; [exact A|exact HF|apply IN|exact AP'|exact R|eapply inside_arg; [eauto|reflexivity]|].
      apply list2 with w; [arg|].
      change a with (val1 "car" (mk_list (a :: l))). one "car"%string. arg.
    + change (mk_list l) with (val1 "cdr" (mk_list (a :: l))). one "cdr"%string. arg.
Qed.
Lemma foldl_ok : forall l z w r w', folds_left F l z w r w' -> ready c w -> is_tail_call z = false ->
  forall S, increasing S -> apart hid c S ->
  answers O S (sy "foldl") (lib "foldl") [f; z; mk_list l] w (Ret r w').
Proof.
  intros. rewrite lib_foldl. apply turns_answer; [discriminate|auto|]. apply foldl_turns; auto.
Qed.
Lemma foldl_facts : forall l z w r w', folds_left F l z w r w' -> ready c w -> is_tail_call z = false ->
  ready c w' /\ is_tail_call r = false.
Proof.
  intros l z w r w' H. induction H as [z w|a l z w z1 w1 r w2 HF H IH]; intros R Q; auto.
  apply IH; [eapply acts_keep; eauto|eapply acts_quiet; eauto].
Qed.
End Foldl.

(** ** map2 *)
Section Map2.
Variables (c : env) (f : atom) (F : behaviour).
Notation hid := ["fun"; "lst1"; "lst2"]%string.
Hypothesis A : acts O c hid f F.
Lemma map2_ok : forall l1 l2 w bs w', maps2 F l1 l2 w bs w' -> ready c w ->
  forall S, increasing S -> apart hid c S ->
  applied O S (lib "map2") [f; mk_list l1; mk_list l2] w (Ret (mk_list bs) w').
Proof.
  intros l1 l2 w bs w' H. induction H as [l w|l w|a1 l1 a2 l2 w b w1 bs w2 HF H IH]; intros R S I AP;
    rewrite lib_map2; (apply apply_fun0; [auto|auto|apply mk_quiet|]); intros S' IN;
    assert (AP' := apart_trans _ _ _ _ AP (inside_apart _ _ _ _ IN));
    assert (R' : ready S' w) by (eapply ready_apart; eauto);
    (eapply f_if; [auto|two "and"%string;
       [two "and"%string; [one "not"%string; one "nil?"%string; arg|one "lst?"%string; arg]|
        two "and"%string; [one "not"%string; one "nil?"%string; arg|one "lst?"%string; arg]]|]).
  - cbn. apply f_const. auto.
  - match goal with |- runs _ _ (if ?b then _ else _) _ _ => assert (E : b = true) by (destruct l; reflexivity); rewrite E end.
    cbn. apply f_const. auto.
  - cbn [val2 val1 String.eqb Ascii.eqb Bool.eqb truth negb is_null andb is_list mk_list car cdr].
    assert (R1 : ready c w1) by (eapply acts_keep; eauto).
    assert (R1' : ready S' w1) by (eapply ready_apart; eauto).
    change (Cons b (mk_list bs)) with (val2 "cons" b (mk_list bs)).
    eapply (f_two O "cons" S' _ _ _ _ _ _ w b w1 (mk_list bs) w2); [cbn; tauto|auto| |].
    + change (Runs S' (Pair false (sym "fun") (mk_list [(| sym "car"; sym "lst1" |); (| sym "car"; sym "lst2" |)])) w (Ret b w1)).
      eapply call_acts; [exact A|exact HF|apply IN|exact AP'|exact R|eapply inside_arg; [eauto|reflexivity]|].
      apply list2 with w.
      * change a1 with (val1 "car" (mk_list (a1 :: l1))). one "car"%string. arg.
      * change a2 with (val1 "car" (mk_list (a2 :: l2))). one "car"%string. arg.
    + change (Runs S' (Pair false (sym "map2") (mk_list [sym "fun"; (| sym "cdr"; sym "lst1" |); (| sym "cdr"; sym "lst2" |)])) w1 (Ret (mk_list bs) w2)).
      eapply (IH R1 S'); [apply IN|exact AP'|apply ready_means; [auto|cbn; tauto]|].
      apply list3 with w1 w1; [arg| |].
      * change (mk_list l1) with (val1 "cdr" (mk_list (a1 :: l1))). one "cdr"%string. arg.
      * change (mk_list l2) with (val1 "cdr" (mk_list (a2 :: l2))). one "cdr"%string. arg.
Qed.
End Map2.
End Lib.
