(** * Cc5Proofs: cps:type:get. *)
From Verif Require Import Base Value ValueSpec ValueProofs Tails Print Eval EvalSpec EvalProofs
  Sem1 Sem2 Sem3 Sem4 Sem5 TailsProofs TailsSem BuiltinSpec Sem6 Cases Lib LibSpec LibBase LibProofs LibDerived LibMore LibAssoc LibNum
  Lib2Proofs Install CcSpec CcProofs Cc2Spec Cc3Proofs Cc4Proofs.
Open Scope nat_scope.

Notation quoted s := (Cons (sym "quote") (sym s)).
Notation get_name := (| sym "<|>"; (| sym "cps:type:fold1"; (| sym "assoc"; sym "key"; sym "acc" |) |); quoted "ATOM" |).
Notation get_body := (Cons (sym "cond") (Cons (sym "key") (clauses
  [(sym "nil?", quoted "ATOM"); (sym "num?", quoted "NUMBER"); (sym "str?", quoted "STRING");
   (sym "sym?", get_name); (sym "lst?", quoted "ATOM"); (Wild, quoted "ATOM")]))).
Lemma lib5_get : lib5 "cps:type:get" = lam (pars ["key"; "acc"]%string) [] [get_body].
Proof. vm_compute. reflexivity. Qed.

Section Cc5.
Variable O : oracle.
Notation Runs := (runs O).

Lemma f_test : forall s i p S e w v w1, the s = builtin i One -> prim_of_addr i = Some p -> pops_two p = false ->
  (forall n full x, prim1 (eval O n) n p full S x = ret (truth (test_of s x))) -> calls S w s ->
  Runs S e w (Ret v w1) -> Runs S (mk_list [sym s; e]) w (Ret (truth (test_of s v)) w1).
Proof.
  intros s i p S e w v w1 E P T F C X. apply (one_ret O s i p) with (f := fun x => truth (test_of s x)); auto. left. exists v, w1. auto.
Qed.
Lemma tests : forall S w v, ready5 S w -> Runs S (sym "key") w (Ret v w) -> forall s, In s ["nil?"; "num?"; "str?"; "sym?"; "lst?"]%string ->
  Runs S (mk_list [sym s; sym "key"]) w (Ret (truth (test_of s v)) w).
Proof.
  intros S w v R X s I.
  destruct I as [<-|[<-|[<-|[<-|[<-|[]]]]]];
   [eapply (f_test "nil?" 13%Z Pnil)|eapply (f_test "num?" 14%Z Pnum)|eapply (f_test "str?" 15%Z Pisstr)|eapply (f_test "sym?" 16%Z Pissym)|eapply (f_test "lst?" 12%Z Plst)];
   try reflexivity; try exact X; try (apply ready5_calls; [exact R|cbn; tauto]); apply ready_calls; [apply R|cbn; tauto|apply R|cbn; tauto].
Qed.
(** One clause after the other. *)
Lemma clause_yes : forall S w v s x l o, ready5 S w -> Runs S (sym "key") w (Ret v w) -> In s ["nil?"; "num?"; "str?"; "sym?"; "lst?"]%string ->
  test_of s v = true -> Runs S x w o -> cond_runs O S (sym "key") ((sym s, x) :: l) w o.
Proof.
  intros S w v s x l o R K I T X. eapply cond_yes; [discriminate| |exact X]. rewrite <- (f_equal truth T : truth (test_of s v) = Tru). apply tests; auto.
Qed.
Lemma clause_no : forall S w v s x l o, ready5 S w -> Runs S (sym "key") w (Ret v w) -> In s ["nil?"; "num?"; "str?"; "sym?"; "lst?"]%string ->
  test_of s v = false -> cond_runs O S (sym "key") l w o -> cond_runs O S (sym "key") ((sym s, x) :: l) w o.
Proof.
  intros S w v s x l o R K I T X. eapply cond_no; [discriminate|apply (tests S w v R K s I)| |exact X]. rewrite T. discriminate.
Qed.
Lemma outcome_settled : forall ts r, outcome ts r -> settled ts = r.
Proof.
  intros ts r H. destruct H as [|t n m|ts N1 N2]; [reflexivity|apply settled_same|].
  destruct (settled_cases ts) as [E|[[t [n [m E]]]|E]]; [contradiction|exfalso; eapply N2; exact E|exact E].
Qed.
Lemma settled_name : forall a ts, exists k, settled (a :: ts) = Symb k.
Proof. intros a ts. cbn [settled]. unfold settle. destruct (is_null _ || _)%bool; eauto. Qed.

Lemma get_ok : forall l v r, operand l v r -> Forall (fun p : atom * atom => is_tail_call (fst p) = false /\ is_tail_call (snd p) = false) l ->
  forall S w, increasing S -> ready5 S w -> applied O S (lib5 "cps:type:get") [v; alist l] w (Ret r w).
Proof.
  intros l v r H Q S w I R. rewrite lib5_get.
  assert (QR : is_tail_call r = false).
  { destruct H as [|z|v N1 N2|k F|k ts r N F X|t a d N| | |z]; try reflexivity. destruct X; reflexivity. }
  apply apply_fun0; [auto|auto|exact QR|]. intros S' IN.
  assert (R5 : ready5 S' w) by (eapply inside_ready5; [exact IN|reflexivity|exact R]). assert (R' := proj1 R5).
  assert (K : Runs S' (sym "key") w (Ret v w)) by arg.
  apply cond_call_runs; [apply ready5_calls; [auto|cbn; tauto]|].
  assert (NAME : forall u, finds v l u -> Runs S' (| sym "assoc"; sym "key"; sym "acc" |) w (Ret u w)).
  { intros u F. change (Runs S' (Pair false (sym "assoc") (mk_list [sym "key"; sym "acc"])) w (Ret u w)).
    apply (assoc_ok O v l u F Q S' w (proj1 IN) R'); [apply ready_means; [auto|cbn; tauto]|]. apply list2 with w; arg. }
  assert (FOLD : forall ts, finds v l (mk_list (map (Sym false) ts)) -> Runs S' get_name w (Ret (if is_null (settled ts) then sym "ATOM" else settled ts) w)).
  { intros ts F. change (Runs S' (Pair false (sym "<|>") (mk_list [(| sym "cps:type:fold1"; (| sym "assoc"; sym "key"; sym "acc" |) |); quoted "ATOM"])) w
      (Ret (if is_null (settled ts) then sym "ATOM" else settled ts) w)).
    assert (QS : is_tail_call (settled ts) = false) by (destruct ts as [|a ts]; [reflexivity|destruct (settled_name a ts) as [k ->]; reflexivity]).
    apply (orelse_ok O (settled ts) (sym "ATOM") S' w QS eq_refl (proj1 IN) R'); [apply ready_means; [auto|cbn; tauto]|].
    apply list2 with w; [|apply f_quote; auto].
    change (Runs S' (Pair false (sym "cps:type:fold1") (mk_list [(| sym "assoc"; sym "key"; sym "acc" |)])) w (Ret (settled ts) w)).
    apply (fold_ok O ts S' w (proj1 IN) R5); [apply ready5_means; [auto|cbn; tauto]|]. apply list1. apply NAME. exact F. }
  destruct H as [|z|v N1 N2|k F|k ts r N F X|t a d N| | |z].
  - eapply clause_yes; [exact R5|exact K|cbn; tauto|reflexivity|apply f_quote; auto].
  - do 1 (eapply clause_no; [exact R5|exact K|cbn; tauto|reflexivity|]).
    eapply clause_yes; [exact R5|exact K|cbn; tauto|reflexivity|apply f_quote; auto].
  - assert (T : is_string v = true) by (apply text_is_string; exact N2).
    eapply clause_no; [exact R5|exact K|cbn; tauto|destruct v; try reflexivity; congruence|].
    eapply clause_no; [exact R5|exact K|cbn; tauto|destruct v; try reflexivity; discriminate T|].
    eapply clause_yes; [exact R5|exact K|cbn; tauto|exact T|apply f_quote; auto].
  - do 3 (eapply clause_no; [exact R5|exact K|cbn; tauto|reflexivity|]).
    eapply clause_yes; [exact R5|exact K|cbn; tauto|reflexivity|]. exact (FOLD [] F).
  - do 3 (eapply clause_no; [exact R5|exact K|cbn; tauto|reflexivity|]).
    eapply clause_yes; [exact R5|exact K|cbn; tauto|reflexivity|]. assert (E := outcome_settled _ _ X). specialize (FOLD ts F).
    destruct ts as [|b ts]; [contradiction|]. destruct (settled_name b ts) as [j J]. rewrite J in FOLD, E. rewrite <- E. exact FOLD.
  - do 2 (eapply clause_no; [exact R5|exact K|cbn; tauto|reflexivity|]).
    eapply clause_no; [exact R5|exact K|cbn; tauto| |].
    { destruct (test_of "str?" (Pair t a d)) eqn:T; [|reflexivity]. exfalso. apply N. apply text_is_string. exact T. }
    eapply clause_no; [exact R5|exact K|cbn; tauto|reflexivity|].
    eapply clause_yes; [exact R5|exact K|cbn; tauto|reflexivity|apply f_quote; auto].
  - do 5 (eapply clause_no; [exact R5|exact K|cbn; tauto|reflexivity|]). apply cond_default. apply f_quote; auto.
  - do 5 (eapply clause_no; [exact R5|exact K|cbn; tauto|reflexivity|]). apply cond_default. apply f_quote; auto.
  - do 5 (eapply clause_no; [exact R5|exact K|cbn; tauto|reflexivity|]). apply cond_default. apply f_quote; auto.
Qed.
End Cc5.
