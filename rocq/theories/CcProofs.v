(** * CcProofs: cps:symbol, cc:replace, cc:arg:idx, cc:arg:get, cc:ref:idx. *)
From Verif Require Import Base Value ValueSpec ValueProofs Tails Print Eval EvalSpec EvalProofs
  Sem1 Sem2 Sem3 Sem4 Sem5 TailsProofs TailsSem BuiltinSpec Sem6 Cases Lib LibSpec LibBase LibProofs LibDerived LibMore LibAssoc LibNum
  Lib2Proofs Install CcSpec.
Open Scope nat_scope.

(** ** The definitions, as stored *)
Notation replace_body :=
  (| sym "if"; (| sym "cdr"; sym "body" |);
     (| sym "cons"; (| sym "car"; sym "body" |); (| sym "cc:replace"; sym "kvar"; (| sym "cdr"; sym "body" |) |) |);
     (| sym "list"; sym "kvar" |) |).
Lemma lib5_replace : lib5 "cc:replace" = lam (pars ["kvar"; "body"]%string) [] [replace_body].
Proof. vm_compute. reflexivity. Qed.
Notation index_body :=
  (| sym "if"; sym "ARGS";
     (| sym "if"; (| sym "="; (| sym "car"; sym "ARGS" |); sym "ref" |); sym "idx";
        (| Sym true (sy "cc:arg:idx"); (| sym "cdr"; sym "ARGS" |); sym "ref"; (| sym "+"; sym "idx"; Num 1 |) |) |) |).
Lemma lib5_index : lib5 "cc:arg:idx" = lam (pars ["ARGS"; "ref"; "idx"]%string) [] [index_body].
Proof. vm_compute. reflexivity. Qed.
Notation most_body := (| sym "rev"; (| sym "cdr"; (| sym "rev"; sym "ARGS" |) |) |).
Lemma lib5_most : lib5 "cc:arg:get" = lam (pars ["ARGS"]%string) [] [most_body].
Proof. vm_compute. reflexivity. Qed.
Notation ref_in :=
  (| sym "if"; (| sym "="; (| sym "car"; sym "tostr" |); Chr 95 |);
     (| sym "aton"; (| sym "cdr"; sym "tostr" |) |); (| sym "cc:arg:idx"; sym "ARGS"; sym "ref"; Num 0 |) |).
Notation ref_body :=
  (Cons (sym "let") (Cons (bindings (map (fun p => (sym (fst p), snd p)) [("tostr"%string, (| sym "str"; sym "ref" |))])) (mk_list [ref_in]))).
Lemma lib5_ref : lib5 "cc:ref:idx" = lam (pars ["ARGS"; "ref"]%string) [] [ref_body].
Proof. vm_compute. reflexivity. Qed.
Notation symbol_body := (| sym "sym"; (| sym "cons"; Chr 95; (| sym "ntoa"; sym "id" |) |) |).
Lemma lib5_symbol : lib5 "cps:symbol" = lam (pars ["id"]%string) [] [symbol_body].
Proof. vm_compute. reflexivity. Qed.
Lemma lib5_used : forall s, In s used5 -> lib5 s = the s.
Proof. intros s H. repeat (destruct H as [<-|H]; [vm_compute; reflexivity|]). destruct H. Qed.

(** ** Scopes *)
Definition names5 : list string := (used ++ given) ++ (used5 ++ given5).
Lemma ready5_calls : forall S w s, ready5 S w -> In s used5 -> calls S w s.
Proof. intros S w s [_ R] I. unfold calls. rewrite <- lib5_used by auto. apply R. apply in_or_app; auto. Qed.
Lemma ready5_means : forall S w s, ready5 S w -> In s given5 -> means S w (sy s) (lib5 s).
Proof. intros S w s [_ R] I. apply R. apply in_or_app; auto. Qed.
Lemma clear_both : forall h a b, clear_of h (a ++ b) = true -> clear_of h a = true /\ clear_of h b = true.
Proof. intros h a b H. unfold clear_of in *. rewrite forallb_app in H. apply andb_prop in H. auto. Qed.
Lemma ready5_apart : forall hid c S w, apart hid c S -> clear_of hid names5 = true -> ready5 c w -> ready5 S w.
Proof.
  intros hid c S w AP C [R G]. apply clear_both in C. destruct C as [C1 C2]. split; [eapply ready_apart; eauto|].
  intros s I. eapply means_same; [|apply (G s I)]. rewrite apart_get in AP. apply AP.
  intros h J. eapply clear_not; eauto.
Qed.
Lemma inside_ready5 : forall hs vs S S' w, inside hs vs [] S S' -> clear_of hs names5 = true -> ready5 S w -> ready5 S' w.
Proof. intros hs vs S S' w IN C R. eapply ready5_apart; [apply (inside_apart _ _ _ _ IN)|exact C|exact R]. Qed.

Section Cc.
Variable O : oracle.
Notation Runs := (runs O).

Lemma f_sym_of : forall S t u t1 e w v w1, calls S w "sym" -> Runs S e w (Ret v w1) ->
  Runs S (Pair t (Sym u (sy "sym")) (Pair t1 e Nil)) w (Ret (sym_of v) w1).
Proof.
  intros S t u t1 e w v w1 C E. apply (one_ret O "sym" 29%Z Psym) with (f := sym_of); try reflexivity; [exact C|].
  left. exists v, w1. auto.
Qed.
Lemma f_str_of : forall S t u t1 e w v x w1, calls S w "str" -> Runs S e w (Ret v w1) -> str_of v = Some x ->
  Runs S (Pair t (Sym u (sy "str")) (Pair t1 e Nil)) w (Ret x w1).
Proof.
  intros S t u t1 e w v x w1 C E X. rewrite (call_one O "str" 27%Z Pstr); auto; try reflexivity.
  left. exists v, w1. split; auto. unfold Rprim, run_prim. cbn [pops_two prim1]. rewrite X. apply conv_ret. auto.
Qed.
Lemma f_list1 : forall S t e w v w1, ready S w -> Runs S e w (Ret v w1) ->
  Runs S (Pair t (sym "list") (mk_list [e])) w (Ret (mk_list [v]) w1).
Proof.
  intros S t e w v w1 R E. apply list_runs; [known|]. left. exists [v], w1. split; [apply list1; exact E|reflexivity].
Qed.

(** ** cc:replace *)
Lemma replace_ok : forall l k S w, increasing S -> ready5 S w ->
  applied O S (lib5 "cc:replace") [k; mk_list l] w (Ret (mk_list (removelast l ++ [k])) w).
Proof.
  induction l as [|a l IH]; intros k S w I R; rewrite lib5_replace; (apply apply_fun0; [auto|auto|apply mk_quiet|]); intros S' IN;
    assert (R5 : ready5 S' w) by (eapply inside_ready5; [exact IN|reflexivity|exact R]); assert (R' := proj1 R5).
  - eapply f_if; [auto|one "cdr"%string; arg|]. cbn [val1 String.eqb Ascii.eqb Bool.eqb cdr mk_list is_null car].
    apply (f_list1 S' false (sym "kvar")); [auto|arg].
  - eapply f_if; [auto|one "cdr"%string; arg|]. cbn [val1 String.eqb Ascii.eqb Bool.eqb cdr mk_list].
    destruct l as [|b l]; cbn [mk_list is_null car cdr].
    + apply (f_list1 S' false (sym "kvar")); [auto|arg].
    + change (mk_list (removelast (a :: b :: l) ++ [k])) with (val2 "cons" (val1 "car" (mk_list (a :: b :: l))) (mk_list (removelast (b :: l) ++ [k]))).
      two "cons"%string; [one "car"%string; arg|].
      change (Runs S' (Pair false (sym "cc:replace") (mk_list [sym "kvar"; (| sym "cdr"; sym "body" |)])) w (Ret (mk_list (removelast (b :: l) ++ [k])) w)).
      eapply (IH k S' w); [apply IN|auto|apply ready5_means; [auto|cbn; tauto]|].
      apply list2 with w; [arg|]. change (mk_list (b :: l)) with (val1 "cdr" (mk_list (a :: b :: l))). one "cdr"%string. arg.
Qed.

(** ** cc:arg:get *)
Lemma most_ok : forall l S w, increasing S -> ready5 S w ->
  applied O S (lib5 "cc:arg:get") [mk_list l] w (Ret (mk_list (removelast l)) w).
Proof.
  intros l S w I R. rewrite lib5_most. apply apply_fun0; [auto|auto|apply mk_quiet|]. intros S' IN.
  assert (R5 : ready5 S' w) by (eapply inside_ready5; [exact IN|reflexivity|exact R]). assert (R' := proj1 R5).
  assert (X : cdr (mk_list (rev l)) = mk_list (rev (removelast l))).
  { destruct (rev l) as [|a r] eqn:E.
    - assert (L : l = []) by (rewrite <- (rev_involutive l), E; auto). subst l. reflexivity.
    - assert (L : l = rev r ++ [a]) by (rewrite <- (rev_involutive l), E; auto). rewrite L, removelast_last, rev_involutive. reflexivity. }
  rewrite <- (rev_involutive (removelast l)).
  change (Runs S' (Pair false (sym "rev") (mk_list [(| sym "cdr"; (| sym "rev"; sym "ARGS" |) |)])) w (Ret (mk_list (rev (rev (removelast l)))) w)).
  apply (rev_ok O S' (rev (removelast l)) w (proj1 IN) R'); [apply ready_means; [auto|cbn; tauto]|]. apply list1. rewrite <- X.
  change (cdr (mk_list (rev l))) with (val1 "cdr" (mk_list (rev l))). one "cdr"%string.
  change (Runs S' (Pair false (sym "rev") (mk_list [sym "ARGS"])) w (Ret (mk_list (rev l)) w)).
  apply (rev_ok O S' l w (proj1 IN) R'); [apply ready_means; [auto|cbn; tauto]|]. apply list1. arg.
Qed.

(** ** cc:arg:idx *)
Lemma index_turns : forall x l r z, indexed x z l r -> int64 z -> int64 (z + Z.of_nat (length l)) -> forall S w, increasing S -> ready5 S w ->
  turns O S [] (sy "cc:arg:idx") ["ARGS"; "ref"; "idx"]%string [index_body] [mk_list l; x; Num z] w r w.
Proof.
  intros x l r z H. induction H as [z|z a l E|z a l r E H IH]; intros Z1 Z2 S w I R.
  1,2: apply turn_done; [auto|constructor|auto|reflexivity|]; intros S' IN;
    assert (R' : ready S' w) by (eapply inside_ready0; [exact IN|reflexivity|apply R]); apply body_one.
  - eapply f_if with (v := Nil) (w1 := w); [auto|arg|]. cbn [is_null car cdr]. apply f_const. reflexivity.
  - eapply f_if with (v := mk_list (a :: l)) (w1 := w); [auto|arg|]. cbn [is_null car cdr mk_list].
    eapply f_if; [auto|two "="%string; [one "car"%string; arg|arg]|].
    unfold val2, val1. cbn [String.eqb Ascii.eqb Bool.eqb mk_list car]. apply equ_same in E. rewrite E. cbn [truth is_null car]. arg.
  - assert (Z3 : int64 (z + 1)). { unfold int64 in *. cbn [length] in Z2. lia. }
    eapply turn_next; [auto|constructor|auto| |apply (IH Z3)]; auto.
    2: { unfold int64 in *. cbn [length] in Z2. lia. }
    intros S' IN.
    assert (R5 : ready5 S' w) by (eapply inside_ready5; [exact IN|reflexivity|exact R]). assert (R' := proj1 R5). apply body_one.
    eapply f_if with (v := mk_list (a :: l)) (w1 := w); [auto|arg|]. cbn [is_null car cdr mk_list].
    eapply f_if; [auto|two "="%string; [one "car"%string; arg|arg]|].
    unfold val2, val1. cbn [String.eqb Ascii.eqb Bool.eqb mk_list car].
    assert (E' : equ a x = false). { destruct (equ a x) eqn:Q; auto. apply equ_same in Q. contradiction. }
    rewrite E'. cbn [truth is_null car cdr].
    change (Runs S' (Pair false (Sym true (sy "cc:arg:idx")) (mk_list [(| sym "cdr"; sym "ARGS" |); sym "ref"; (| sym "+"; sym "idx"; Num 1 |)])) w
      (Ret (again (sy "cc:arg:idx") ["ARGS"; "ref"; "idx"]%string [mk_list l; x; Num (z + 1)]) w)).
    eapply marked_call; [| |rewrite <- lib5_index; apply ready5_means; [auto|cbn; tauto]|]; [discriminate|auto|].
    apply list3 with w w; [change (mk_list l) with (val1 "cdr" (mk_list (a :: l))); one "cdr"%string; arg|arg|].
    eapply (f_arith O "+"%string S') with (a := z) (b := 1%Z); [cbn; tauto|auto|arg|apply f_const; auto|auto|auto|constructor; auto].
Qed.
Lemma index_ok : forall x l r z, indexed x z l r -> int64 z -> int64 (z + Z.of_nat (length l)) -> forall S w, increasing S -> ready5 S w ->
  answers O S (sy "cc:arg:idx") (lib5 "cc:arg:idx") [mk_list l; x; Num z] w (Ret r w).
Proof. intros. rewrite lib5_index. apply turns_answer; [discriminate|auto|]. apply index_turns; auto. Qed.

(** ** cps:symbol *)
Lemma symbol_ok : forall n, (0 <= n)%Z -> int64 n -> exists l, writes_number n l /\
  forall S w, increasing S -> ready5 S w -> shows S (sy "descend") None ->
  applied O S (lib5 "cps:symbol") [Num n] w (Ret (sym_of (mk_chars (95%Z :: l))) w).
Proof.
  intros n P B. destruct (ntoa_ok O n P B) as [l [W H]]. exists l. split; [exact W|]. intros S w I R D.
  rewrite lib5_symbol. apply apply_fun0; [auto|auto| |].
  { unfold sym_of. destruct (is_pair _ && is_string _); reflexivity. }
  intros S' IN. assert (R5 : ready5 S' w) by (eapply inside_ready5; [exact IN|reflexivity|exact R]). assert (R' := proj1 R5).
  apply f_sym_of; [apply ready5_calls; [auto|cbn; tauto]|].
  change (mk_chars (95%Z :: l)) with (val2 "cons" (Chr 95) (mk_chars l)). two "cons"%string; [apply f_const; reflexivity|].
  change (Runs S' (Pair false (sym "ntoa") (mk_list [sym "id"])) w (Ret (mk_chars l) w)).
  apply (H S' w (proj1 IN) R'); [apply ready5_calls; [auto|cbn; tauto]| |apply ready_means; [auto|cbn; tauto]|apply list1; arg].
  apply (inside_apart _ _ _ _ IN); [|exact D]. intros s [<-|[]]; vm_compute; discriminate.
Qed.

(** ** cc:ref:idx *)
Lemma ref_ok : forall args ref l v, str_of ref = Some (mk_chars l) -> is_tail_call v = false ->
  forall S w, increasing S -> ready5 S w ->
  (forall S', increasing S' -> ready5 S' w -> match l with
     | z :: d => if Z.eqb z 95 then answers O S' (sy "aton") (lib "aton") [mk_chars d] w (Ret v w)
                 else answers O S' (sy "cc:arg:idx") (lib5 "cc:arg:idx") [args; ref; Num 0] w (Ret v w)
     | [] => answers O S' (sy "cc:arg:idx") (lib5 "cc:arg:idx") [args; ref; Num 0] w (Ret v w)
     end) ->
  applied O S (lib5 "cc:ref:idx") [args; ref] w (Ret v w).
Proof.
  intros args ref l v E Q S w I R H. rewrite lib5_ref. apply apply_fun0; [auto|auto|auto|]. intros S1 IN.
  assert (R1 : ready5 S1 w) by (eapply inside_ready5; [exact IN|reflexivity|exact R]).
  apply (f_let O S1 false [("tostr", (| sym "str"; sym "ref" |))]%string [ref_in] w [mk_chars l] w); [apply IN|apply R1| |].
  - apply lets_cons with (w1 := w); [intros S2 IN2| |constructor].
    + assert (R2 : ready5 S2 w) by (eapply inside_ready5; [exact IN2|reflexivity|exact R1]).
      apply f_str_of with ref; [apply ready5_calls; [auto|cbn; tauto]| |exact E]. apply f_sym.
      eapply inside_out; [exact IN2|reflexivity|]. eapply inside_get; [exact IN|reflexivity].
    + left. destruct l as [|c [|d l]]; reflexivity.
  - intros S2 IN2. assert (R2 : ready5 S2 w) by (eapply inside_ready5; [exact IN2|reflexivity|exact R1]). assert (R' := proj1 R2).
    specialize (H S2 (proj1 IN2) R2). apply body_one.
    assert (T : Runs S2 (sym "tostr") w (Ret (mk_chars l) w)) by arg.
    eapply f_if; [auto|two "="%string; [one "car"%string; exact T|apply f_const; reflexivity]|].
    assert (C : l = [] \/ (exists d, l = 95%Z :: d) \/ exists c d, l = c :: d /\ c <> 95%Z).
    { destruct l as [|c d]; [auto|]. right. destruct (Z.eq_dec c 95) as [->|N]; [left|right]; eauto. }
    destruct C as [->|[[d ->]|[c [d [-> N]]]]].
    + unfold val2, val1. cbn [String.eqb Ascii.eqb Bool.eqb mk_chars map mk_list car equ truth is_null cdr].
      change (Runs S2 (Pair false (sym "cc:arg:idx") (mk_list [sym "ARGS"; sym "ref"; Num 0])) w (Ret v w)).
      apply H; [apply ready5_means; [auto|cbn; tauto]|].
      apply list3 with w w; [| |apply f_const; reflexivity]; apply f_sym; (eapply inside_out; [exact IN2|reflexivity|]); (eapply inside_get; [exact IN|reflexivity]).
    + replace (is_null (val2 "=" (val1 "car" (mk_chars (95%Z :: d))) (Chr 95))) with false by reflexivity. cbn [car].
      change (Runs S2 (Pair false (sym "aton") (mk_list [(| sym "cdr"; sym "tostr" |)])) w (Ret v w)).
      apply H; [apply ready_means; [auto|cbn; tauto]|]. apply list1.
      change (mk_chars d) with (val1 "cdr" (mk_chars (95%Z :: d))). one "cdr"%string. exact T.
    + assert (X : is_null (val2 "=" (val1 "car" (mk_chars (c :: d))) (Chr 95)) = true).
      { change (is_null (truth (equ (Chr c) (Chr 95))) = true). destruct (equ (Chr c) (Chr 95)) eqn:Y; [|reflexivity].
        apply equ_same in Y. inversion Y. congruence. }
      rewrite X. cbn [car cdr].
      change (Runs S2 (Pair false (sym "cc:arg:idx") (mk_list [sym "ARGS"; sym "ref"; Num 0])) w (Ret v w)).
      apply Z.eqb_neq in N. rewrite N in H.
      apply H; [apply ready5_means; [auto|cbn; tauto]|].
      apply list3 with w w; [| |apply f_const; reflexivity]; apply f_sym; (eapply inside_out; [exact IN2|reflexivity|]); (eapply inside_get; [exact IN|reflexivity]).
Qed.
End Cc.
