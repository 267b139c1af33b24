(** * Cc2Proofs: cps:replace and cps:type:mark. *)
From Verif Require Import Base Value ValueSpec ValueProofs Tails Print Eval EvalSpec EvalProofs
  Sem1 Sem2 Sem3 Sem4 Sem5 TailsProofs TailsSem BuiltinSpec Sem6 Cases Lib LibSpec LibBase LibProofs LibDerived LibMore LibAssoc LibNum
  Lib2Proofs Install CcSpec CcProofs.
Open Scope nat_scope.

(** ** The definitions, as stored *)
Notation next_body :=
  (| sym "if"; sym "nvar"; (| sym "rev"; (| sym "cons"; sym "nvar"; (| sym "cdr"; (| sym "rev"; sym "args" |) |) |) |); sym "args" |).
Lemma lib5_next : lib5 "cps:replace" = lam (pars ["nvar"; "args"]%string) [] [next_body].
Proof. vm_compute. reflexivity. Qed.
Notation mark_in :=
  (| sym "if"; sym "value"; (| sym "replc"; sym "key"; (| sym "cons"; sym "type"; sym "value" |); sym "acc" |);
     (| sym "cons"; (| sym "cons"; sym "key"; (| sym "cons"; sym "type"; Nil |) |); sym "acc" |) |).
Notation mark_let :=
  (Cons (sym "let") (Cons (bindings (map (fun p => (sym (fst p), snd p)) [("value"%string, (| sym "assoc"; sym "key"; sym "acc" |))])) (mk_list [mark_in]))).
Notation mark_whole := (| sym "if"; (| sym "sym?"; sym "key" |); mark_let; sym "acc" |).
Lemma lib5_mark : lib5 "cps:type:mark" = lam (pars ["key"; "type"; "acc"]%string) [] [mark_whole].
Proof. vm_compute. reflexivity. Qed.

(** ** Association lists *)
Lemma finds_total : forall k l, exists v, finds k l v.
Proof.
  induction l as [|[k1 v] l [r IH]]; [exists Nil; constructor|]. destruct (equ k1 k) eqn:E.
  - exists v. constructor. apply equ_same. exact E.
  - exists r. apply finds_later; [|exact IH]. intro X. apply equ_same in X. congruence.
Qed.
Lemma replaced_total : forall k x l, exists r, replaced k x l r.
Proof.
  induction l as [|[k1 v] l [r IH]]; [exists []; constructor|]. destruct (equ k k1) eqn:E.
  - exists ((k, x) :: r). apply replaced_yes; [apply equ_same; exact E|exact IH].
  - exists ((k1, v) :: r). apply replaced_no; [|exact IH]. intro X. apply equ_same in X. congruence.
Qed.
Lemma replaced_finds : forall k x l r v, replaced k x l r -> finds k l v -> v <> Nil -> finds k r x.
Proof.
  intros k x l r v H. revert v. induction H as [|k1 u l r E H IH|k1 u l r E H IH]; intros v F N.
  - inversion F; subst. congruence.
  - apply finds_here. apply same_refl.
  - inversion F; subst; [exfalso; apply E; apply same_symm; auto|]. apply finds_later; [auto|]. eapply IH; eauto.
Qed.
Lemma replaced_others : forall k x l r j v, replaced k x l r -> ~ same k j -> finds j l v -> finds j r v.
Proof.
  intros k x l r j v H D. revert v. induction H as [|k1 u l r E H IH|k1 u l r E H IH]; intros v F.
  - exact F.
  - inversion F; subst; [exfalso; apply D; eapply same_trans; eauto|]. apply finds_later; [auto|]. apply IH. auto.
  - inversion F; subst; [apply finds_here; auto|]. apply finds_later; [auto|]. apply IH. auto.
Qed.
Lemma replaced_keys : forall k x l r, replaced k x l r -> length r = length l.
Proof. intros k x l r H. induction H; cbn [length]; congruence. Qed.
Lemma finds_quiet : forall k l v, finds k l v -> Forall (fun p : atom * atom => is_tail_call (fst p) = false /\ is_tail_call (snd p) = false) l -> is_tail_call v = false.
Proof.
  intros k l v H. induction H as [|k1 v l E|k1 v l r E H IH]; intro F; [reflexivity| |]; inversion F; subst; [tauto|auto].
Qed.

Section Cc2.
Variable O : oracle.
Notation Runs := (runs O).

Lemma f_is_sym : forall S t u t1 e w v w1, calls S w "sym?" -> Runs S e w (Ret v w1) ->
  Runs S (Pair t (Sym u (sy "sym?")) (Pair t1 e Nil)) w (Ret (truth (is_symb v)) w1).
Proof.
  intros S t u t1 e w v w1 C E. apply (one_ret O "sym?" 16%Z Pissym) with (f := fun v => truth (is_symb v)); try reflexivity; [exact C|].
  left. exists v, w1. auto.
Qed.

(** ** cps:replace *)
Lemma next_ok : forall n l a S w, n <> Nil -> increasing S -> ready5 S w ->
  applied O S (lib5 "cps:replace") [n; mk_list (l ++ [a])] w (Ret (mk_list (l ++ [n])) w).
Proof.
  intros n l a S w N I R. rewrite lib5_next. apply apply_fun0; [auto|auto|apply mk_quiet|]. intros S' IN.
  assert (R5 : ready5 S' w) by (eapply inside_ready5; [exact IN|reflexivity|exact R]). assert (R' := proj1 R5).
  eapply f_if with (v := n) (w1 := w); [auto|arg|]. assert (Z : is_null n = false) by (destruct n; try reflexivity; congruence).
  rewrite Z. cbn [car cdr].
  replace (l ++ [n]) with (rev (n :: rev l)) by (cbn [rev]; rewrite rev_involutive; reflexivity).
  change (Runs S' (Pair false (sym "rev") (mk_list [(| sym "cons"; sym "nvar"; (| sym "cdr"; (| sym "rev"; sym "args" |) |) |)])) w (Ret (mk_list (rev (n :: rev l))) w)).
  apply (rev_ok O S' (n :: rev l) w (proj1 IN) R'); [apply ready_means; [auto|cbn; tauto]|]. apply list1.
  change (mk_list (n :: rev l)) with (val2 "cons" n (val1 "cdr" (mk_list (a :: rev l)))). two "cons"%string; [arg|]. one "cdr"%string.
  replace (a :: rev l) with (rev (l ++ [a])) by (rewrite rev_app_distr; reflexivity).
  change (Runs S' (Pair false (sym "rev") (mk_list [sym "args"])) w (Ret (mk_list (rev (l ++ [a]))) w)).
  apply (rev_ok O S' (l ++ [a]) w (proj1 IN) R'); [apply ready_means; [auto|cbn; tauto]|]. apply list1. arg.
Qed.
Lemma next_none : forall l S w, increasing S -> ready5 S w ->
  applied O S (lib5 "cps:replace") [Nil; mk_list l] w (Ret (mk_list l) w).
Proof.
  intros l S w I R. rewrite lib5_next. apply apply_fun0; [auto|auto|apply mk_quiet|]. intros S' IN.
  assert (R5 : ready5 S' w) by (eapply inside_ready5; [exact IN|reflexivity|exact R]). assert (R' := proj1 R5).
  eapply f_if with (v := Nil) (w1 := w); [auto|arg|]. cbn [is_null car cdr]. arg.
Qed.

(** ** cps:type:mark *)
Lemma mark_other : forall k t l S w, is_symb k = false -> increasing S -> ready5 S w ->
  applied O S (lib5 "cps:type:mark") [k; t; alist l] w (Ret (alist l) w).
Proof.
  intros k t l S w N I R. rewrite lib5_mark. apply apply_fun0; [auto|auto|apply alist_quiet|]. intros S' IN.
  assert (R5 : ready5 S' w) by (eapply inside_ready5; [exact IN|reflexivity|exact R]). assert (R' := proj1 R5).
  eapply f_if with (w1 := w); [auto|apply f_is_sym; [apply ready5_calls; [auto|cbn; tauto]|arg]|]. rewrite N. cbn [truth is_null car cdr]. arg.
Qed.
Lemma mark_ok : forall k t l v r, is_symb k = true -> finds k l v -> kept "value" v ->
  Forall (fun p : atom * atom => is_tail_call (fst p) = false /\ is_tail_call (snd p) = false) l ->
  (v = Nil /\ r = (k, mk_list [t]) :: l \/ v <> Nil /\ replaced k (Cons t v) l r) ->
  forall S w, increasing S -> ready5 S w -> applied O S (lib5 "cps:type:mark") [k; t; alist l] w (Ret (alist r) w).
Proof.
  intros k t l v r K F V Q C S w I R. rewrite lib5_mark. apply apply_fun0; [auto|auto|apply alist_quiet|]. intros S1 IN.
  assert (R1 : ready5 S1 w) by (eapply inside_ready5; [exact IN|reflexivity|exact R]). assert (R' := proj1 R1).
  eapply f_if with (w1 := w); [auto|apply f_is_sym; [apply ready5_calls; [auto|cbn; tauto]|arg]|]. rewrite K.
  replace (is_null (truth true)) with false by reflexivity. cbn [car].
  apply (f_let O S1 false [("value", (| sym "assoc"; sym "key"; sym "acc" |))]%string [mark_in] w [v] w); [apply IN|apply R1| |].
  - apply lets_cons with (w1 := w); [intros S2 IN2|exact V|constructor].
    assert (R2 : ready5 S2 w) by (eapply inside_ready5; [exact IN2|reflexivity|exact R1]).
    change (Runs S2 (Pair false (sym "assoc") (mk_list [sym "key"; sym "acc"])) w (Ret v w)).
    apply (assoc_ok O k l v F Q S2 w (proj1 IN2) (proj1 R2)); [apply ready_means; [apply R2|cbn; tauto]|].
    apply list2 with w; apply f_sym; (eapply inside_out; [exact IN2|reflexivity|]); (eapply inside_get; [exact IN|reflexivity]).
  - intros S2 IN2. assert (R2 : ready5 S2 w) by (eapply inside_ready5; [exact IN2|reflexivity|exact R1]). assert (R2' := proj1 R2).
    apply body_one.
    assert (T0 : Runs S2 (sym "value") w (Ret v w)) by arg.
    assert (T1 : Runs S2 (sym "key") w (Ret k w)) by (apply f_sym; (eapply inside_out; [exact IN2|reflexivity|]); (eapply inside_get; [exact IN|reflexivity])).
    assert (T2 : Runs S2 (sym "type") w (Ret t w)) by (apply f_sym; (eapply inside_out; [exact IN2|reflexivity|]); (eapply inside_get; [exact IN|reflexivity])).
    assert (T3 : Runs S2 (sym "acc") w (Ret (alist l) w)) by (apply f_sym; (eapply inside_out; [exact IN2|reflexivity|]); (eapply inside_get; [exact IN|reflexivity])).
    eapply f_if with (v := v) (w1 := w); [auto|exact T0|]. destruct C as [[-> ->]|[N C]].
    + cbn [is_null car cdr].
      change (alist ((k, mk_list [t]) :: l)) with (val2 "cons" (val2 "cons" k (val2 "cons" t Nil)) (alist l)).
      two "cons"%string; [|exact T3]. two "cons"%string; [exact T1|]. two "cons"%string; [exact T2|]. apply f_const. reflexivity.
    + assert (Z : is_null v = false) by (destruct v; try reflexivity; congruence). rewrite Z. cbn [car].
      change (Runs S2 (Pair false (sym "replc") (mk_list [sym "key"; (| sym "cons"; sym "type"; sym "value" |); sym "acc"])) w (Ret (alist r) w)).
      apply (replc_ok O k (Cons t v) l r C S2 w (proj1 IN2) R2'); [apply ready_means; [auto|cbn; tauto]|].
      apply list3 with w w; [exact T1| |exact T3]. change (Cons t v) with (val2 "cons" t v). two "cons"%string; [exact T2|exact T0].
Qed.
End Cc2.
