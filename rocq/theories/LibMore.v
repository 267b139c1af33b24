(** * LibMore: association lists, accessors, repetition, text. *)
From Verif Require Import Base Value ValueSpec ValueProofs Tails Print Eval EvalSpec EvalProofs
  Sem1 Sem2 Sem3 Sem4 Sem5 TailsProofs TailsSem BuiltinSpec Sem6 Cases Lib LibSpec LibBase LibProofs LibDerived.
Open Scope nat_scope.

Notation assoc_body :=
  (| sym "if"; (| sym "not"; (| sym "nil?"; sym "lst" |) |);
     (| sym "if"; (| sym "="; (| sym "caar"; sym "lst" |); sym "k" |); (| sym "cdar"; sym "lst" |);
        (| Sym true (sy "assoc"); sym "k"; (| sym "cdr"; sym "lst" |) |) |) |).
Lemma lib_assoc : lib "assoc" = lam (pars ["k"; "lst"]%string) [] [assoc_body].
Proof. vm_compute. reflexivity. Qed.
Notation last_body :=
  (| sym "if"; (| sym "cdr"; sym "LST" |); (| Sym true (sy "last"); (| sym "cdr"; sym "LST" |) |); (| sym "car"; sym "LST" |) |).
Lemma lib_last : lib "last" = lam (pars ["LST"]%string) [] [last_body].
Proof. vm_compute. reflexivity. Qed.
Notation rep_body :=
  (| sym "if"; (| sym ">"; sym "n"; Num 0 |);
     (| sym "cons"; sym "atm"; (| sym "rep"; (| sym "-"; sym "n"; Num 1 |); sym "atm" |) |) |).
Lemma lib_rep : lib "rep" = lam (pars ["n"; "atm"]%string) [] [rep_body].
Proof. vm_compute. reflexivity. Qed.
Notation truncl_body :=
  (| sym "when"; (| sym ">"; sym "n"; Num 0 |);
     (| sym "cons"; (| sym "car"; sym "lst" |); (| sym "truncl"; (| sym "-"; sym "n"; Num 1 |); (| sym "cdr"; sym "lst" |) |) |) |).
Lemma lib_truncl : lib "truncl" = lam (pars ["n"; "lst"]%string) [] [truncl_body].
Proof. vm_compute. reflexivity. Qed.
Notation orelse_body := (| sym "if"; sym "VAL"; sym "VAL"; sym "DEF" |).
Lemma lib_orelse : lib "<|>" = lam (pars ["VAL"; "DEF"]%string) [] [orelse_body].
Proof. vm_compute. reflexivity. Qed.

Section More.
Variable O : oracle.
Notation Runs := (runs O).

(** ** Arithmetic in library code *)
Lemma f_arith : forall s S t u t1 e1 t2 e2 w v1 w1 v2 w2 a b r, In s ["+"; "-"; "*"; "/"; "%"]%string -> ready S w ->
  Runs S e1 w (Ret v1 w1) -> Runs S e2 w1 (Ret v2 w2) -> num_field v1 = Some a -> num_field v2 = Some b ->
  computes s a b r -> Runs S (Pair t (Sym u (sy s)) (Pair t1 e1 (Pair t2 e2 Nil))) w (Ret (Num r) w2).
Proof.
  intros s S t u t1 e1 t2 e2 w v1 w1 v2 w2 a b r I R E1 E2 N1 N2 C.
  assert (K : forall p, In p [Padd; Psub; Pmul; Pdiv; Pmod] -> arith p a b = Some r ->
     conv (fun n => prim2 O (eval O n) p S v1 v2 w2) (Ret (Num r) w2)).
  { intros p J E. split; [discriminate|]. exists 0.
    assert (Y : prim2 O (eval O 0) p S v1 v2 =
      (a <- opt (num_field v1) ;; b <- opt (num_field v2) ;; r <- opt (arith p a b) ;; ret (Num r))).
    { cbn [In] in J. repeat (destruct J as [<-|J]; [reflexivity|]). tauto. }
    rewrite Y, N1, N2. cbn [opt]. unfold mbind, ret at 1 2. rewrite E. reflexivity. }
  assert (G : exists i p, the s = builtin i Two /\ prim_of_addr i = Some p /\ pops_two p = true /\
    In (s, p) [("+", Padd); ("-", Psub); ("*", Pmul); ("/", Pdiv); ("%", Pmod)]%string).
  { destruct (arith_named O s I) as [i [p X]]. exists i, p. tauto. }
  destruct G as [i [p [E [P [T J]]]]].
  apply (prim2_runs O s i p); auto.
  - apply ready_calls; auto. cbn in I |- *. intuition (subst; auto 30).
  - left. exists v1, w1. split; auto. left. exists v2, w2. split; auto. apply K.
    + cbn in J. repeat (destruct J as [J|J]; [inversion J; subst; cbn; tauto|]). tauto.
    + eapply arith_computes; eauto.
Qed.
Lemma f_cmp : forall s Q S t u t1 e1 t2 e2 w a w1 b w2, In s ["<"; ">"]%string -> relation s Q -> ready S w ->
  Runs S e1 w (Ret (Num a) w1) -> Runs S e2 w1 (Ret (Num b) w2) ->
  exists v, answer (Q a b) v /\ Runs S (Pair t (Sym u (sy s)) (Pair t1 e1 (Pair t2 e2 Nil))) w (Ret v w2).
Proof.
  intros s Q S t u t1 e1 t2 e2 w a w1 b w2 I RQ R E1 E2.
  assert (C : calls S w s) by (apply ready_calls; auto; cbn in I |- *; intuition (subst; auto 30)).
  assert (X := compare_exact O s Q S t u t1 e1 t2 e2 w a w1 b w2 RQ C E1 E2).
  destruct (compare_named O s Q RQ) as [i [p [_ [_ [_ [_ D]]]]]]. specialize (D a b).
  destruct (compare p a b).
  - exists Tru. assert (Q a b) by (apply D; auto). split; [left; auto|]. apply X. auto.
  - exists Nil. assert (~ Q a b) by (intro Y; apply D in Y; discriminate). split; [right; auto|]. apply X. auto.
Qed.

(** ** Accessors *)
Lemma halves_val : forall l v r, halves l v r -> r = fold_right val1 v l.
Proof.
  intros l v r H. induction H as [|s l v u r H IH [[-> ->]|[-> ->]]]; cbn [fold_right]; subst; reflexivity.
Qed.
Lemma chain_ok : forall s l, In (s, l) chains -> forall v r, halves l v r -> is_tail_call r = false ->
  forall S w, increasing S -> ready S w -> applied O S (lib s) [v] w (Ret r w).
Proof.
  intros s l J v r H Q S w I R. apply halves_val in H.
  assert (L : exists e, lib s = lam (pars ["x"]%string) [] [e] /\
    forall S', inside ["x"]%string [v] [] S S' -> ready S' w -> Runs S' e w (Ret (fold_right val1 v l) w)).
  { clear H Q r.
    repeat (destruct J as [J|J]; [injection J as <- <-; eexists; (split; [vm_compute; reflexivity|]); intros S' IN R';
      cbn [fold_right]|]); [..|destruct J].
    - change (Runs S' (| sym "car"; (| sym "car"; sym "x" |) |) w (Ret (val1 "car" (val1 "car" v)) w)).
      one "car"%string. one "car"%string. arg.
    - change (Runs S' (| sym "car"; (| sym "cdr"; sym "x" |) |) w (Ret (val1 "car" (val1 "cdr" v)) w)).
      one "car"%string. one "cdr"%string. arg.
    - change (Runs S' (| sym "cdr"; (| sym "car"; sym "x" |) |) w (Ret (val1 "cdr" (val1 "car" v)) w)).
      one "cdr"%string. one "car"%string. arg.
    - change (Runs S' (| sym "cdr"; (| sym "cdr"; sym "x" |) |) w (Ret (val1 "cdr" (val1 "cdr" v)) w)).
      one "cdr"%string. one "cdr"%string. arg.
    - change (Runs S' (| sym "car"; (| sym "cdr"; (| sym "cdr"; sym "x" |) |) |) w (Ret (val1 "car" (val1 "cdr" (val1 "cdr" v))) w)).
      one "car"%string. one "cdr"%string. one "cdr"%string. arg. }
  rewrite <- H in L.
  destruct L as [e [-> L]]. apply apply_fun0; auto. intros S' IN. apply L; auto. eapply inside_ready0; eauto.
Qed.
Lemma call_chain : forall s l v r S e w t, In (s, l) chains -> In s given -> halves l v r -> is_tail_call r = false ->
  increasing S -> ready S w -> Runs S e w (Ret v w) -> Runs S (Pair t (sym s) (Cons e Nil)) w (Ret r w).
Proof.
  intros s l v r S e w t J G H Q I R E.
  apply (chain_ok s l J v r H Q S w I R (sy s) t [e] w); [apply ready_means; auto|apply list1; auto].
Qed.

(** ** assoc *)
Notation quiet_pair := (fun p : atom * atom => is_tail_call (fst p) = false /\ is_tail_call (snd p) = false).
Lemma assoc_turns : forall k l r, finds k l r -> Forall quiet_pair l -> forall S w, increasing S -> ready S w ->
  turns O S [] (sy "assoc") ["k"; "lst"]%string [assoc_body] [k; alist l] w r w.
Proof.
  intros k l r H. induction H as [|k1 v l E|k1 v l r E H IH]; intros FQ S w I R.
  - apply turn_done; auto; [constructor|]. intros S' IN. assert (R' : ready S' w) by (eapply inside_ready0; eauto).
    apply body_one. eapply f_if; [auto|one "not"%string; one "nil?"%string; arg|]. cbn. apply f_const; auto.
  - inversion FQ as [|? ? [Q1 Q2] _]; subst. cbn [fst snd] in Q1, Q2.
    apply turn_done; auto; [constructor|]. intros S' IN. assert (R' : ready S' w) by (eapply inside_ready0; eauto).
    apply body_one. eapply f_if; [auto|one "not"%string; one "nil?"%string; arg|].
    cbn [val1 String.eqb Ascii.eqb Bool.eqb truth is_null mk_list alist map car cdr fst snd].
    eapply f_if with (v := Tru) (w1 := w); [auto| |].
    + replace Tru with (val2 "=" k1 k) by (apply equ_same in E; cbn; rewrite E; auto).
      two "="%string; [|arg]. eapply (call_chain "caar"%string ["car"; "car"]%string (alist ((k1, v) :: l)));
        [cbn; tauto|cbn; tauto| |exact Q1|apply IN|auto|arg].
      econstructor; [econstructor; [constructor|left; auto]|left; auto].
    + cbn [is_null car]. eapply (call_chain "cdar"%string ["cdr"; "car"]%string (alist ((k1, v) :: l)));
        [cbn; tauto|cbn; tauto| |exact Q2|apply IN|auto|arg].
      econstructor; [econstructor; [constructor|left; auto]|right; auto].
  - inversion FQ as [|? ? [Q1 Q2] FQ']; subst. cbn [fst snd] in Q1, Q2.
    eapply turn_next; [auto|constructor|auto| |apply (IH FQ' S w I R)].
    intros S' IN. assert (R' : ready S' w) by (eapply inside_ready0; eauto).
    apply body_one. eapply f_if; [auto|one "not"%string; one "nil?"%string; arg|].
    cbn [val1 String.eqb Ascii.eqb Bool.eqb truth is_null mk_list alist map car cdr fst snd].
    eapply f_if with (v := Nil) (w1 := w); [auto| |].
    + replace (Ret Nil w) with (Ret (val2 "=" k1 k) w).
      2: { f_equal. cbn. destruct (equ k1 k) eqn:X; auto. apply equ_same in X. tauto. }
      two "="%string; [|arg]. eapply (call_chain "caar"%string ["car"; "car"]%string (alist ((k1, v) :: l)));
        [cbn; tauto|cbn; tauto| |exact Q1|apply IN|auto|arg].
      econstructor; [econstructor; [constructor|left; auto]|left; auto].
    + cbn [is_null car cdr].
      change (Runs S' (Pair false (Sym true (sy "assoc")) (mk_list [sym "k"; (| sym "cdr"; sym "lst" |)])) w
        (Ret (again (sy "assoc") ["k"; "lst"]%string [k; alist l]) w)).
      apply (marked_call O S' false [] (sy "assoc") ["k"; "lst"]%string [assoc_body]);
        [discriminate|auto|rewrite <- lib_assoc; apply ready_means; [auto|cbn; tauto]|].
      apply list2 with w; [arg|]. change (alist l) with (val1 "cdr" (alist ((k1, v) :: l))). one "cdr"%string. arg.
Qed.
Lemma assoc_ok : forall k l r, finds k l r -> Forall quiet_pair l -> forall S w, increasing S -> ready S w ->
  answers O S (sy "assoc") (lib "assoc") [k; alist l] w (Ret r w).
Proof. intros. rewrite lib_assoc. apply turns_answer; [discriminate|auto|]. apply assoc_turns; auto. Qed.

(** ** last *)
Lemma last_turns : forall l x, is_tail_call x = false -> forall S w, increasing S -> ready S w ->
  turns O S [] (sy "last") ["LST"]%string [last_body] [mk_list (l ++ [x])] w x w.
Proof.
  induction l as [|a l IH]; intros x Q S w I R; cbn [app].
  - apply turn_done; auto; [constructor|]. intros S' IN. assert (R' : ready S' w) by (eapply inside_ready0; eauto).
    apply body_one. eapply f_if; [auto|one "cdr"%string; arg|].
    cbn [val1 String.eqb Ascii.eqb Bool.eqb is_null mk_list car cdr].
    change x with (val1 "car" (mk_list [x])) at 1. one "car"%string. arg.
  - eapply turn_next; [auto|constructor|auto| |apply (IH x Q S w I R)].
    intros S' IN. assert (R' : ready S' w) by (eapply inside_ready0; eauto).
    apply body_one. eapply f_if; [auto|one "cdr"%string; arg|].
    assert (E : is_null (val1 "cdr" (mk_list (a :: l ++ [x]))) = false) by (cbn; destruct l; reflexivity). rewrite E.
    cbn [car cdr].
    change (Runs S' (Pair false (Sym true (sy "last")) (mk_list [(| sym "cdr"; sym "LST" |)])) w
        (Ret (again (sy "last") ["LST"]%string [mk_list (l ++ [x])]) w)).
    apply (marked_call O S' false [] (sy "last") ["LST"]%string [last_body]);
      [discriminate|auto|rewrite <- lib_last; apply ready_means; [auto|cbn; tauto]|].
    apply list1. change (mk_list (l ++ [x])) with (val1 "cdr" (mk_list (a :: l ++ [x]))). one "cdr"%string. arg.
Qed.
Lemma last_ok : forall l x, is_tail_call x = false -> forall S w, increasing S -> ready S w ->
  answers O S (sy "last") (lib "last") [mk_list (l ++ [x])] w (Ret x w).
Proof. intros. rewrite lib_last. apply turns_answer; [discriminate|auto|]. apply last_turns; auto. Qed.

(** ** rep, truncl *)
Lemma rep_ok : forall m z v, Z.to_nat z = m -> int64 z -> forall S w, increasing S -> ready S w ->
  applied O S (lib "rep") [Num z; v] w (Ret (mk_list (repeat v m)) w).
Proof.
  induction m as [|m IH]; intros z v E B S w I R; rewrite lib_rep; (apply apply_fun0; [auto|auto|apply mk_quiet|]);
    intros S' IN; assert (R' : ready S' w) by (eapply inside_ready0; eauto);
    (destruct (f_cmp ">"%string Z.gt S' false false false (sym "n") false (Num 0) w z w 0%Z w) as [b [[[T ->]|[T ->]] X]];
      [cbn; tauto|constructor|auto|arg|apply f_const; auto| |]); try lia.
  - eapply f_if; [auto|exact X|]. cbn. apply f_const. auto.
  - eapply f_if; [auto|exact X|]. cbn [is_null car]. cbn [repeat].
    change (mk_list (v :: repeat v m)) with (val2 "cons" v (mk_list (repeat v m))).
    eapply (f_two O "cons" S' _ _ _ _ _ _ w v w); [cbn; tauto|auto|arg|].
    change (Runs S' (Pair false (sym "rep") (mk_list [(| sym "-"; sym "n"; Num 1 |); sym "atm"])) w (Ret (mk_list (repeat v m)) w)).
    apply (IH (z - 1)%Z v ltac:(lia) ltac:(unfold int64 in *; lia) S' w (proj1 IN) R'); [apply ready_means; [auto|cbn; tauto]|].
    apply list2 with w; [|arg].
    eapply (f_arith "-"%string S') with (a := z) (b := 1%Z); [cbn; tauto|auto|arg|apply f_const; auto|auto|auto|].
    constructor. unfold int64 in *; lia.
Qed.
(** The first [m] elements, NIL for the missing ones. *)
Fixpoint prefix (m : nat) (l : list atom) : list atom :=
  match m with 0 => [] | Datatypes.S m' => match l with [] => Nil :: prefix m' [] | a :: l' => a :: prefix m' l' end end.
Lemma prefix_firstn : forall m l, m <= length l -> prefix m l = firstn m l.
Proof. induction m; intros [|a l] L; cbn in *; auto; try lia. rewrite IHm by lia. auto. Qed.
Lemma truncl_ok : forall m z l, Z.to_nat z = m -> int64 z -> forall S w, increasing S -> ready S w ->
  applied O S (lib "truncl") [Num z; mk_list l] w (Ret (mk_list (prefix m l)) w).
Proof.
  induction m as [|m IH]; intros z l E B S w I R; rewrite lib_truncl; (apply apply_fun0; [auto|auto|apply mk_quiet|]);
    intros S' IN; assert (R' : ready S' w) by (eapply inside_ready0; eauto);
    (destruct (f_cmp ">"%string Z.gt S' false false false (sym "n") false (Num 0) w z w 0%Z w) as [b [[[T ->]|[T ->]] X]];
      [cbn; tauto|constructor|auto|arg|apply f_const; auto| |]); try lia.
  - change (Runs S' (Pair false (sym "when") (Pair false (| sym ">"; sym "n"; Num 0 |) (mk_list
      [(| sym "cons"; (| sym "car"; sym "lst" |); (| sym "truncl"; (| sym "-"; sym "n"; Num 1 |); (| sym "cdr"; sym "lst" |) |) |)])))
      w (Ret (mk_list (prefix 0 l)) w)).
    eapply f_when; [auto|exact X|]. reflexivity.
  - change (Runs S' (Pair false (sym "when") (Pair false (| sym ">"; sym "n"; Num 0 |) (mk_list
      [(| sym "cons"; (| sym "car"; sym "lst" |); (| sym "truncl"; (| sym "-"; sym "n"; Num 1 |); (| sym "cdr"; sym "lst" |) |) |)])))
      w (Ret (mk_list (prefix (Datatypes.S m) l)) w)).
    eapply f_when; [auto|exact X|]. cbn [is_null]. apply body_one.
    assert (PE : mk_list (prefix (Datatypes.S m) l) = val2 "cons" (val1 "car" (mk_list l)) (mk_list (prefix m (tl l)))).
    { destruct l; reflexivity. }
    rewrite PE.
    eapply (f_two O "cons" S' _ _ _ _ _ _ w _ w); [cbn; tauto|auto|one "car"%string; arg|].
    change (Runs S' (Pair false (sym "truncl") (mk_list [(| sym "-"; sym "n"; Num 1 |); (| sym "cdr"; sym "lst" |)])) w
      (Ret (mk_list (prefix m (tl l))) w)).
    apply (IH (z - 1)%Z (tl l) ltac:(lia) ltac:(unfold int64 in *; lia) S' w (proj1 IN) R'); [apply ready_means; [auto|cbn; tauto]|].
    apply list2 with w.
    + eapply (f_arith "-"%string S') with (a := z) (b := 1%Z); [cbn; tauto|auto|arg|apply f_const; auto|auto|auto|].
      constructor. unfold int64 in *; lia.
    + replace (mk_list (tl l)) with (val1 "cdr" (mk_list l)) by (destruct l; reflexivity). one "cdr"%string. arg.
Qed.

(** ** <|> *)
Lemma orelse_ok : forall a b S w, is_tail_call a = false -> is_tail_call b = false -> increasing S -> ready S w ->
  applied O S (lib "<|>") [a; b] w (Ret (if is_null a then b else a) w).
Proof.
  intros a b S w Q1 Q2 I R. rewrite lib_orelse. apply apply_fun0; auto; [destruct (is_null a); auto|]. intros S' IN.
  assert (R' : ready S' w) by (eapply inside_ready0; eauto).
  eapply f_if; [auto|arg|]. destruct (is_null a); cbn [car cdr]; arg.
Qed.
End More.
