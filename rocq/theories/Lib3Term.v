(** * Lib3Term: the functions of term.l. *)
From Verif Require Import Base Value ValueSpec ValueProofs Tails Print Eval EvalSpec EvalProofs
  Sem1 Sem2 Sem3 Sem4 Sem5 TailsProofs TailsSem BuiltinSpec Sem6 Cases Lib LibSpec LibBase LibProofs LibDerived LibMore LibAssoc
  LibCases Lib2Proofs Lib3 Lib3Spec.
Open Scope nat_scope.

(** ** The definitions, as stored *)
Notation esc_body :=
  (Cons (sym "|>") (Cons (mk_list [Chr 91; Chr 48; Chr 109]) (mk_list [(| sym "cons"; (| sym "chr"; Num 27 |) |);
     (| sym "$+"; sym "STR" |); (| sym "cons"; Chr 109 |); (| sym "$+"; sym "CODE" |); (| sym "cons"; Chr 91 |);
     (| sym "cons"; (| sym "chr"; Num 27 |) |)]))).
Lemma lib4_esc : lib4 "term:esc" = lam (pars ["CODE"; "STR"]%string) [] [esc_body].
Proof. vm_compute. reflexivity. Qed.
Notation left_in :=
  (| sym "if"; (| sym ">="; sym "delta"; Num 0 |); (| sym "$+"; sym "STR"; (| sym "rep"; sym "delta"; Chr 32 |) |);
     (| sym "truncl"; sym "WLEN"; sym "STR" |) |).
Notation right_in :=
  (| sym "if"; (| sym ">="; sym "delta"; Num 0 |); (| sym "$+"; (| sym "rep"; sym "delta"; Chr 32 |); sym "STR" |);
     (| sym "truncr"; sym "WLEN"; sym "STR" |) |).
Notation fit_let x :=
  (Cons (sym "let") (Cons (bindings (map (fun p => (sym (fst p), snd p)) [("delta"%string, (| sym "-"; sym "WLEN"; (| sym "len"; sym "STR" |) |))])) (mk_list [x]))).
Lemma lib4_left : lib4 "term:left" = lam (pars ["WLEN"; "STR"]%string) [] [fit_let left_in].
Proof. vm_compute. reflexivity. Qed.
Lemma lib4_right : lib4 "term:right" = lam (pars ["WLEN"; "STR"]%string) [] [fit_let right_in].
Proof. vm_compute. reflexivity. Qed.
Lemma lib4_style : forall s code, In (s, code) styles ->
  lib4 ("term:" ++ s) = lam (pars ["STR"]%string) [] [(| sym "term:esc"; mk_list (text code); sym "STR" |)].
Proof.
  intros s code H. repeat (destruct H as [H|H]; [injection H as <- <-; vm_compute; reflexivity|]). destruct H.
Qed.
Lemma lib4_used : forall s, In s used3 -> lib4 s = the s.
Proof. intros s H. repeat (destruct H as [<-|H]; [vm_compute; reflexivity|]). destruct H. Qed.

(** ** Scopes *)
Lemma ready3_calls : forall S w s, ready3 S w -> In s used3 -> calls S w s.
Proof. intros S w s [_ R] I. unfold calls. rewrite <- lib4_used by auto. apply R. apply in_or_app; auto. Qed.
Lemma ready3_means : forall S w s, ready3 S w -> In s given3 -> means S w (sy s) (lib4 s).
Proof. intros S w s [_ R] I. apply R. apply in_or_app; auto. Qed.
Definition names3 : list string := (used ++ given) ++ (used3 ++ given3).
Lemma clear_app : forall h a b, clear_of h (a ++ b) = true -> clear_of h a = true /\ clear_of h b = true.
Proof. intros h a b H. unfold clear_of in *. rewrite forallb_app in H. apply andb_prop in H. auto. Qed.
Lemma ready3_apart : forall hid c S w, apart hid c S -> clear_of hid names3 = true -> ready3 c w -> ready3 S w.
Proof.
  intros hid c S w AP C [R G]. apply clear_app in C. destruct C as [C1 C2]. split; [eapply ready_apart; eauto|].
  intros s I. eapply means_same; [|apply (G s I)]. rewrite apart_get in AP. apply AP.
  intros h J. eapply clear_not; eauto.
Qed.
Lemma inside_ready3 : forall hs vs d S S' w, inside hs vs d S S' -> clear_of hs names3 = true ->
  ready3 d w -> ready3 S w -> ready3 S' w.
Proof.
  intros hs vs d S S' w IN C [Rd Gd] [RS GS]. apply clear_app in C. destruct C as [C1 C2].
  split; [eapply inside_ready; eauto|]. intros s I.
  eapply inside_means; [exact IN| |apply (Gd s I)|apply (GS s I)].
  unfold clear_of in C2 |- *. rewrite forallb_forall in C2. apply forallb_forall. intros s' [<-|[]]. apply C2, I.
Qed.
Ltac known3 := apply ready3_calls; [assumption|cbn; tauto].

Section Term.
Variable O : oracle.
Notation Runs := (runs O).
Notation quoted v := (Cons (sym "quote") v).

(** A call whose head is an expression. *)
Lemma head_fun : forall S t h hs d body es vs w0 w1 w v w', increasing S -> NoDup (map fst d) -> body <> [] ->
  is_tail_call h = false -> length vs = length hs -> is_tail_call v = false ->
  Runs S h w0 (Ret (lam (pars hs) d body) w1) -> runs_list O S es w1 (Ret vs w) ->
  (forall S', inside hs vs d S S' -> runs_body O S' body Nil w (Ret v w')) ->
  Runs S (Pair t h (mk_list es)) w0 (Ret v w').
Proof.
  intros S t h hs d body es vs w0 w1 w v w' I N B Th L Q E A H.
  destruct (scope_exists (map (fun p => [p]) (combine (map sy hs) vs) ++ [] ++ [d; S])) as [S' SC].
  assert (IN : inside hs vs d S S').
  { apply scope_iff in SC. destruct SC as [I' G]. split; auto. intro k. rewrite G, lget_single.
    cbn [app lget]. auto. }
  specialize (H S' IN). rewrite !mk_arg_list in *.
  assert (LE : length es = length (names (map sy hs))).
  { apply runs_list_len in A. unfold names. rewrite !map_length. congruence. }
  apply (call_scope O S t h (names (map sy hs)) Nil d body es Nil w0 w1 vs w
    (map (fun p => [p]) (combine (map sy hs) vs)) [] S'); auto.
  - apply linear_names.
  - apply layers_names; auto.
  - constructor.
  - intros o X. rewrite <- Rprog_list in X, H.
    assert (Z := conv_unique _ o (Ret v w') (prog_monof O S' (mk_list body) Nil w) X H). subst o. exact Q.
Qed.
(** A function of two parameters given one argument. *)
Lemma part_fun : forall S t h a b body e w0 v w1, body <> [] ->
  means S w0 h (lam (pars [a; b]) [] body) -> Runs S e w0 (Ret v w1) ->
  Runs S (Pair t (Symb h) (mk_list [e])) w0 (Ret (lam (pars [b]) [(sy a, v)] body) w1).
Proof.
  intros S t h a b body e w0 v w1 B M E.
  apply (partial_runs O S t (Symb h) [sym a] [sym b] Nil [] body [e] w0 w0); auto.
  - apply f_sym. rewrite <- mk_arg_list. exact M.
  - discriminate.
  - left. exists [v], w1. split; [apply list1; auto|]. rewrite <- mk_arg_list. reflexivity.
Qed.
Lemma stage_cons : forall S e w a v, ready S w -> Runs S e w (Ret a w) ->
  Runs S (mk_list [(| sym "cons"; e |); quoted v]) w (Ret (Cons a v) w).
Proof.
  intros S e w a v R E. cbn [mk_list]. apply runs_pair. left.
  exists (Cons (mk_list [sym "Y"]) (Cons (atom_of_env [(sy "X", a)]) (Num 6))), w. split.
  - assert (C : calls S w "cons") by known. unfold calls in C. change (the "cons") with (builtin 6 Two) in C.
    rewrite (runs_head O _ _ _ _ _ _ _ _ C (builtin_func 6 Two)).
    rewrite (builtin_call O _ _ _ _ Pcons) by reflexivity. cbn [args_of may_apply is_null].
    left. exists ([(sy "X", a)], mk_list [sym "Y"]), w. split.
    + apply Rargs_pair. left. exists a, w. split; auto. apply Rargs_out; reflexivity.
    + reflexivity.
  - set (f := Cons (mk_list [sym "Y"]) (Cons (atom_of_env [(sy "X", a)]) (Num 6))).
    change (is_func f) with true. cbv iota. apply Rfunc_eq. unfold f. cbn [car cdr mk_list may_apply is_null].
    left. exists ([(sy "Y", v)], Nil), w. split.
    + apply Rargs_pair. left. exists v, w. split; [apply f_quote; auto|]. apply Rargs_nil. reflexivity.
    + cbn [fst snd is_null]. rewrite env_of_atom_of_env. apply conv_ret. reflexivity.
Qed.
(** The body of [$+]. *)
Lemma plus_body : forall S a b w, increasing S -> ready S w ->
  env_get S (sy "x") = Some (mk_list a) -> env_get S (sy "y") = Some (mk_list b) ->
  Runs S (| sym "append"; sym "x"; sym "y" |) w (Ret (mk_list (a ++ b)) w).
Proof.
  intros S a b w I R X Y.
  change (Runs S (Pair false (sym "append") (Cons (sym "x") (mk_list [sym "y"]))) w (Ret (mk_list (a ++ b)) w)).
  rewrite <- (app_nil_r b). apply append_ok with w; auto; [apply f_sym, means_get; auto|].
  apply joins_cons with w; [|exact R|constructor].
  apply joins_name; auto.
  intros s J. repeat (destruct J as [<-|J]; [vm_compute; discriminate|]). destruct J.
Qed.
Lemma stage_plus : forall S e w a b, increasing S -> ready S w -> Runs S e w (Ret (mk_list a) w) ->
  Runs S (mk_list [(| sym "$+"; e |); quoted (mk_list b)]) w (Ret (mk_list (a ++ b)) w).
Proof.
  intros S e w a b I R E.
  assert (M : means S w (sy "$+") (lib "$+")) by (apply ready_means; [auto|cbn; tauto]). rewrite lib_plus in M.
  change (Runs S (Pair false (| sym "$+"; e |) (mk_list [quoted (mk_list b)])) w (Ret (mk_list (a ++ b)) w)).
  eapply (head_fun S false (| sym "$+"; e |) ["y"%string] [(sy "x", mk_list a)]
    [(| sym "append"; sym "x"; sym "y" |)] _ [mk_list b] w w w);
    [auto|repeat constructor; cbn; tauto|discriminate|reflexivity|reflexivity|apply mk_quiet| | |].
  - apply (part_fun S false (sy "$+") "x" "y" [(| sym "append"; sym "x"; sym "y" |)] e w (mk_list a) w); [discriminate|exact M|exact E].
  - apply list1, f_quote. auto.
  - intros S' IN. apply body_one. apply plus_body; [apply IN| |destruct IN as [_ G]; rewrite G; reflexivity|destruct IN as [_ G]; rewrite G; reflexivity].
    intros s J. eapply means_same; [|apply (R s J)]. destruct IN as [_ G]. rewrite G. cbn [lget].
    rewrite combine_none by (intros h K; eapply (clear_not ["y"%string] (used ++ given)); eauto).
    change [(sy "x", mk_list a)] with (combine (map sy ["x"%string]) [mk_list a]).
    rewrite combine_none by (intros h K; eapply (clear_not ["x"%string] (used ++ given)); eauto).
    destruct (env_get S (sy s)); auto.
Qed.
Lemma chr_esc : forall S w, ready3 S w -> Runs S (| sym "chr"; Num 27 |) w (Ret (Chr 27) w).
Proof.
  intros S w R. destruct (chr_runs O S false false false (Num 27) w 27%Z w) as [k [K X]]; [known3|apply f_const; auto|].
  destruct K as [K1 [q K2]]. replace k with 27%Z in X by lia. exact X.
Qed.
Lemma esc_ok : forall S code s w, increasing S -> ready3 S w ->
  applied O S (lib4 "term:esc") [mk_list code; mk_list s] w (Ret (mk_list (esc code s)) w).
Proof.
  intros S code s w I R. rewrite lib4_esc. apply apply_fun0; [auto|auto|reflexivity|]. intros S' IN.
  assert (R3 : ready3 S' w) by (eapply ready3_apart; [eapply inside_apart; exact IN|reflexivity|auto]).
  assert (R' : ready S' w) by apply R3. assert (I' : increasing S') by apply IN.
  apply pipe_call_runs; [known|].
  eapply pipe_next; [apply f_text|].
  eapply pipe_next; [apply stage_cons; [auto|apply chr_esc; auto]|].
  change (Cons (Chr 27) (Cons (Chr 91) (Cons (Chr 48) (Cons (Chr 109) Nil)))) with (mk_list [Chr 27; Chr 91; Chr 48; Chr 109]).
  eapply pipe_next; [apply stage_plus; [auto|auto|arg]|].
  eapply pipe_next; [apply stage_cons; [auto|apply f_const; auto]|].
  change (Cons (Chr 109) (mk_list (s ++ [Chr 27; Chr 91; Chr 48; Chr 109]))) with (mk_list (Chr 109 :: s ++ [Chr 27; Chr 91; Chr 48; Chr 109])).
  eapply pipe_next; [apply stage_plus; [auto|auto|arg]|].
  eapply pipe_next; [apply stage_cons; [auto|apply f_const; auto]|].
  apply pipe_last. apply stage_cons; [auto|apply chr_esc; auto].
Qed.
Lemma text_runs : forall S s w, s <> EmptyString -> Runs S (mk_list (text s)) w (Ret (mk_list (text s)) w).
Proof. intros S s w N. destruct s; [congruence|]. apply f_text. Qed.
Lemma style_ok : forall s code S l w, In (s, code) styles -> increasing S -> ready3 S w ->
  applied O S (lib4 ("term:" ++ s)) [mk_list l] w (Ret (mk_list (esc (text code) l)) w).
Proof.
  intros s code S l w H I R. rewrite (lib4_style s code H). apply apply_fun0; [auto|auto|reflexivity|]. intros S' IN.
  assert (R3 : ready3 S' w) by (eapply ready3_apart; [eapply inside_apart; exact IN|reflexivity|auto]).
  apply (esc_ok S' (text code) l w (proj1 IN) R3 (sy "term:esc") false [mk_list (text code); sym "STR"] w);
    [apply ready3_means; [auto|cbn; tauto]|].
  apply list2 with w; [|arg]. apply text_runs.
  repeat (destruct H as [H|H]; [injection H as <- <-; discriminate|]). destruct H.
Qed.

(** ** Padding *)
Lemma len_list : forall S t t1 e w s w1, ready3 S w -> Runs S e w (Ret (mk_list s) w1) ->
  Runs S (Pair t (sym "len") (Pair t1 e Nil)) w (Ret (Num (Z.of_nat (length s))) w1).
Proof.
  intros S t t1 e w s w1 R E. apply len_runs; [known3|]. left. exists (mk_list s), w1. split; auto.
  eexists. split; [|reflexivity]. apply length_list.
  - destruct s; [left; auto|right; cbn; eauto].
  - clear. induction s; cbn; [apply spine_end; discriminate|constructor; auto].
Qed.
Lemma fit_cases : forall (x : atom) S z s w r, increasing S -> ready3 S w ->
  env_get S (sy "WLEN") = Some (Num z) -> env_get S (sy "STR") = Some (mk_list s) ->
  int64 (z - Z.of_nat (length s)) ->
  (forall S', increasing S' -> ready3 S' w -> env_get S' (sy "WLEN") = Some (Num z) -> env_get S' (sy "STR") = Some (mk_list s) ->
     env_get S' (sy "delta") = Some (Num (z - Z.of_nat (length s))) -> Runs S' x w (Ret r w)) ->
  Runs S (fit_let x) w (Ret r w).
Proof.
  intros x S z s w r I R E1 E2 B H. assert (R0 : ready S w) by apply R.
  eapply (f_let O S false [("delta"%string, (| sym "-"; sym "WLEN"; (| sym "len"; sym "STR" |) |))] [x] w
    [Num (z - Z.of_nat (length s))] w); [auto|auto| |].
  - eapply lets_cons with (w1 := w); [intros S' IN|left; reflexivity|constructor].
    assert (AP := inside_apart _ _ _ _ IN).
    assert (R3 : ready3 S' w) by (eapply ready3_apart; [exact AP|reflexivity|auto]).
    rewrite apart_get in AP.
    eapply (f_arith O "-"%string S') with (a := z) (b := Z.of_nat (length s)) (v1 := Num z) (v2 := Num (Z.of_nat (length s))); [cbn; tauto|apply R3| | |reflexivity|reflexivity|].
    + apply f_sym, means_get. rewrite AP; auto.
    + apply len_list; auto. apply f_sym, means_get. rewrite AP; auto.
    + constructor. auto.
  - intros S' IN. apply body_one. assert (AP := inside_apart _ _ _ _ IN).
    assert (R3 : ready3 S' w) by (eapply ready3_apart; [exact AP|reflexivity|auto]).
    rewrite apart_get in AP. apply H; auto.
    + apply IN.
    + rewrite AP; auto. apply none_of. reflexivity.
    + rewrite AP; auto. apply none_of. reflexivity.
    + eapply inside_get; [exact IN|reflexivity].
Qed.
Lemma delta_runs : forall S w d, ready3 S w -> env_get S (sy "delta") = Some (Num d) ->
  Runs S (| sym ">="; sym "delta"; Num 0 |) w (Ret (truth (0 <=? d)%Z) w).
Proof.
  intros S w d R E.
  apply (compare_exact O ">=" Z.ge S false false false (sym "delta") false (Num 0) w d w 0%Z w);
    [constructor|known3|apply f_sym, means_get; auto|apply f_const; auto|].
  destruct (Z.leb_spec 0 d); [left|right]; split; auto; lia.
Qed.
Lemma left_body : forall S z s w, increasing S -> ready3 S w ->
  env_get S (sy "WLEN") = Some (Num z) -> env_get S (sy "STR") = Some (mk_list s) ->
  int64 z -> int64 (z - Z.of_nat (length s)) ->
  Runs S (fit_let left_in) w (Ret (mk_list (fit_left (Z.to_nat z) s)) w).
Proof.
  intros S z s w I R E1 E2 B1 B2. eapply fit_cases; eauto. intros S' I' R3 G1 G2 G3.
  assert (R' : ready S' w) by apply R3. unfold fit_left.
  eapply f_if; [auto|apply (delta_runs S' w _ R3 G3)|].
  destruct (Z.leb_spec 0 (z - Z.of_nat (length s))) as [L|L]; cbn [truth is_null car cdr].
  - rewrite firstn_all2 by lia.
    apply (plus_ok O S' s (repeat (Chr 32) (Z.to_nat z - length s)) w I' R' (sy "$+") false
      [sym "STR"; (| sym "rep"; sym "delta"; Chr 32 |)] w); [apply ready_means; [auto|cbn; tauto]|].
    apply list2 with w; [apply f_sym, means_get; auto|].
    apply (rep_ok O (Z.to_nat z - length s) (z - Z.of_nat (length s)) (Chr 32) ltac:(lia) B2 S' w I' R' (sy "rep") false
      [sym "delta"; Chr 32] w); [apply ready_means; [auto|cbn; tauto]|].
    apply list2 with w; [apply f_sym, means_get; auto|apply f_const; auto].
  - replace (repeat (Chr 32) (Z.to_nat z - length s)) with (repeat Nil (Z.to_nat z - length s))
      by (replace (Z.to_nat z - length s) with 0 by lia; reflexivity).
    apply (truncl_padded O z s S' w B1 I' R' (sy "truncl") false [sym "WLEN"; sym "STR"] w); [apply ready_means; [auto|cbn; tauto]|].
    apply list2 with w; apply f_sym, means_get; auto.
Qed.
Lemma right_body : forall S z s w, increasing S -> ready3 S w ->
  env_get S (sy "WLEN") = Some (Num z) -> env_get S (sy "STR") = Some (mk_list s) ->
  int64 z -> int64 (z - Z.of_nat (length s)) ->
  Runs S (fit_let right_in) w (Ret (mk_list (fit_right (Z.to_nat z) s)) w).
Proof.
  intros S z s w I R E1 E2 B1 B2. eapply fit_cases; eauto. intros S' I' R3 G1 G2 G3.
  assert (R' : ready S' w) by apply R3. unfold fit_right.
  eapply f_if; [auto|apply (delta_runs S' w _ R3 G3)|].
  destruct (Z.leb_spec 0 (z - Z.of_nat (length s))) as [L|L]; cbn [truth is_null car cdr].
  - replace (length s - Z.to_nat z) with 0 by lia. cbn [skipn].
    apply (plus_ok O S' (repeat (Chr 32) (Z.to_nat z - length s)) s w I' R' (sy "$+") false
      [(| sym "rep"; sym "delta"; Chr 32 |); sym "STR"] w); [apply ready_means; [auto|cbn; tauto]|].
    apply list2 with w; [|apply f_sym, means_get; auto].
    apply (rep_ok O (Z.to_nat z - length s) (z - Z.of_nat (length s)) (Chr 32) ltac:(lia) B2 S' w I' R' (sy "rep") false
      [sym "delta"; Chr 32] w); [apply ready_means; [auto|cbn; tauto]|].
    apply list2 with w; [apply f_sym, means_get; auto|apply f_const; auto].
  - replace (repeat (Chr 32) (Z.to_nat z - length s)) with (repeat Nil (Z.to_nat z - length s))
      by (replace (Z.to_nat z - length s) with 0 by lia; reflexivity).
    apply (truncr_padded O z s S' w B1 I' R' (sy "truncr") false [sym "WLEN"; sym "STR"] w); [apply ready_means; [auto|cbn; tauto]|].
    apply list2 with w; apply f_sym, means_get; auto.
Qed.
Lemma fit_ok : forall f fit S z s w, In (f, fit) [("term:left"%string, fit_left); ("term:right"%string, fit_right)] ->
  increasing S -> ready3 S w -> int64 z -> int64 (z - Z.of_nat (length s)) ->
  applied O S (lib4 f) [Num z; mk_list s] w (Ret (mk_list (fit (Z.to_nat z) s)) w).
Proof.
  intros f fit S z s w H I R B1 B2.
  destruct H as [H|[H|[]]]; injection H as <- <-; [rewrite lib4_left|rewrite lib4_right];
    (apply apply_fun0; [auto|auto|apply mk_quiet|]); intros S' IN;
    assert (R3 : ready3 S' w) by (eapply ready3_apart; [eapply inside_apart; exact IN|reflexivity|auto]);
    [apply left_body|apply right_body]; auto; try apply IN; eapply inside_get; try exact IN; reflexivity.
Qed.
End Term.
