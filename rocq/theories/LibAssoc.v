(** * LibAssoc: erase, replc, truncr, append. *)
From Verif Require Import Base Value ValueSpec ValueProofs Tails Print Eval EvalSpec EvalProofs
  Sem1 Sem2 Sem3 Sem4 Sem5 TailsProofs TailsSem BuiltinSpec Sem6 Cases Lib LibSpec LibBase LibProofs LibDerived LibMore.
Open Scope nat_scope.

Notation kv_pars := (mk_list [Cons (sym "_k") (sym "_v"); sym "acc"]).
Notation erase_fun :=
  (| sym "if"; (| sym "="; sym "k"; sym "_k" |); sym "acc";
     (| sym "cons"; (| sym "cons"; sym "_k"; sym "_v" |); sym "acc" |) |).
Notation erase_body :=
  (| sym "foldr"; Cons (sym "\") (Cons kv_pars (mk_list [erase_fun])); sym "lst"; Nil |).
Lemma lib_erase : lib "erase" = lam (pars ["k"; "lst"]%string) [] [erase_body].
Proof. vm_compute. reflexivity. Qed.
Notation replc_fun :=
  (| sym "if"; (| sym "="; sym "k"; sym "_k" |); (| sym "cons"; (| sym "cons"; sym "k"; sym "v" |); sym "acc" |);
     (| sym "cons"; (| sym "cons"; sym "_k"; sym "_v" |); sym "acc" |) |).
Notation replc_body :=
  (| sym "foldr"; Cons (sym "\") (Cons kv_pars (mk_list [replc_fun])); sym "lst"; Nil |).
Lemma lib_replc : lib "replc" = lam (pars ["k"; "v"; "lst"]%string) [] [replc_body].
Proof. vm_compute. reflexivity. Qed.
Notation truncr_body := (| sym "|>"; sym "lst"; sym "rev"; (| sym "truncl"; sym "n" |); sym "rev" |).
Lemma lib_truncr : lib "truncr" = lam (pars ["n"; "lst"]%string) [] [truncr_body].
Proof. vm_compute. reflexivity. Qed.
Notation append_in := (| sym "cons"; sym "e1"; sym "acc1" |).
Notation append_fun :=
  (| sym "foldr"; Cons (sym "\") (Cons (pars ["e1"; "acc1"]%string) (mk_list [append_in])); sym "acc0";
     (| sym "eval"; sym "e0" |) |).
Notation append_body :=
  (| sym "foldl"; Cons (sym "\") (Cons (pars ["acc0"; "e0"]%string) (mk_list [append_fun])); sym "x"; sym "@" |).
Lemma lib_append : lib "append" = lam (arg_list [sym "x"] (sym "@")) [] [append_body].
Proof. vm_compute. reflexivity. Qed.
Lemma lib_plus : lib "$+" = lam (pars ["x"; "y"]%string) [] [(| sym "append"; sym "x"; sym "y" |)].
Proof. vm_compute. reflexivity. Qed.

Section Assoc.
Variable O : oracle.
Notation Runs := (runs O).

(** A call with patterns and a rest. *)
Lemma call_any : forall S t h ps tl d body es rest vs w0 w v w' ls rl,
  means S w0 h (lam (arg_list ps tl) d body) -> increasing S -> NoDup (map fst d) -> body <> [] -> Forall linear ps ->
  length es = length ps -> runs_list O S es w0 (Ret vs w) -> layers ps vs ls -> rest_layer tl rest rl ->
  is_tail_call v = false ->
  (forall S', increasing S' -> (forall k, env_get S' k = lget (ls ++ rl ++ [d; S]) k) ->
     runs_body O S' body Nil w (Ret v w')) ->
  Runs S (Pair t (Symb h) (arg_list es rest)) w0 (Ret v w').
Proof.
  intros S t h ps tl d body es rest vs w0 w v w' ls rl M I N B L E A LS RL Q H.
  destruct (scope_exists (ls ++ rl ++ [d; S])) as [S' SC].
  assert (X : runs_body O S' body Nil w (Ret v w')).
  { apply scope_iff in SC. destruct SC as [I' G]. apply H; auto. }
  apply (call_scope O S t (Symb h) ps tl d body es rest w0 w0 vs w ls rl S'); auto.
  - apply f_sym; auto.
  - intros o Y. rewrite <- Rprog_list in X, Y.
    assert (Z := conv_unique _ o (Ret v w') (prog_monof O S' (mk_list body) Nil w) Y X). subst o. exact Q.
Qed.

Lemma kv_linear : linear (Cons (sym "_k") (sym "_v")).
Proof.
  intros k [|[|] [|? p]] [|[|] [|? q]] H1 H2; cbn in H1, H2; auto; try tauto; try (destruct H1; discriminate);
    try (destruct H2; discriminate).
  - destruct H1 as [? H1], H2 as [? H2]. injection H1 as _ <-. discriminate.
  - destruct H1 as [? H1], H2 as [? H2]. injection H1 as _ <-. discriminate.
Qed.
Lemma apply_kv : forall S d x a b r w v w', increasing S -> NoDup (map fst d) -> is_tail_call v = false ->
  (forall S', inside ["_k"; "_v"; "acc"]%string [a; b; r] d S S' -> Runs S' x w (Ret v w')) ->
  applied O S (lam kv_pars d [x]) [Cons a b; r] w (Ret v w').
Proof.
  intros S d x a b r w v w' I N Q H h t es w0 M A. rewrite !mk_arg_list in *.
  eapply (call_any S t h [Cons (sym "_k") (sym "_v"); sym "acc"] Nil d [x] es Nil [Cons a b; r]); eauto.
  - discriminate.
  - repeat constructor; [apply kv_linear|apply linear_sym].
  - apply runs_list_len in A. auto.
  - constructor; [apply layer_bind, kv_linear|constructor; [apply layer_bind, linear_sym|constructor]].
  - constructor.
  - intros S' I' G. apply body_one, H. split; auto. intro k. rewrite G.
    cbn [bind app lget env_get map combine].
    destruct (sym_match (sy "_k") k) eqn:E1; [|destruct (sym_match (sy "_v") k) eqn:E2; auto].
    + apply sym_match_eq in E1. subst k. reflexivity.
Qed.
Lemma acts_kv : forall c d hid x (F : behaviour), NoDup (map fst d) -> clear_of hid (used ++ given) = true ->
  (forall vs w b w', F vs w b w' -> is_tail_call b = false /\ (ready c w -> ready c w')) ->
  (forall vs w b w', F vs w b w' -> exists k v r, vs = [Cons k v; r]) ->
  (forall w, ready c w -> ready d w) ->
  (forall S S' k v r w b w', increasing S -> apart hid c S -> inside ["_k"; "_v"; "acc"]%string [k; v; r] d S S' ->
     ready c w -> ready S' w -> F [Cons k v; r] w b w' -> Runs S' x w (Ret b w')) ->
  acts O c hid (lam kv_pars d [x]) F.
Proof.
  intros c d hid x F N C1 H1 HL HD H2. split; [|apply H1].
  intros S vs w b w' I AP R HF. destruct (H1 _ _ _ _ HF) as [Q K]. destruct (HL _ _ _ _ HF) as [k [v [r ->]]].
  apply apply_kv; auto. intros S' IN. eapply H2; eauto. eapply inside_ready; eauto. eapply ready_apart; eauto.
Qed.

(** ** erase and replc *)
Definition entering (pick : atom -> atom -> atom -> atom) : behaviour :=
  pure (fun vs b => exists k v r, vs = [Cons k v; r] /\ is_tail_call r = false /\ b = pick k v r).
Definition erasing (k : atom) (k1 v r : atom) : atom := if equ k k1 then r else Cons (Cons k1 v) r.
Definition replacing (k x : atom) (k1 v r : atom) : atom := if equ k k1 then Cons (Cons k x) r else Cons (Cons k1 v) r.
Lemma alist_quiet : forall l, is_tail_call (alist l) = false.
Proof. intros l. apply mk_quiet. Qed.
Lemma erase_fold : forall k l r w, erased k l r -> folds_right (entering (erasing k)) Nil (map (fun p => Cons (fst p) (snd p)) l) w (alist r) w.
Proof.
  intros k l r w H. induction H as [|k1 v l r E H IH|k1 v l r E H IH]; cbn [map fst snd]; [constructor| |];
    (eapply fr_cons; [exact IH|]); (split; [|auto]); exists k1, v, (alist r); repeat split; try apply alist_quiet;
    unfold erasing.
  - apply equ_same in E. rewrite E. auto.
  - destruct (equ k k1) eqn:X; auto. apply equ_same in X. tauto.
Qed.
Lemma replc_fold : forall k x l r w, replaced k x l r ->
  folds_right (entering (replacing k x)) Nil (map (fun p => Cons (fst p) (snd p)) l) w (alist r) w.
Proof.
  intros k x l r w H. induction H as [|k1 v l r E H IH|k1 v l r E H IH]; cbn [map fst snd]; [constructor| |];
    (eapply fr_cons; [exact IH|]); (split; [|auto]); exists k1, v, (alist r); repeat split; try apply alist_quiet;
    unfold replacing.
  - apply equ_same in E. rewrite E. auto.
  - destruct (equ k k1) eqn:X; auto. apply equ_same in X. tauto.
Qed.
Lemma entering_facts : forall pick c, (forall k v r, is_tail_call r = false -> is_tail_call (pick k v r) = false) ->
  forall vs w b w', entering pick vs w b w' -> is_tail_call b = false /\ (ready c w -> ready c w').
Proof. intros pick c H vs w b w' [[k [v [r [-> [Q ->]]]]] ->]. auto. Qed.
Lemma entering_list : forall pick vs w b w', entering pick vs w b w' -> exists k v r, vs = [Cons k v; r].
Proof. intros pick vs w b w' [[k [v [r [-> _]]]] _]. eauto. Qed.

Lemma erase_ok : forall k l r, erased k l r -> forall S w, increasing S -> ready S w ->
  applied O S (lib "erase") [k; alist l] w (Ret (alist r) w).
Proof.
  intros k l r H S w I R. rewrite lib_erase. apply apply_fun0; [auto|auto|apply alist_quiet|]. intros S' IN.
  assert (R' : ready S' w) by (eapply inside_ready0; eauto).
  change (Runs S' (Pair false (sym "foldr") (mk_list
    [Cons (sym "\") (Cons kv_pars (mk_list [erase_fun])); sym "lst"; Nil])) w (Ret (alist r) w)).
  eapply (call_foldr O S' (lam kv_pars S' [erase_fun]) (entering (erasing k)) _ Nil w);
    [|apply erase_fold; eauto|reflexivity|apply IN|auto|auto|].
  - apply acts_kv; auto; [apply increasing_NoDup, IN| |apply entering_list|].
    + apply entering_facts. intros k1 v1 r1 Q. unfold erasing. destruct (equ k k1); auto.
    + intros T T' k1 v1 r1 w1 b w2 IT AP INT Rc RT [[k2 [v2 [r2 [EQ [Q ->]]]]] ->]. inversion EQ; subst k2 v2 r2.
      assert (KS : Runs T' (sym "k") w1 (Ret k w1)).
      { cap. destruct IN as [_ G]. rewrite G. reflexivity. }
      eapply f_if; [auto|two "="%string; [exact KS|arg]|].
      unfold erasing. cbn [val2 String.eqb Ascii.eqb Bool.eqb]. destruct (equ k k1); cbn [truth is_null car cdr]; [arg|].
      change (Cons (Cons k1 v1) r1) with (val2 "cons" (val2 "cons" k1 v1) r1).
      two "cons"%string; [two "cons"%string; arg|arg].
  - apply list3 with w w; [apply f_lambda; auto|arg|apply f_const; auto].
Qed.
Lemma replc_ok : forall k x l r, replaced k x l r -> forall S w, increasing S -> ready S w ->
  applied O S (lib "replc") [k; x; alist l] w (Ret (alist r) w).
Proof.
  intros k x l r H S w I R. rewrite lib_replc. apply apply_fun0; [auto|auto|apply alist_quiet|]. intros S' IN.
  assert (R' : ready S' w) by (eapply inside_ready0; eauto).
  change (Runs S' (Pair false (sym "foldr") (mk_list
    [Cons (sym "\") (Cons kv_pars (mk_list [replc_fun])); sym "lst"; Nil])) w (Ret (alist r) w)).
  eapply (call_foldr O S' (lam kv_pars S' [replc_fun]) (entering (replacing k x)) _ Nil w);
    [|apply replc_fold; eauto|reflexivity|apply IN|auto|auto|].
  - apply acts_kv; auto; [apply increasing_NoDup, IN| |apply entering_list|].
    + apply entering_facts. intros k1 v1 r1 Q. unfold replacing. destruct (equ k k1); auto.
    + intros T T' k1 v1 r1 w1 b w2 IT AP INT Rc RT [[k2 [v2 [r2 [EQ [Q ->]]]]] ->]. inversion EQ; subst k2 v2 r2.
      assert (KS : Runs T' (sym "k") w1 (Ret k w1)).
      { cap. destruct IN as [_ G]. rewrite G. reflexivity. }
      assert (VS : Runs T' (sym "v") w1 (Ret x w1)).
      { cap. destruct IN as [_ G]. rewrite G. reflexivity. }
      eapply f_if; [auto|two "="%string; [exact KS|arg]|].
      unfold replacing. cbn [val2 String.eqb Ascii.eqb Bool.eqb]. destruct (equ k k1); cbn [truth is_null car cdr].
      * change (Cons (Cons k x) r1) with (val2 "cons" (val2 "cons" k x) r1).
        two "cons"%string; [two "cons"%string; [exact KS|exact VS]|arg].
      * change (Cons (Cons k1 v1) r1) with (val2 "cons" (val2 "cons" k1 v1) r1).
        two "cons"%string; [two "cons"%string; arg|arg].
  - apply list3 with w w; [apply f_lambda; auto|arg|apply f_const; auto].
Qed.

(** ** truncr *)
Lemma truncl_at : forall m z l, Z.to_nat z = m -> int64 z -> forall S w, increasing S -> ready S w ->
  means S w (sy "n") (Num z) -> means S w (sy "lst") (mk_list l) -> Runs S truncl_body w (Ret (mk_list (prefix m l)) w).
Proof.
  intros m z l E B S w I R Mn Ml.
  destruct (f_cmp O ">"%string Z.gt S false false false (sym "n") false (Num 0) w z w 0%Z w) as [b [[[T ->]|[T ->]] X]];
      [cbn; tauto|constructor|auto|apply f_sym; auto|apply f_const; auto| |].
  - destruct m as [|m]; [lia|].
    change (Runs S (Pair false (sym "when") (Pair false (| sym ">"; sym "n"; Num 0 |) (mk_list
      [(| sym "cons"; (| sym "car"; sym "lst" |); (| sym "truncl"; (| sym "-"; sym "n"; Num 1 |); (| sym "cdr"; sym "lst" |) |) |)])))
      w (Ret (mk_list (prefix (Datatypes.S m) l)) w)).
    eapply f_when; [auto|exact X|]. cbn [is_null]. apply body_one.
    assert (PE : mk_list (prefix (Datatypes.S m) l) = val2 "cons" (val1 "car" (mk_list l)) (mk_list (prefix m (tl l)))).
    { destruct l; reflexivity. }
    rewrite PE.
    eapply (f_two O "cons" S _ _ _ _ _ _ w _ w); [cbn; tauto|auto|one "car"%string; apply f_sym; eauto|].
    change (Runs S (Pair false (sym "truncl") (mk_list [(| sym "-"; sym "n"; Num 1 |); (| sym "cdr"; sym "lst" |)])) w
      (Ret (mk_list (prefix m (tl l))) w)).
    apply (truncl_ok O m (z - 1)%Z (tl l) ltac:(lia) ltac:(unfold int64 in *; lia) S w I R); [apply ready_means; [auto|cbn; tauto]|].
    apply list2 with w.
    + eapply (f_arith O "-"%string S) with (a := z) (b := 1%Z); [cbn; tauto|auto|apply f_sym; eauto|apply f_const; auto|auto|auto|].
      constructor. unfold int64 in *; lia.
    + replace (mk_list (tl l)) with (val1 "cdr" (mk_list l)) by (destruct l; reflexivity). one "cdr"%string. apply f_sym; eauto.
  - destruct m as [|m]; [|lia].
    change (Runs S (Pair false (sym "when") (Pair false (| sym ">"; sym "n"; Num 0 |) (mk_list
      [(| sym "cons"; (| sym "car"; sym "lst" |); (| sym "truncl"; (| sym "-"; sym "n"; Num 1 |); (| sym "cdr"; sym "lst" |) |) |)])))
      w (Ret (mk_list (prefix 0 l)) w)).
    eapply f_when; [auto|exact X|]. reflexivity.
Qed.
(** The last [z] elements; NIL in front for the missing ones. *)
Lemma truncr_ok : forall z l, int64 z -> forall S w, increasing S -> ready S w ->
  applied O S (lib "truncr") [Num z; mk_list l] w (Ret (mk_list (rev (prefix (Z.to_nat z) (rev l)))) w).
Proof.
  intros z l B S w I R. rewrite lib_truncr. apply apply_fun0; [auto|auto|apply mk_quiet|]. intros S' IN.
  assert (R' : ready S' w) by (eapply inside_ready0; eauto). assert (I' : increasing S') by apply IN.
  change (Runs S' (Pair false (sym "|>") (Pair false (sym "lst") (mk_list [sym "rev"; (| sym "truncl"; sym "n" |); sym "rev"])))
    w (Ret (mk_list (rev (prefix (Z.to_nat z) (rev l)))) w)).
  apply pipe_call_runs; [known|].
  eapply pipe_next; [arg|].
  assert (QT : forall v, Runs S' (Cons (sym "quote") v) w (Ret v w)) by (intro; apply f_quote; auto).
  eapply pipe_next with (v := mk_list (rev l)) (w1 := w).
  { change (Runs S' (Pair false (sym "rev") (mk_list [Cons (sym "quote") (mk_list l)])) w (Ret (mk_list (rev l)) w)).
    apply (rev_ok O S' l w I' R'); [apply ready_means; [auto|cbn; tauto]|apply list1, QT]. }
  eapply pipe_next with (v := mk_list (prefix (Z.to_nat z) (rev l))) (w1 := w).
  2: { apply pipe_last.
    apply (rev_ok O S' (prefix (Z.to_nat z) (rev l)) w I' R' _ false [Cons (sym "quote") (mk_list (prefix (Z.to_nat z) (rev l)))] w);
     [apply ready_means; [auto|cbn; tauto]|apply list1, QT]. }
  set (h := (| sym "truncl"; sym "n" |)).
  assert (H : Runs S' h w (Ret (lam (arg_list [sym "lst"] Nil) [(sy "n", Num z)] [truncl_body]) w)).
  { change h with (Pair false (sym "truncl") (mk_list [sym "n"])).
    apply (partial_runs O S' false (sym "truncl") [sym "n"] [sym "lst"] Nil [] [truncl_body] [sym "n"] w w);
      [|discriminate|auto|discriminate|auto|].
    - apply f_sym. change (lam (arg_list ([sym "n"] ++ [sym "lst"]) Nil) [] [truncl_body]) with
        (lam (pars ["n"; "lst"]%string) [] [truncl_body]). rewrite <- lib_truncl. apply ready_means; [auto|cbn; tauto].
    - left. exists [Num z], w. split; auto. apply list1. arg. }
  destruct (scope_exists ([[(sy "lst", mk_list (rev l))]] ++ [] ++ [[(sy "n", Num z)]; S'])) as [T SC].
  assert (IT : increasing T /\ forall k, env_get T k = lget ([[(sy "lst", mk_list (rev l))]] ++ [] ++ [[(sy "n", Num z)]; S']) k)
    by (apply scope_iff; auto). destruct IT as [IT GT]. cbn [app] in GT.
  assert (X : Runs T truncl_body w (Ret (mk_list (prefix (Z.to_nat z) (rev l))) w)).
  { apply (truncl_at (Z.to_nat z) z); auto.
    - eapply (ready_apart ["lst"; "n"]%string S' T); [|reflexivity|auto]. apply apart_get. intros k N. rewrite GT. cbn [lget env_get].
      destruct (sym_match (sy "lst") k) eqn:E1; [apply sym_match_eq in E1; exfalso; apply (N "lst"%string); cbn; auto|].
      destruct (sym_match (sy "n") k) eqn:E2; [apply sym_match_eq in E2; exfalso; apply (N "n"%string); cbn; auto|].
      destruct (env_get S' k); auto.
    - apply means_get. rewrite GT. reflexivity.
    - apply means_get. rewrite GT. reflexivity. }
  apply (call_scope O S' false h [sym "lst"] Nil [(sy "n", Num z)] [truncl_body] [Cons (sym "quote") (mk_list (rev l))] Nil w w
    [mk_list (rev l)] w [[(sy "lst", mk_list (rev l))]] [] T); auto.
  - discriminate.
  - repeat constructor. apply linear_sym.
  - repeat constructor; auto.
  - apply list1, QT.
  - constructor; [apply (layer_bind (sym "lst")), linear_sym|constructor].
  - constructor.
  - intros o Y. assert (X' := body_one O T truncl_body w _ _ X). rewrite <- Rprog_list in X', Y.
    assert (Z := conv_unique _ o _ (prog_monof O T (mk_list [truncl_body]) Nil w) Y X'). subst o. apply mk_quiet.
  - apply body_one, X.
Qed.

(** ** append *)
Notation ahid := ["x"; "@"; "fun"; "acc"; "lst"; "acc0"; "e0"]%string.
Notation own := ["x"; "@"; "acc0"; "e0"]%string.
Notation low := ["fun"; "acc"; "lst"]%string.
Lemma beside_get : forall hid lo c S, beside hid lo c S <->
  forall k, (forall s, In s hid -> k <> sy s) -> env_get c k <> None \/ (forall s, In s lo -> k <> sy s) ->
    env_get S k = env_get c k.
Proof.
  intros hid lo c S. split.
  - intros H k N L. specialize (H k (env_get c k) N).
    apply env_get_shows. apply H; [|apply env_get_shows; auto].
    destruct L as [L|L]; [left|auto]. destruct (env_get c k) as [v|] eqn:E; [|congruence]. exists v. apply env_get_shows; auto.
  - intros H k r N L. assert (E : env_get S k = env_get c k).
    { apply H; auto. destruct L as [[v L]|L]; [left|auto]. apply env_get_shows in L. congruence. }
    split; intro X; apply env_get_shows; apply env_get_shows in X; congruence.
Qed.
Lemma beside_apart : forall hid lo c S, beside hid lo c S -> apart (hid ++ lo) c S.
Proof.
  intros hid lo c S B. apply apart_get. rewrite beside_get in B. intros k N. apply B; [|right]; intros s J; apply N, in_or_app; auto.
Qed.
Lemma apart_beside : forall hid lo c S, apart hid c S -> beside hid lo c S.
Proof. intros hid lo c S A. apply beside_get. rewrite apart_get in A. intros k N _. apply A; auto. Qed.
Lemma inside_apart_d : forall hid hs vs c d S S', inside hs vs d S S' -> incl hs hid -> apart hid c d ->
  apart hid c S -> apart hid c S'.
Proof.
  intros hid hs vs c d S S' [_ G] IC A1 A2. apply apart_get. intros k N. rewrite G. cbn [lget].
  rewrite combine_none by (intros s J; apply N; auto).
  rewrite apart_get in A1, A2. rewrite (A1 k N), (A2 k N). destruct (env_get c k); auto.
Qed.
Lemma apart_sym : forall hid a b, apart hid a b -> apart hid b a.
Proof. intros hid a b H k r N. symmetry. apply H; auto. Qed.
Lemma cons_fold : forall a b w, folds_right consing (mk_list b) a w (mk_list (a ++ b)) w.
Proof.
  induction a as [|x a IH]; intros b w; cbn [app]; [constructor|].
  econstructor; [apply IH|]. split; auto. exists x, (mk_list (a ++ b)). auto.
Qed.
Definition joining (c : env) : behaviour := fun vs w b w' =>
  exists l0 e l1, vs = [mk_list l0; e] /\ b = mk_list (l0 ++ l1) /\ ready c w' /\
    forall T, increasing T -> beside own low c T -> Runs T e w (Ret (mk_list l1) w').
Lemma append_fold : forall c es w r w', joins O c own low es w r w' -> forall l,
  folds_left (joining c) es (mk_list l) w (mk_list (l ++ r)) w'.
Proof.
  intros c es w r w' H. induction H as [w|e es w l w1 r w2 HE R1 H IH]; intros l0.
  - rewrite app_nil_r. constructor.
  - rewrite app_assoc. econstructor; [|apply IH]. exists l0, e, l. auto.
Qed.
Lemma append_acts : forall S S' x l, increasing S -> increasing S' -> apart ["x"; "@"]%string S S' ->
  env_get S' (sy "x") = Some x -> env_get S' (sy "@") = Some l ->
  acts O S' ["fun"; "acc"; "lst"]%string (lam (pars ["acc0"; "e0"]%string) S' [append_fun]) (joining S).
Proof.
  intros S S' x l I I' AP X Y.
  assert (TO : forall w, ready S w -> ready S' w) by (intros; eapply ready_apart; [exact AP|reflexivity|auto]).
  assert (BACK : forall w, ready S' w -> ready S w) by (intros; eapply ready_apart; [apply apart_sym; exact AP|reflexivity|auto]).
  apply acts_fun; auto; [apply increasing_NoDup; auto|discriminate| |].
  - intros vs w b w' [l0 [e [l1 [-> [-> [R' _]]]]]]. split; auto. split; [apply mk_quiet|auto].
  - intros T T' vs w b w' IT APT INT Rc RT [l0 [e [l1 [-> [-> [R' HE]]]]]]. apply body_one.
    assert (APT' : apart ahid S T').
    { assert (A1 : apart ahid S S') by (eapply apart_incl; [|exact AP]; intros s; cbn; tauto).
      eapply inside_apart_d; [exact INT|intros s; cbn; tauto|exact A1|].
      eapply apart_trans; [exact A1|]. eapply apart_incl; [|exact APT]. intros s; cbn; tauto. }
    assert (BS : beside own low S T').
    { apply beside_get. intros k N L. destruct INT as [_ G]. rewrite G. cbn [lget].
      rewrite combine_none by (intros s J; apply N; cbn in J |- *; tauto).
      assert (E : env_get S' k = env_get S k) by (rewrite apart_get in AP; apply AP; intros s J; apply N; cbn in J |- *; tauto).
      rewrite E. destruct (env_get S k) as [v|] eqn:SK; [reflexivity|]. destruct L as [L|L]; [congruence|].
      rewrite apart_get in APT. rewrite (APT k L), E. reflexivity. }
    assert (RT' : ready T' w') by (eapply ready_apart; [exact APT'|reflexivity|auto]).
    change (Runs T' (Pair false (sym "foldr") (mk_list
      [Cons (sym "\") (Cons (pars ["e1"; "acc1"]%string) (mk_list [append_in])); sym "acc0"; (| sym "eval"; sym "e0" |)])) w
      (Ret (mk_list (l0 ++ l1)) w')).
    eapply (call_foldr O T' (lam (pars ["e1"; "acc1"]%string) T' [append_in]) consing l0 (mk_list l1) w');
      [|apply cons_fold|apply mk_quiet|apply INT|auto|auto|].
    + apply acts_fun; auto; [apply increasing_NoDup, INT|discriminate| |].
      * intros vs w1 b w2 [[a [r [-> ->]]] ->]. auto.
      * intros U U' vs w1 b w2 IU APU INU RU RU' [[a [r [-> ->]]] ->]. apply body_one.
        change (Cons a r) with (val2 "cons" a r). two "cons"%string; arg.
    + apply list3 with w w; [apply f_lambda; auto|arg|].
      apply eval_runs; [known|]. left. exists e, w. split; [arg|]. apply HE; auto. apply INT.
Qed.
Lemma append_ok : forall S t e es w0 l w r w', increasing S -> ready S w0 -> ready S w ->
  Runs S e w0 (Ret (mk_list l) w) -> joins O S own low es w r w' ->
  Runs S (Pair t (sym "append") (Cons e (mk_list es))) w0 (Ret (mk_list (l ++ r)) w').
Proof.
  intros S t e es w0 l w r w' I R0 R E J.
  change (Cons e (mk_list es)) with (arg_list [e] (mk_list es)).
  eapply (call_any S t (sy "append") [sym "x"] (sym "@") [] [append_body] [e] (mk_list es) [mk_list l]);
    [rewrite <- lib_append; apply ready_means; [auto|cbn; tauto]|auto|constructor|discriminate| |auto|apply list1, E
    |constructor; [apply (layer_bind (sym "x")), linear_sym|constructor]|constructor|apply mk_quiet|].
  - repeat constructor. apply linear_sym.
  - intros S' I' G. apply body_one. cbn [bind app] in G.
    assert (AP : apart ["x"; "@"]%string S S').
    { apply apart_get. intros k N. rewrite G. cbn [lget env_get].
      destruct (sym_match (sy "x") k) eqn:E1; [apply sym_match_eq in E1; exfalso; apply (N "x"%string); cbn; auto|].
      destruct (sym_match (sy "@") k) eqn:E2; [apply sym_match_eq in E2; exfalso; apply (N "@"%string); cbn; auto|].
      destruct (env_get S k); auto. }
    assert (R' : ready S' w) by (eapply ready_apart; [exact AP|reflexivity|auto]).
    change (Runs S' (Pair false (sym "foldl") (mk_list
      [Cons (sym "\") (Cons (pars ["acc0"; "e0"]%string) (mk_list [append_fun])); sym "x"; sym "@"])) w (Ret (mk_list (l ++ r)) w')).
    eapply (call_foldl O S' (lam (pars ["acc0"; "e0"]%string) S' [append_fun]) (joining S) es (mk_list l) w);
      [eapply append_acts; [exact I|exact I'|exact AP|rewrite G; reflexivity|rewrite G; reflexivity]
      |apply append_fold; auto|apply mk_quiet|auto|auto|auto|].
    apply list3 with w w; [apply f_lambda; auto| |]; apply f_sym, means_get; rewrite G; reflexivity.
Qed.
(** A name that is not hidden. *)
Lemma joins_name : forall c k l w, increasing c -> env_get c k = Some (mk_list l) -> (forall s, In s own -> k <> sy s) ->
  forall S, increasing S -> beside own low c S -> Runs S (Symb k) w (Ret (mk_list l) w).
Proof.
  intros c k l w I G N S IS AP. apply f_sym, means_get. rewrite beside_get in AP. rewrite AP; auto. left. congruence.
Qed.
Lemma plus_ok : forall S a b w, increasing S -> ready S w ->
  applied O S (lib "$+") [mk_list a; mk_list b] w (Ret (mk_list (a ++ b)) w).
Proof.
  intros S a b w I R. rewrite lib_plus. apply apply_fun0; [auto|auto|apply mk_quiet|]. intros S' IN.
  assert (R' : ready S' w) by (eapply inside_ready0; eauto). assert (I' : increasing S') by apply IN.
  change (Runs S' (Pair false (sym "append") (Cons (sym "x") (mk_list [sym "y"]))) w (Ret (mk_list (a ++ b)) w)).
  rewrite <- (app_nil_r b). apply append_ok with w; auto; [arg|].
  apply joins_cons with w; [|exact R'|constructor].
  apply joins_name; auto.
  - destruct IN as [_ G]. rewrite G. reflexivity.
  - intros s J. repeat (destruct J as [<-|J]; [vm_compute; discriminate|]). destruct J.
Qed.
End Assoc.
