(** * Lib3Args: args:parse. *)
From Verif Require Import Base Value ValueSpec ValueProofs Tails PrintSpec Print Eval EvalSpec EvalProofs
  Sem1 Sem2 Sem3 Sem4 Sem5 TailsProofs TailsSem BuiltinSpec Sem6 Cases Lib LibSpec LibBase LibProofs LibDerived LibMore LibAssoc
  LibCases LibSort Lib2 Lib2Spec Lib2Proofs Lib3 Lib3Spec Lib3Term Lib3Assert Lib3Run.
Open Scope nat_scope.

(** ** The definition, as stored *)
Notation hd_tl := (Cons (sym "hd") (sym "tl")).
Notation parse_lets := [("fun"%string, (| sym "eval"; (| sym "assoc"; sym "hd"; sym "SCHEMA" |) |));
  ("sze"%string, (| sym "len"; (| sym "car"; sym "fun" |) |)); ("nxt"%string, (| sym "args:skip"; sym "tl"; sym "sze" |))].
Notation complaint_of word := (Cons (sym "prog") (mk_list [Cons (sym "prinl") (mk_list [mk_list (text word); sym "hd"]); Nil])).
Notation parse_call := (| sym "eval"; (| sym "cons"; (| sym "cons"; Cons (sym "quote") (sym "quote"); sym "fun" |); (| sym "truncl"; sym "sze"; sym "tl" |) |) |).
Notation parse_next := (| sym "args:parse_r"; sym "SCHEMA"; sym "nxt"; (| sym "cons"; sym "hd"; sym "RES" |) |).
Notation parse_in := (| sym "if"; (| sym "nil?"; sym "fun" |); complaint_of "Unknown flag: ";
  (| sym "if"; (| sym ">"; sym "sze"; (| sym "len"; sym "tl" |) |); complaint_of "Not enough values for flag: ";
     Cons (sym "prog") (mk_list [parse_call; parse_next]) |) |).
Notation parse_let := (Cons (sym "let") (Cons (bindings ((hd_tl, sym "LST") :: map (fun p => (sym (fst p), snd p)) parse_lets)) (mk_list [parse_in]))).
Notation parse_r_body := (| sym "if"; (| sym "nil?"; sym "LST" |); sym "RES"; parse_let |).
Lemma lib4_parse_loop : lib4 "args:parse_r" = lam (pars ["SCHEMA"; "LST"; "RES"]%string) [] [parse_r_body].
Proof. vm_compute. reflexivity. Qed.
Lemma lib4_skip : lib4 "args:skip" = lib2 "args:skip".
Proof. vm_compute. reflexivity. Qed.

Section Args.
Variable O : oracle.
Notation Runs := (runs O).

(** ** [let] with a pair of names first *)
Lemma hd_linear : linear hd_tl.
Proof.
  intros k [|[|] [|? p]] [|[|] [|? q]] H1 H2; cbn in H1, H2; auto; try tauto; try (destruct H1; discriminate);
    try (destruct H2; discriminate).
  - destruct H1 as [? H1], H2 as [? H2]. injection H1 as _ <-. discriminate.
  - destruct H1 as [? H1], H2 as [? H2]. injection H1 as _ <-. discriminate.
Qed.
Lemma pair_inside : forall x v ks us S, increasing S -> length ks = length us ->
  exists S', scope (bind [] hd_tl (Cons x v) :: slices ks us ++ [S]) S' /\ inside ("hd"%string :: "tl"%string :: ks) (x :: v :: us) [] S S'.
Proof.
  intros x v ks us S I L. destruct (scope_exists (bind [] hd_tl (Cons x v) :: slices ks us ++ [S])) as [S' SC]. exists S'. split; auto.
  apply scope_iff in SC. destruct SC as [I' G]. split; auto. intro k. rewrite G. unfold slices.
  cbn [bind app lget env_get map combine car cdr].
  destruct (sym_match (sy "hd") k) eqn:E1.
  - apply sym_match_eq in E1. subst k. reflexivity.
  - destruct (sym_match (sy "tl") k) eqn:E2; [auto|]. rewrite lget_single. cbn [lget env_get].
    destruct (env_get (combine (map sy ks) us) k); auto.
Qed.
Lemma lets_bind_pair : forall S x v ks us bs w vs w', increasing S -> length ks = length us ->
  lets O S ("hd"%string :: "tl"%string :: ks) (x :: v :: us) bs w vs w' ->
  runs_bindings O S (map (fun p => (sym (fst p), snd p)) bs) (bind [] hd_tl (Cons x v) :: slices ks us) w
    (bind [] hd_tl (Cons x v) :: slices (ks ++ map fst bs) (us ++ vs)) w'.
Proof.
  intros S x v ks us bs w vs w' I L H.
  remember ("hd"%string :: "tl"%string :: ks) as K eqn:EK. remember (x :: v :: us) as U eqn:EU.
  revert ks us L EK EU. induction H as [K U w|K U k e bs w y y' w1 vs w2 E H IH]; intros ks us L -> ->; cbn [map fst snd].
  - rewrite !app_nil_r. constructor.
  - destruct (pair_inside x v ks us S I L) as [S' [SC IN]].
    eapply bindings_step with (S := S') (v := y) (v' := y') (b := [(sy k, y')]);
      [apply linear_sym|exact SC|apply E; auto|apply E; auto|apply (layer_bind (sym k)), linear_sym|].
    cbn [app]. rewrite <- slices_snoc by auto.
    replace (ks ++ k :: map fst bs) with ((ks ++ [k]) ++ map fst bs) by (rewrite <- app_assoc; auto).
    replace (us ++ y' :: vs) with ((us ++ [y']) ++ vs) by (rewrite <- app_assoc; auto).
    apply IH; auto. rewrite !app_length. cbn. lia.
Qed.
Lemma let_pair : forall S t e bs body w x v w1 vs w2 o, increasing S -> ready S w -> Runs S e w (Ret (Cons x v) w1) ->
  lets O S ["hd"; "tl"]%string [x; v] bs w1 vs w2 ->
  (forall S', inside ("hd"%string :: "tl"%string :: map fst bs) (x :: v :: vs) [] S S' -> runs_body O S' body Nil w2 o) ->
  Runs S (Pair t (sym "let") (Cons (bindings ((hd_tl, e) :: map (fun p => (sym (fst p), snd p)) bs)) (mk_list body))) w o.
Proof.
  intros S t e bs body w x v w1 vs w2 o I R E L B.
  destruct (pair_inside x v (map fst bs) vs S I) as [S' [SC IN]]; [rewrite map_length; symmetry; eapply lets_length; exact L|].
  eapply (let_runs O S t) with (ls := bind [] hd_tl (Cons x v) :: slices (map fst bs) vs); [apply ready_calls; [exact R|cbn; tauto]|auto| |exact SC|apply B; exact IN].
  eapply bindings_step with (S := S) (v := Cons x v) (v' := Cons x v) (b := bind [] hd_tl (Cons x v));
    [apply hd_linear| |exact E|apply stored_pattern; reflexivity|apply layer_bind, hd_linear|].
  - apply scope_iff. split; auto. intro k. cbn [app lget]. destruct (env_get S k); auto.
  - exact (lets_bind_pair S x v [] [] bs w1 vs w2 I eq_refl L).
Qed.

(** ** Texts *)
Lemma txt_chars : forall t, txt t = mk_chars (map schar t).
Proof. intros t. unfold txt, chars, mk_chars. rewrite map_map. reflexivity. Qed.
Lemma txts_chars : forall l, map txt l = map mk_chars (map (map schar) l).
Proof. intros l. rewrite map_map. apply map_ext. intros t. apply txt_chars. Qed.
Lemma txt_runs : forall S t w, Runs S (txt t) w (Ret (txt t) w).
Proof. intros S [|b t] w; [apply f_const; auto|apply f_text]. Qed.
Lemma txts_run : forall S l w, runs_list O S (map txt l) w (Ret (map txt l) w).
Proof.
  intros S l w. induction l as [|t l IH]; cbn [map]; [constructor|]. econstructor; [apply txt_runs|exact IH].
Qed.

(** ** The loop *)
Section Parse.
Variables (c : env) (schema : list (atom * atom)).
Hypothesis QS : Forall (fun p : atom * atom => is_tail_call (fst p) = false /\ is_tail_call (snd p) = false) schema.

Lemma message_runs : forall S word h w w' o, word <> EmptyString -> is_bytes (bs word) -> is_bytes h -> ready3 S w ->
  env_get S (sy "hd") = Some (txt h) -> says [bs word; h; [10%N]] w w' -> o = Ret Nil w' ->
  Runs S (complaint_of word) w o.
Proof.
  intros S word h w w' o N B1 B2 R G SA ->. inversion SA as [|? ? ? w1 ? S1 SB]; subst. inversion SB as [|? ? ? w2 ? S2 SD]; subst.
  inversion SD as [|? ? ? w3 ? S3 SE]; subst. inversion SE; subst.
  destruct (f_prinl O S false [mk_list (text word); sym "hd"] w [bs word; h] w2 w' R) as [v E]; [|exact S3|].
  - eapply pieces_more; [apply f_word; auto|auto|exact S1|]. eapply pieces_one; [apply get_sym; exact G|auto|exact S2].
  - apply prog_runs; [known3|]. econstructor; [exact E|]. econstructor; [apply f_const; auto|constructor].
Qed.

Definition parsing (l done : list bytes) (w : world) (r : atom) (w' : world) : Prop := forall S, increasing S -> apart parser_hid c S ->
  applied O S (lib4 "args:parse_r") [alist schema; mk_list (map txt l); mk_list (map txt done)] w (Ret r w').

Lemma parses_quiet : forall l done w r w', parses O c schema l done w r w' -> is_tail_call r = false.
Proof. intros l done w r w' H. induction H; auto. apply mk_quiet. Qed.

Lemma skipped_skipn : forall (l : list atom) n, skipped (Z.of_nat n) l (skipn n l).
Proof.
  induction l as [|a l IH]; intros [|n]; cbn [skipn]; try constructor; try lia.
  replace (Z.of_nat (Datatypes.S n) - 1)%Z with (Z.of_nat n) by lia. apply IH.
Qed.
Lemma ready2_far : forall S w, apart parser_hid c S -> ready2 c w -> ready2 S w.
Proof. intros S w A R. eapply ready2_apart; [exact A|reflexivity|reflexivity|exact R]. Qed.
Lemma ready3_far : forall S w, apart parser_hid c S -> ready3 c w -> ready3 S w.
Proof. intros S w A R. eapply ready3_apart; [exact A|reflexivity|exact R]. Qed.

Lemma parse_turn : forall h l done w e n r w', finds (txt h) schema e ->
  (forall S, increasing S -> apart parser_hid c S -> exists f, Runs S e w (Ret f w) /\ kept "fun" f /\
     (exists ps, car f = mk_list ps /\ length ps = n) /\
     (forall S', increasing S' -> apart parser_hid c S' ->
        env_get S' (sy "hd") = Some (txt h) -> env_get S' (sy "tl") = Some (mk_list (map txt l)) ->
        env_get S' (sy "fun") = Some f -> env_get S' (sy "sze") = Some (Num (Z.of_nat n)) ->
        env_get S' (sy "nxt") = Some (mk_list (map txt (skipn n l))) ->
        env_get S' (sy "SCHEMA") = Some (alist schema) -> env_get S' (sy "RES") = Some (mk_list (map txt done)) ->
        Runs S' parse_in w (Ret r w'))) ->
  int64 (Z.of_nat n) -> int64 (Z.of_nat (length l)) -> ready2 c w -> ready3 c w -> is_tail_call r = false ->
  parsing (h :: l) done w r w'.
Proof.
  intros h l done w e n r w' FD HE N1 N2 R2 R3 Q S I AP. rewrite lib4_parse_loop. apply apply_fun0; [auto|auto|exact Q|].
  intros S1 IN1.
  assert (AP1 : apart parser_hid c S1).
  { eapply apart_trans; [exact AP|]. eapply apart_incl; [|apply (inside_apart _ _ _ _ IN1)]. intros s J; cbn in J |- *; tauto. }
  assert (I1 : increasing S1) by apply IN1.
  assert (RA : forall X, apart parser_hid c X -> ready X w) by (intros X AX; apply (ready3_far X w AX R3)).
  assert (R1 := RA S1 AP1).
  eapply f_if; [auto|one "nil?"%string; arg|]. cbn [map mk_list val1 String.eqb Ascii.eqb Bool.eqb truth is_null negb car cdr].
  destruct (pair_inside (txt h) (mk_list (map txt l)) [] [] S1 I1 eq_refl) as [S2 [_ IN2]].
  assert (AP2 : forall ks us X, incl ks parser_hid -> inside ks us [] S1 X -> apart parser_hid c X).
  { intros ks us X IK IX. eapply apart_trans; [exact AP1|]. eapply apart_incl; [exact IK|apply (inside_apart _ _ _ _ IX)]. }
  destruct (HE S2 (proj1 IN2)) as (f & EF & KF & (ps & CF & LP) & GO).
  { eapply AP2; [|exact IN2]. intros s J; cbn in J |- *; tauto. }
  eapply (let_pair S1 false (sym "LST") parse_lets [parse_in] w (txt h) (mk_list (map txt l)) w
    [f; Num (Z.of_nat n); mk_list (map txt (skipn n l))] w); [exact I1|exact R1|arg| |].
  - eapply lets_cons with (w1 := w); [intros X IX|exact KF|].
    { rewrite (inside_unique _ _ _ _ _ _ IX IN2).
      assert (A2 : apart parser_hid c S2) by (eapply AP2; [|exact IN2]; intros s J; cbn in J |- *; tauto).
      assert (R := RA S2 A2). apply eval_runs; [apply ready_calls; [exact R|cbn; tauto]|]. left. exists e, w. split; [|exact EF].
      change (Runs S2 (Pair false (sym "assoc") (mk_list [sym "hd"; sym "SCHEMA"])) w (Ret e w)).
      eapply (assoc_ok O (txt h) schema e FD QS S2 w (proj1 IN2) R); [apply ready_means; [exact R|cbn; tauto]|].
      apply list2 with w; [arg|]. apply get_sym. rewrite (inside_keep _ _ _ _ (sy "SCHEMA") IN2) by reflexivity.
      destruct IN1 as [_ G1]. rewrite G1. reflexivity. }
    eapply lets_cons with (w1 := w) (v := Num (Z.of_nat n)); [intros X IX|left; reflexivity|].
    { assert (AX : apart parser_hid c X) by (eapply AP2; [|exact IX]; intros s J; cbn in J |- *; tauto).
      assert (R := RA X AX). rewrite <- LP. eapply len_list; [apply ready3_far; auto|]. rewrite <- CF.
      change (car f) with (val1 "car" f). one "car"%string. arg. }
    eapply lets_cons with (w1 := w) (v := mk_list (map txt (skipn n l))); [intros X IX|rewrite txts_chars; apply kept_texts|constructor].
    assert (AX : apart parser_hid c X) by (eapply AP2; [|exact IX]; intros s J; cbn in J |- *; tauto).
    change (Runs X (Pair false (sym "args:skip") (mk_list [sym "tl"; sym "sze"])) w (Ret (mk_list (map txt (skipn n l))) w)).
    rewrite <- skipn_map.
    eapply (skip_ok O (Z.of_nat n) (map txt l) (skipn n (map txt l)) (skipped_skipn _ _) N1); [|apply IX|apply ready2_far; auto| |].
    + rewrite map_length. unfold int64 in *. lia.
    + apply ready2_means; [apply ready2_far; auto|cbn; tauto].
    + apply list2 with w; arg.
  - intros S3 IN3. apply body_one. cbn [map fst] in IN3.
    apply GO; [apply IN3|eapply AP2; [|exact IN3]; intros s J; cbn in J |- *; tauto|..];
      try (eapply inside_get; [exact IN3|reflexivity]);
      (rewrite (inside_keep _ _ _ _ _ IN3) by reflexivity; destruct IN1 as [_ G1]; rewrite G1; reflexivity).
Qed.

Lemma more_runs : forall S n l w, ready3 S w -> env_get S (sy "sze") = Some (Num (Z.of_nat n)) ->
  env_get S (sy "tl") = Some (mk_list (map txt l)) ->
  exists b, Runs S (| sym ">"; sym "sze"; (| sym "len"; sym "tl" |) |) w (Ret b w) /\ (is_null b = true <-> n <= length l).
Proof.
  intros S n l w R G1 G2. assert (R0 := proj1 R).
  destruct (f_cmp O ">"%string Z.gt S false false false (sym "sze") false (| sym "len"; sym "tl" |) w (Z.of_nat n) w (Z.of_nat (length (map txt l))) w)
    as [b [A X]]; [cbn; tauto|constructor|exact R0|apply get_sym; auto|eapply len_list; [exact R|apply get_sym; auto]|].
  exists b. split; [exact X|]. rewrite map_length in A. destruct A as [[T ->]|[T ->]]; cbn; split; intros; try discriminate; try reflexivity; lia.
Qed.
Lemma parse_ok : forall l done w r w', parses O c schema l done w r w' -> Forall is_bytes l ->
  int64 (Z.of_nat (length l)) -> ready2 c w -> ready3 c w -> parsing l done w r w'.
Proof.
  intros l done w r w' H.
  induction H as [done w|h l done w w1 FD SA|h l done e n w w1 FD HD NB LT SA|h vs l done e w b w1 r w2 FD HD K2 K3 HP IH];
    intros FB LB R2 R3.
  - intros S I AP. rewrite lib4_parse_loop. apply apply_fun0; [auto|auto|apply mk_quiet|]. intros S1 IN1.
    assert (R1 : ready S1 w).
    { eapply ready_apart; [eapply inside_apart; exact IN1|reflexivity|]. apply (ready3_far S w AP R3). }
    eapply f_if; [auto|one "nil?"%string; arg|]. cbn. arg.
  - inversion FB as [|? ? B1 B2]; subst. apply (parse_turn h l done w Nil 0 Nil w1 FD); auto.
    2: { unfold int64; cbn; lia. } 2: { unfold int64 in *. cbn [length] in LB. lia. }
    intros S I AP. exists Nil. split; [apply f_const; auto|]. split; [left; reflexivity|]. split; [exists []; auto|].
    intros S' I' AP' G1 G2 G3 _ _ _ _. assert (R' := ready3_far S' w AP' R3). assert (R0 := proj1 R').
    eapply f_if; [exact R0|one "nil?"%string; apply get_sym; exact G3|]. cbn [val1 String.eqb Ascii.eqb Bool.eqb truth is_null car cdr].
    eapply message_runs; [discriminate|apply bytesb_ok; reflexivity|exact B1|exact R'|exact G1|exact SA|reflexivity].
  - inversion FB as [|? ? B1 B2]; subst. apply (parse_turn h l done w e n Nil w1 FD); auto.
    2: { unfold int64 in *. cbn [length] in LB. lia. }
    intros S I AP. destruct (HD S I AP) as (f & EF & KF & ps & r & -> & LP). exists (Cons (mk_list ps) r).
    split; [exact EF|]. split; [exact KF|]. split; [exists ps; auto|].
    intros S' I' AP' G1 G2 G3 G4 _ _ _. assert (R' := ready3_far S' w AP' R3). assert (R0 := proj1 R').
    eapply f_if; [exact R0|one "nil?"%string; apply get_sym; exact G3|]. cbn [val1 String.eqb Ascii.eqb Bool.eqb truth is_null car cdr].
    destruct (more_runs S' n l w R' G4 G2) as [b [X Y]].
    eapply f_if; [exact R0|exact X|]. replace (is_null b) with false by (destruct (is_null b); auto; assert (n <= length l) by (apply Y; auto); lia).
    cbn [car cdr]. eapply message_runs; [discriminate|apply bytesb_ok; reflexivity|exact B1|exact R'|exact G1|exact SA|reflexivity].
  - inversion FB as [|? ? B1 B2]; subst. apply Forall_app in B2. destruct B2 as [B2 B3]. cbn [length] in LB. rewrite app_length in LB.
    assert (IH' : parsing l (h :: done) w1 r w2) by (apply IH; auto; unfold int64 in *; lia).
    apply (parse_turn h (vs ++ l) done w e (length vs) r w2 FD); auto.
    2: { unfold int64 in *. lia. } 2: { rewrite app_length. unfold int64 in *. lia. } 2: { eapply parses_quiet; exact HP. }
    intros S I AP. destruct (HD S I AP) as (f & (EF & KF & ps & q & EQ & LP) & CALL). exists f. rewrite EQ in EF, KF.
    split; [rewrite EQ; exact EF|]. split; [rewrite EQ; exact KF|]. split; [exists ps; rewrite EQ; auto|].
    intros S' I' AP' G1 G2 G3 G4 G5 G6 G7. assert (R' := ready3_far S' w AP' R3). assert (R0 := proj1 R').
    eapply f_if; [exact R0|one "nil?"%string; apply get_sym; exact G3|]. rewrite EQ. cbn [val1 String.eqb Ascii.eqb Bool.eqb truth is_null car cdr].
    destruct (more_runs S' (length vs) (vs ++ l) w R' G4 G2) as [b' [X Y]].
    eapply f_if; [exact R0|exact X|]. replace (is_null b') with true by (symmetry; apply Y; rewrite app_length; lia). cbn [car cdr].
    assert (R1 := ready3_far S' w1 AP' K3). assert (R10 := proj1 R1).
    apply prog_runs; [known3|]. econstructor.
    + apply eval_runs; [apply ready_calls; [exact R0|cbn; tauto]|]. left.
      exists (Cons (Cons (sym "quote") f) (mk_list (map txt vs))), w. split.
      * change (Cons (Cons (sym "quote") f) (mk_list (map txt vs))) with (val2 "cons" (val2 "cons" (sym "quote") f) (mk_list (map txt vs))).
        two "cons"%string; [two "cons"%string; [apply f_quote; auto|apply get_sym; auto]|].
        assert (T := truncl_padded O (Z.of_nat (length vs)) (map txt (vs ++ l)) S' w ltac:(unfold int64 in *; lia) I' R0).
        replace (firstn (Z.to_nat (Z.of_nat (length vs))) (map txt (vs ++ l)) ++ repeat Nil (Z.to_nat (Z.of_nat (length vs)) - length (map txt (vs ++ l))))
          with (map txt vs) in T.
        2: { rewrite Nat2Z.id, map_length, app_length, map_app. replace (length vs - (length vs + length l)) with 0 by lia.
             cbn [repeat]. rewrite app_nil_r, firstn_app, map_length, Nat.sub_diag. cbn [firstn].
             rewrite app_nil_r, firstn_all2; auto. rewrite map_length. lia. }
        apply (T (sy "truncl") false [sym "sze"; sym "tl"] w); [apply ready_means; [exact R0|cbn; tauto]|].
        apply list2 with w; apply get_sym; auto.
      * apply (CALL S' I' AP' false (Cons (sym "quote") f) (map txt vs) w w); [reflexivity|apply f_quote; auto|apply txts_run].
    + econstructor; [|constructor].
      change (Runs S' (Pair false (sym "args:parse_r") (mk_list [sym "SCHEMA"; sym "nxt"; (| sym "cons"; sym "hd"; sym "RES" |)])) w1 (Ret r w2)).
      apply (IH' S' I' AP' (sy "args:parse_r") false); [apply ready3_means; [exact R1|cbn; tauto]|].
      replace (skipn (length vs) (vs ++ l)) with l in G5.
      2: { rewrite skipn_app, skipn_all, Nat.sub_diag. reflexivity. }
      apply list3 with w1 w1; [apply get_sym; auto|apply get_sym; auto|].
      change (mk_list (map txt (h :: done))) with (val2 "cons" (txt h) (mk_list (map txt done))).
      two "cons"%string; apply get_sym; auto.
Qed.

(** ** args:parse *)
Lemma args_parse_ok : forall S p l w r w', increasing S -> apart ["SCHEMA"]%string c S ->
  parses O c schema l [] w r w' -> Forall is_bytes l ->
  int64 (Z.of_nat (length l)) -> ready2 c w -> ready3 c w -> means c w (sy "ARGV") (Cons p (mk_list (map txt l))) ->
  applied O S (lib4 "args:parse") [alist schema] w (Ret r w').
Proof.
  intros S p l w r w' I AP H FB LB R2 R3 MA. rewrite lib4_parse. apply apply_fun0; [auto|auto|eapply parses_quiet; exact H|]. intros S1 IN1.
  assert (AP1 : apart ["SCHEMA"]%string c S1) by (eapply apart_trans; [exact AP|apply (inside_apart _ _ _ _ IN1)]).
  assert (AP2 : apart parser_hid c S1) by (eapply apart_incl; [|exact AP1]; intros s J; cbn in J |- *; tauto).
  assert (R' := ready3_far S1 w AP2 R3). assert (R0 := proj1 R').
  change (Runs S1 (Pair false (sym "args:parse_r") (mk_list [sym "SCHEMA"; (| sym "cdr"; sym "ARGV" |); Nil])) w (Ret r w')).
  apply (parse_ok l [] w r w' H FB LB R2 R3 S1 (proj1 IN1) AP2 (sy "args:parse_r") false); [apply ready3_means; [exact R'|cbn; tauto]|].
  apply list3 with w w; [arg| |apply f_const; auto].
  change (mk_list (map txt l)) with (val1 "cdr" (Cons p (mk_list (map txt l)))). one "cdr"%string. apply f_sym.
  apply (means_apart ["SCHEMA"]%string c S1 w "ARGV"); auto.
Qed.
End Parse.
End Args.
