(** * Lib2Proofs: iter, iter2, trim, join, merge, dedup, args:skip. *)
From Verif Require Import Base Value ValueSpec ValueProofs Tails Print Eval EvalSpec EvalProofs
  Sem1 Sem2 Sem3 Sem4 Sem5 TailsProofs TailsSem BuiltinSpec Sem6 Cases Lib LibSpec LibBase LibProofs LibDerived LibMore LibAssoc LibSort
  Lib2 Lib2Spec.
Open Scope nat_scope.

(** ** The definitions, as stored *)
Notation iter_body :=
  (| sym "if"; sym "lst";
     Cons (sym "let") (Cons (bindings [(sym "rslt", (| sym "fun"; (| sym "car"; sym "lst" |) |)); (sym "tail", (| sym "cdr"; sym "lst" |))])
       (mk_list [(| sym "if"; sym "tail"; (| sym "iter"; sym "fun"; (| sym "cdr"; sym "lst" |) |); sym "rslt" |)])) |).
Lemma lib2_iter : lib2 "iter" = lam (pars ["fun"; "lst"]%string) [] [iter_body].
Proof. vm_compute. reflexivity. Qed.
Notation iter2_body :=
  (| sym "if"; (| sym "and"; sym "lst1"; sym "lst2" |);
     Cons (sym "let") (Cons (bindings [(sym "car1", (| sym "car"; sym "lst1" |)); (sym "car2", (| sym "car"; sym "lst2" |));
         (sym "cdr1", (| sym "cdr"; sym "lst1" |)); (sym "cdr2", (| sym "cdr"; sym "lst2" |));
         (sym "rslt", (| sym "fun"; sym "car1"; sym "car2" |))])
       (mk_list [(| sym "if"; (| sym "and"; sym "cdr1"; sym "cdr2" |);
                    (| sym "iter2"; sym "fun"; sym "cdr1"; sym "cdr2" |); sym "rslt" |)])) |).
Lemma lib2_iter2 : lib2 "iter2" = lam (pars ["fun"; "lst1"; "lst2"]%string) [] [iter2_body].
Proof. vm_compute. reflexivity. Qed.
Notation whitespace_body :=
  (Cons (sym "|>") (Cons (| sym "="; sym "chr"; Chr 32 |) (mk_list [(| sym "or"; (| sym "="; sym "chr"; Chr 9 |) |);
     (| sym "or"; (| sym "="; sym "chr"; Chr 10 |) |); (| sym "or"; (| sym "="; sym "chr"; Chr 13 |) |)]))).
Lemma lib2_whitespace : lib2 "whitespace?" = lam (pars ["chr"]%string) [] [whitespace_body].
Proof. vm_compute. reflexivity. Qed.
Notation triml_body :=
  (| sym "if"; (| sym "whitespace?"; (| sym "car"; sym "strn" |) |);
     (| Sym true (sy "triml"); (| sym "cdr"; sym "strn" |) |); sym "strn" |).
Lemma lib2_triml : lib2 "triml" = lam (pars ["strn"]%string) [] [triml_body].
Proof. vm_compute. reflexivity. Qed.
Notation trimr_body := (| sym "rev"; (| sym "triml"; (| sym "rev"; sym "strn" |) |) |).
Lemma lib2_trimr : lib2 "trimr" = lam (pars ["strn"]%string) [] [trimr_body].
Proof. vm_compute. reflexivity. Qed.
Notation trim_body := (| sym "trimr"; (| sym "triml"; sym "strn" |) |).
Lemma lib2_trim : lib2 "trim" = lam (pars ["strn"]%string) [] [trim_body].
Proof. vm_compute. reflexivity. Qed.
Notation join_fun := (| sym "append"; sym "e"; (| sym "list"; sym "chr" |); sym "acc" |).
Notation join_body :=
  (Cons (sym "let") (Cons (bindings [(sym "rlst", (| sym "rev"; sym "lst" |))])
     (mk_list [(| sym "foldl"; Cons (sym "\") (Cons (pars ["acc"; "e"]%string) (mk_list [join_fun]));
                  (| sym "car"; sym "rlst" |); (| sym "cdr"; sym "rlst" |) |)]))).
Lemma lib2_join : lib2 "join" = lam (pars ["lst"; "chr"]%string) [] [join_body].
Proof. vm_compute. reflexivity. Qed.
Notation merge_fun := (| sym "ins"; sym "e"; sym "acc" |).
Notation merge_body :=
  (| sym "ded"; (| sym "foldl"; Cons (sym "\") (Cons (pars ["acc"; "e"]%string) (mk_list [merge_fun])); sym "lstB"; sym "lstA" |) |).
Lemma lib2_merge : lib2 "merge" = lam (pars ["ded"; "ins"; "lstA"; "lstB"]%string) [] [merge_body].
Proof. vm_compute. reflexivity. Qed.
Notation dedup_pair := (Cons (sym "cmd") (sym "val")).
Notation dedup_cases :=
  [(sym "APPEND", (| sym "cons"; sym "val"; sym "acc" |));
   (sym "REPLACE", (| sym "cons"; sym "val"; (| sym "cdr"; sym "acc" |) |)); (sym "SKIP", sym "acc")].
Notation dedup_fun :=
  (| sym "if"; (| sym "nil?"; sym "acc" |); (| sym "cons"; sym "elt"; sym "acc" |);
     Cons (sym "let") (Cons (bindings [(dedup_pair, (| sym "cmp"; sym "elt"; (| sym "car"; sym "acc" |) |))])
       (mk_list [Cons (sym "match") (Cons (sym "cmd") (bindings dedup_cases))])) |).
Notation dedup_body :=
  (| sym "foldr"; Cons (sym "\") (Cons (pars ["elt"; "acc"]%string) (mk_list [dedup_fun])); sym "lst"; Nil |).
Lemma lib2_dedup : lib2 "dedup" = lam (pars ["cmp"; "lst"]%string) [] [dedup_body].
Proof. vm_compute. reflexivity. Qed.
Notation skip_body :=
  (| sym "if"; (| sym "or"; (| sym "="; Num 0; sym "LEN" |); (| sym "nil?"; sym "LST" |) |); sym "LST";
     (| Sym true (sy "args:skip"); (| sym "cdr"; sym "LST" |); (| sym "-"; sym "LEN"; Num 1 |) |) |).
Lemma lib2_skip : lib2 "args:skip" = lam (pars ["LST"; "LEN"]%string) [] [skip_body].
Proof. vm_compute. reflexivity. Qed.

(** ** Scopes *)
Lemma ready2_apart : forall hid c S w, apart hid c S -> clear_of hid (used ++ given) = true ->
  clear_of hid given2 = true -> ready2 c w -> ready2 S w.
Proof.
  intros hid c S w AP C1 C2 [R G]. split; [eapply ready_apart; eauto|].
  intros s I. eapply means_same; [|apply (G s I)]. rewrite apart_get in AP. apply AP.
  intros h J. eapply clear_not; eauto.
Qed.
Lemma ready2_means : forall c w s, ready2 c w -> In s given2 -> means c w (sy s) (lib2 s).
Proof. intros c w s [_ G] I. auto. Qed.
Lemma none_of : forall k (l : list string), forallb (fun s => negb (sym_match (sy s) k)) l = true -> forall s, In s l -> k <> sy s.
Proof.
  intros k l H s I E. rewrite forallb_forall in H. specialize (H s I). rewrite E, sym_match_refl in H. discriminate.
Qed.
Lemma inside_out : forall hs vs S S' w k v, inside hs vs [] S S' -> forallb (fun s => negb (sym_match (sy s) k)) hs = true ->
  env_get S k = Some v -> means S' w k v.
Proof.
  intros hs vs S S' w k v [_ G] N E. apply means_get. rewrite G. cbn [lget].
  rewrite combine_none by (apply none_of; auto). cbn [env_get]. rewrite E. auto.
Qed.
Lemma inside_get : forall hs vs d S S' k v, inside hs vs d S S' ->
  env_get (combine (map sy hs) vs) k = Some v -> env_get S' k = Some v.
Proof. intros hs vs d S S' k v [_ G] E. rewrite G. cbn [lget]. rewrite E. auto. Qed.

Section Let.
Variable O : oracle.
Notation Runs := (runs O).

(** [let] with several names. *)
Inductive lets (S : env) : list string -> list atom -> list (string * atom) -> world -> list atom -> world -> Prop :=
| lets_nil : forall ks us w, lets S ks us [] w [] w
| lets_set : forall ks us k e bs w v v' w1 vs w2,
    (forall S', inside ks us [] S S' -> Runs S' e w (Ret v w1) /\ stored S' (Symb (sy k)) v v') ->
    lets S (ks ++ [k]) (us ++ [v']) bs w1 vs w2 -> lets S ks us ((k, e) :: bs) w (v' :: vs) w2.
Lemma lets_cons : forall S ks us k e bs w v w1 vs w2,
    (forall S', inside ks us [] S S' -> Runs S' e w (Ret v w1)) -> kept k v ->
    lets S (ks ++ [k]) (us ++ [v]) bs w1 vs w2 -> lets S ks us ((k, e) :: bs) w (v :: vs) w2.
Proof. intros S ks us k e bs w v w1 vs w2 E K L. eapply lets_set; [|exact L]. intros S' IN. split; [auto|apply kept_stored; auto]. Qed.
Definition slices (ks : list string) (us : list atom) : list env := map (fun p => [p]) (combine (map sy ks) us).
Lemma slices_snoc : forall ks us k v, length ks = length us -> slices (ks ++ [k]) (us ++ [v]) = slices ks us ++ [[(sy k, v)]].
Proof.
  unfold slices. induction ks as [|k0 ks IH]; intros [|u us] k v L; try discriminate; cbn [app map combine]; auto.
  cbn [length] in L. rewrite IH by lia. auto.
Qed.
Lemma slices_inside : forall ks us S, increasing S -> exists S', scope (slices ks us ++ [S]) S' /\ inside ks us [] S S'.
Proof.
  intros ks us S I. destruct (scope_exists (slices ks us ++ [S])) as [S' SC]. exists S'. split; auto.
  apply scope_iff in SC. destruct SC as [I' G]. split; auto. intro k. rewrite G. unfold slices. rewrite lget_single.
  cbn [lget env_get]. destruct (env_get (combine (map sy ks) us) k); auto. 
Qed.
Lemma lets_length : forall S ks us bs w vs w', lets S ks us bs w vs w' -> length vs = length bs.
Proof. induction 1; cbn [length]; auto. Qed.
Lemma lets_bind : forall S ks us bs w vs w', increasing S -> length ks = length us -> lets S ks us bs w vs w' ->
  runs_bindings O S (map (fun p => (sym (fst p), snd p)) bs) (slices ks us) w (slices (ks ++ map fst bs) (us ++ vs)) w'.
Proof.
  intros S ks us bs w vs w' I L H. induction H as [ks us w|ks us k e bs w v v' w1 vs w2 E H IH]; cbn [map fst snd].
  - rewrite !app_nil_r. constructor.
  - destruct (slices_inside ks us S I) as [S' [SC IN]].
    eapply bindings_step with (S := S') (v := v) (v' := v') (b := [(sy k, v')]);
      [apply linear_sym|exact SC|apply E; auto|apply E; auto|apply (layer_bind (sym k)), linear_sym|].
    rewrite <- slices_snoc by auto.
    replace (ks ++ k :: map fst bs) with ((ks ++ [k]) ++ map fst bs) by (rewrite <- app_assoc; auto).
    replace (us ++ v' :: vs) with ((us ++ [v']) ++ vs) by (rewrite <- app_assoc; auto).
    apply IH. rewrite !app_length. cbn. lia.
Qed.
Lemma f_let : forall S t bs body w vs w1 o, increasing S -> ready S w -> lets S [] [] bs w vs w1 ->
  (forall S', inside (map fst bs) vs [] S S' -> runs_body O S' body Nil w1 o) ->
  Runs S (Pair t (sym "let") (Cons (bindings (map (fun p => (sym (fst p), snd p)) bs)) (mk_list body))) w o.
Proof.
  intros S t bs body w vs w1 o I R H B. destruct (slices_inside (map fst bs) vs S I) as [S' [SC IN]].
  eapply (let_runs O S t); [known|auto|apply (lets_bind S [] [] bs w vs w1 I eq_refl H)|exact SC|apply B; auto].
Qed.
End Let.
(** A list bound by [let] is still a list that is empty or not. *)
Lemma list_stored : forall k l S, exists v, is_null v = is_null (mk_list l) /\
  forall S', env_get S' (sy k) = env_get S (sy k) -> stored S' (Symb (sy k)) (mk_list l) v.
Proof.
  intros k l S. destruct (is_func (mk_list l)) eqn:F.
  - destruct (env_get S (sy k)) as [u|] eqn:E.
    + exists (mk_list l). split; auto. intros S' E'. eapply stored_shadow. apply env_get_shows. eauto.
    + destruct l as [|a [|d [|x l]]]; try discriminate; try (cbn [mk_list] in F; unfold is_func, is_body in F; cbn [cdr is_null negb andb] in F; rewrite andb_false_r in F; discriminate).
        destruct (mark_body_list (sy k) a (x :: l)) as [b M]; [discriminate|].
        exists (Cons a (Cons d b)). split; auto. intros S' E'. cbn [mk_list]. apply stored_marked; auto. apply env_get_shows; auto.
  - exists (mk_list l). split; auto. intros S' E'. apply stored_value; auto.
Qed.

(** ** iter *)
Section Iter.
Variable O : oracle.
Notation Runs := (runs O).
Variables (c : env) (f : atom) (F : behaviour).
Notation hid := ["fun"; "lst"; "rslt"; "tail"]%string.
Hypothesis A : acts2 O c hid f F.

Lemma visits_facts : forall l w v w', visits F l w v w' -> is_tail_call v = false.
Proof. induction 1; auto; eapply acts_quiet; eauto; apply A. Qed.
Notation iter_in := (| sym "if"; sym "tail"; (| sym "iter"; sym "fun"; (| sym "cdr"; sym "lst" |) |); sym "rslt" |).
Lemma iter_step : forall a l w b w1 S S1 v w2, F [a] w b w1 -> kept "rslt" b -> ready2 c w ->
  increasing S -> apart hid c S -> inside ["fun"; "lst"]%string [f; mk_list (a :: l)] [] S S1 ->
  (forall S2, increasing S2 -> apart hid c S2 -> ready2 S2 w1 -> means S2 w1 (sy "fun") f -> means S2 w1 (sy "lst") (mk_list (a :: l)) ->
     (exists u, is_null u = is_null (mk_list l) /\ means S2 w1 (sy "tail") u) -> means S2 w1 (sy "rslt") b -> Runs S2 iter_in w1 (Ret v w2)) ->
  Runs S1 iter_body w (Ret v w2).
Proof.
  intros a l w b w1 S S1 v w2 HF K R I AP IN H.
  assert (AP1 : apart hid c S1) by
    (eapply apart_trans; [exact AP|]; eapply apart_incl; [|apply (inside_apart _ _ _ _ IN)]; intros s; cbn; tauto).
  assert (R1 : ready S1 w) by (eapply ready_apart; [exact AP1|reflexivity|apply R]).
  assert (R' : ready2 c w1) by (eapply (proj2 A); eauto).
  assert (AT : forall ks vs S2, incl ks hid -> inside ks vs [] S1 S2 -> apart hid c S2).
  { intros ks vs S2 IK IN2. eapply apart_trans; [exact AP1|]; eapply apart_incl; [|apply (inside_apart _ _ _ _ IN2)]; auto. }
  assert (G1 := inside_get _ _ _ _ _ (sy "fun") f IN eq_refl).
  assert (G2 := inside_get _ _ _ _ _ (sy "lst") (mk_list (a :: l)) IN eq_refl).
  eapply f_if; [auto|arg|]. cbn [mk_list is_null car cdr].
  destruct (list_stored "tail" l S1) as (u & NU & SU).
  apply (f_let O S1 false [("rslt", (| sym "fun"; (| sym "car"; sym "lst" |) |)); ("tail", (| sym "cdr"; sym "lst" |))]%string
    [iter_in] w [b; u] w1); [apply IN|auto| |].
  - eapply lets_cons with (v := b) (w1 := w1); [intros S2 IN2|auto|eapply lets_set with (v := mk_list l); [intros S2 IN2; split|constructor]].
    + assert (AP2 : apart hid c S2) by (apply (AT [] [] S2); [intros s []|auto]).
      assert (R2 : ready S2 w) by (eapply ready_apart; [exact AP2|reflexivity|apply R]).
      change (Runs S2 (Pair false (sym "fun") (mk_list [(| sym "car"; sym "lst" |)])) w (Ret b w1)).
      eapply call_acts; [apply A|exact HF|apply IN2|exact AP2|apply R|eapply inside_out; [exact IN2|reflexivity|auto]|].
      apply list1. change a with (val1 "car" (mk_list (a :: l))). one "car"%string. apply f_sym. eapply inside_out; [exact IN2|reflexivity|auto].
    + assert (AP2 : apart hid c S2) by (eapply (AT _ _ S2); [|exact IN2]; intros s; cbn; tauto).
      assert (R2 : ready S2 w1) by (eapply ready_apart; [exact AP2|reflexivity|apply R']).
      change (mk_list l) with (val1 "cdr" (mk_list (a :: l))). one "cdr"%string. apply f_sym. eapply inside_out; [exact IN2|reflexivity|auto].
    + apply SU. destruct IN2 as [_ G]. rewrite G. cbn [lget]. rewrite combine_none by (apply none_of; reflexivity).
      cbn [env_get]. destruct (env_get S1 (sy "tail")); auto.
  - intros S2 IN2. assert (AP2 : apart hid c S2) by (eapply (AT _ _ S2); [|exact IN2]; intros s; cbn; tauto).
    apply body_one. apply H; auto; [apply IN2|eapply ready2_apart; [exact AP2|reflexivity|reflexivity|auto]| | | |].
    + eapply inside_out; [exact IN2|reflexivity|auto].
    + eapply inside_out; [exact IN2|reflexivity|auto].
    + exists u. split; auto. eapply inside_arg; [exact IN2|reflexivity].
    + eapply inside_arg; [exact IN2|reflexivity].
Qed.
Lemma iter_ok : forall l w v w', visits F l w v w' -> ready2 c w ->
  forall S, increasing S -> apart hid c S -> applied O S (lib2 "iter") [f; mk_list l] w (Ret v w').
Proof.
  intros l w v w' H. induction H as [w|a w b w1 HF K|a a' l w b w1 v w2 HF K H IH]; intros R S I AP;
    rewrite lib2_iter; (apply apply_fun0; [auto|auto|try reflexivity; try (eapply acts_quiet; eauto; apply A); try (eapply visits_facts; eauto)|]); intros S1 IN.
  - assert (AP1 : apart hid c S1) by
      (eapply apart_trans; [exact AP|]; eapply apart_incl; [|apply (inside_apart _ _ _ _ IN)]; intros s; cbn; tauto).
    assert (R1 : ready S1 w) by (eapply ready_apart; [exact AP1|reflexivity|apply R]).
    eapply f_if; [auto|arg|]. cbn [mk_list is_null car cdr]. apply f_const; auto.
  - eapply (iter_step a [] w b w1); eauto. intros S2 I2 AP2 R2 G1 G2 (u & NU & G3) G4.
    eapply f_if; [apply R2|apply f_sym; exact G3|]. rewrite NU. cbn [mk_list is_null car cdr]. apply f_sym; auto.
  - eapply (iter_step a (a' :: l) w b w1); eauto. intros S2 I2 AP2 R2 G1 G2 (u & NU & G3) G4. assert (R2' := proj1 R2).
    eapply f_if; [apply R2|apply f_sym; exact G3|]. rewrite NU. cbn [is_null car cdr].
    change (is_null (mk_list (a' :: l))) with false. cbn [car cdr].
    change (Runs S2 (Pair false (sym "iter") (mk_list [sym "fun"; (| sym "cdr"; sym "lst" |)])) w1 (Ret v w2)).
    eapply (IH (proj2 A _ _ _ _ HF R) S2); [auto|exact AP2|apply ready2_means; [auto|cbn; tauto]|].
    apply list2 with w1; [apply f_sym; auto|]. change (mk_list (a' :: l)) with (val1 "cdr" (mk_list (a :: a' :: l))).
    one "cdr"%string. apply f_sym; auto.
Qed.
End Iter.

(** ** iter2 *)
Section Iter2.
Variable O : oracle.
Notation Runs := (runs O).
Variables (c : env) (f : atom) (F : behaviour).
Notation hid := ["fun"; "lst1"; "lst2"; "car1"; "car2"; "cdr1"; "cdr2"; "rslt"]%string.
Hypothesis A : acts2 O c hid f F.

Lemma visits2_facts : forall l m w v w', visits2 F l m w v w' -> is_tail_call v = false.
Proof. induction 1; auto; eapply acts_quiet; eauto; apply A. Qed.
Notation iter2_in := (| sym "if"; (| sym "and"; sym "cdr1"; sym "cdr2" |);
                    (| sym "iter2"; sym "fun"; sym "cdr1"; sym "cdr2" |); sym "rslt" |).
Lemma iter2_step : forall a b l m w r w1 S S1 v w2, F [a; b] w r w1 -> kept "rslt" r -> kept "car1" a -> kept "car2" b ->
  kept "cdr1" (mk_list l) -> kept "cdr2" (mk_list m) -> ready2 c w ->
  increasing S -> apart hid c S -> inside ["fun"; "lst1"; "lst2"]%string [f; mk_list (a :: l); mk_list (b :: m)] [] S S1 ->
  (forall S2, increasing S2 -> apart hid c S2 -> ready2 S2 w1 -> means S2 w1 (sy "fun") f ->
     means S2 w1 (sy "cdr1") (mk_list l) -> means S2 w1 (sy "cdr2") (mk_list m) -> means S2 w1 (sy "rslt") r ->
     Runs S2 iter2_in w1 (Ret v w2)) ->
  Runs S1 iter2_body w (Ret v w2).
Proof.
  intros a b l m w r w1 S S1 v w2 HF K Ka Kb Kl Km R I AP IN H.
  assert (AP1 : apart hid c S1) by
    (eapply apart_trans; [exact AP|]; eapply apart_incl; [|apply (inside_apart _ _ _ _ IN)]; intros s; cbn; tauto).
  assert (R1 : ready S1 w) by (eapply ready_apart; [exact AP1|reflexivity|apply R]).
  assert (R' : ready2 c w1) by (eapply (proj2 A); eauto).
  assert (AT : forall ks vs S2, incl ks hid -> inside ks vs [] S1 S2 -> apart hid c S2).
  { intros ks vs S2 IK IN2. eapply apart_trans; [exact AP1|]; eapply apart_incl; [|apply (inside_apart _ _ _ _ IN2)]; auto. }
  assert (AW : forall ks vs S2, incl ks hid -> inside ks vs [] S1 S2 -> ready S2 w).
  { intros ks vs S2 IK IN2. eapply ready_apart; [eapply AT; eauto|reflexivity|apply R]. }
  assert (G0 := inside_get _ _ _ _ _ (sy "fun") f IN eq_refl).
  assert (G1 := inside_get _ _ _ _ _ (sy "lst1") (mk_list (a :: l)) IN eq_refl).
  assert (G2 := inside_get _ _ _ _ _ (sy "lst2") (mk_list (b :: m)) IN eq_refl).
  eapply f_if; [auto|two "and"%string; arg|]. cbn [val2 String.eqb Ascii.eqb Bool.eqb mk_list is_null negb andb truth car cdr].
  apply (f_let O S1 false [("car1", (| sym "car"; sym "lst1" |)); ("car2", (| sym "car"; sym "lst2" |));
         ("cdr1", (| sym "cdr"; sym "lst1" |)); ("cdr2", (| sym "cdr"; sym "lst2" |));
         ("rslt", (| sym "fun"; sym "car1"; sym "car2" |))]%string
    [iter2_in] w [a; b; mk_list l; mk_list m; r] w1); [apply IN|auto| |].
  - apply lets_cons with (w1 := w); [intros S2 IN2|auto|].
    { assert (R2 : ready S2 w) by (eapply (AW _ _ S2); [|exact IN2]; intros s; cbn; tauto).
      change a with (val1 "car" (mk_list (a :: l))). one "car"%string. apply f_sym. eapply inside_out; [exact IN2|reflexivity|auto]. }
    apply lets_cons with (w1 := w); [intros S2 IN2|auto|].
    { assert (R2 : ready S2 w) by (eapply (AW _ _ S2); [|exact IN2]; intros s; cbn; tauto).
      change b with (val1 "car" (mk_list (b :: m))). one "car"%string. apply f_sym. eapply inside_out; [exact IN2|reflexivity|auto]. }
    apply lets_cons with (w1 := w); [intros S2 IN2|auto|].
    { assert (R2 : ready S2 w) by (eapply (AW _ _ S2); [|exact IN2]; intros s; cbn; tauto).
      change (mk_list l) with (val1 "cdr" (mk_list (a :: l))). one "cdr"%string. apply f_sym. eapply inside_out; [exact IN2|reflexivity|auto]. }
    apply lets_cons with (w1 := w); [intros S2 IN2|auto|].
    { assert (R2 : ready S2 w) by (eapply (AW _ _ S2); [|exact IN2]; intros s; cbn; tauto).
      change (mk_list m) with (val1 "cdr" (mk_list (b :: m))). one "cdr"%string. apply f_sym. eapply inside_out; [exact IN2|reflexivity|auto]. }
    apply lets_cons with (w1 := w1); [intros S2 IN2|auto|constructor].
    assert (AP2 : apart hid c S2) by (eapply (AT _ _ S2); [|exact IN2]; intros s; cbn; tauto).
    change (Runs S2 (Pair false (sym "fun") (mk_list [sym "car1"; sym "car2"])) w (Ret r w1)).
    eapply call_acts; [apply A|exact HF|apply IN2|exact AP2|apply R|eapply inside_out; [exact IN2|reflexivity|auto]|].
    apply list2 with w; arg.
  - intros S2 IN2. assert (AP2 : apart hid c S2) by (eapply (AT _ _ S2); [|exact IN2]; intros s; cbn; tauto).
    apply body_one. apply H; auto; [apply IN2|eapply ready2_apart; [exact AP2|reflexivity|reflexivity|auto]| | | |].
    + eapply inside_out; [exact IN2|reflexivity|auto].
    + eapply inside_arg; [exact IN2|reflexivity].
    + eapply inside_arg; [exact IN2|reflexivity].
    + eapply inside_arg; [exact IN2|reflexivity].
Qed.
Lemma iter2_ok : forall l m w v w', visits2 F l m w v w' -> ready2 c w ->
  forall S, increasing S -> apart hid c S -> applied O S (lib2 "iter2") [f; mk_list l; mk_list m] w (Ret v w').
Proof.
  intros l m w v w' H. induction H as [m w|l w|a b l m w r w1 HF K Ka Kb Kl Km E|a b l m w r w1 v w2 HF K Ka Kb Kl Km E1 E2 H IH]; intros R S I AP;
    rewrite lib2_iter2; (apply apply_fun0; [auto|auto|try reflexivity; try (eapply acts_quiet; eauto; apply A); try (eapply visits2_facts; eauto)|]); intros S1 IN.
  1,2: assert (AP1 : apart hid c S1) by
      (eapply apart_trans; [exact AP|]; eapply apart_incl; [|apply (inside_apart _ _ _ _ IN)]; intros s; cbn; tauto);
    assert (R1 : ready S1 w) by (eapply ready_apart; [exact AP1|reflexivity|apply R]);
    (eapply f_if; [auto|two "and"%string; arg|]).
  - cbn. apply f_const; auto.
  - cbn [val2 String.eqb Ascii.eqb Bool.eqb mk_list is_null negb]. rewrite andb_false_r. cbn. apply f_const; auto.
  - eapply (iter2_step a b l m w r w1); eauto. intros S2 I2 AP2 R2 G1 G2 G3 G4. assert (R2' := proj1 R2).
    eapply f_if; [auto|two "and"%string; apply f_sym; [exact G2|exact G3]|].
    replace (is_null (val2 "and" (mk_list l) (mk_list m))) with true; [cbn [car cdr]; apply f_sym; auto|].
    destruct E; subst; [reflexivity|]. destruct l; reflexivity.
  - eapply (iter2_step a b l m w r w1); eauto. intros S2 I2 AP2 R2 G1 G2 G3 G4. assert (R2' := proj1 R2).
    eapply f_if; [auto|two "and"%string; apply f_sym; [exact G2|exact G3]|].
    replace (is_null (val2 "and" (mk_list l) (mk_list m))) with false by (destruct l, m; congruence || reflexivity). cbn [car cdr].
    change (Runs S2 (Pair false (sym "iter2") (mk_list [sym "fun"; sym "cdr1"; sym "cdr2"])) w1 (Ret v w2)).
    eapply (IH (proj2 A _ _ _ _ HF R) S2); [auto|exact AP2|apply ready2_means; [auto|cbn; tauto]|].
    apply list3 with w1 w1; apply f_sym; auto.
Qed.
End Iter2.

(** ** trim *)
Section Trim.
Variable O : oracle.
Notation Runs := (runs O).

Lemma equ_chr : forall S e z w v, ready S w -> Runs S e w (Ret v w) ->
  Runs S (| sym "="; e; Chr z |) w (Ret (truth (equ v (Chr z))) w).
Proof.
  intros S e z w v R E. change (truth (equ v (Chr z))) with (val2 "=" v (Chr z)).
  two "="%string; [exact E|apply f_const; auto].
Qed.
(** [or] with one operand. *)
Lemma or_one : forall S e w b, ready S w -> Runs S e w (Ret (truth b) w) -> Runs S (| sym "or"; e |) w (Ret (truth b) w).
Proof.
  intros S e w b R E.
  rewrite (call_rest O "or" 34%Z Por); auto; try reflexivity; [|known].
  unfold Rprim, run_prim. cbn [pops_two prim1]. unfold run_or. cbn [car cdr].
  destruct E as [_ [n E]]. destruct n; [discriminate|].
  split; [discriminate|]. exists (Datatypes.S n). unfold mbind.
  replace (eval O (Datatypes.S n) S e w) with (@Ret atom (truth b) w) by auto. destruct b; cbn [negb is_null truth]; [reflexivity|].
  reflexivity.
Qed.
(** A stage of the pipe: its head is a truth value, which is no function; the call
    gives back the list. *)
Lemma stage : forall S e w b q, ready S w -> Runs S e w (Ret (truth b) w) ->
  Runs S (mk_list [(| sym "or"; e |); q]) w (Ret (Cons (truth b) (mk_list [q])) w).
Proof.
  intros S e w b q R E. cbn [mk_list]. apply runs_pair. left. exists (truth b), w. split; [apply or_one; auto|].
  destruct b; cbn; reflexivity.
Qed.
Notation quoted v := (Cons (sym "quote") v).
Definition white_answer (v : atom) : atom :=
  Cons (truth (equ v (Chr 13))) (mk_list [quoted (Cons (truth (equ v (Chr 10))) (mk_list [quoted
    (Cons (truth (equ v (Chr 9))) (mk_list [quoted (truth (equ v (Chr 32)))]))]))]).
Lemma whitespace_ok : forall S v w, increasing S -> ready S w ->
  applied O S (lib2 "whitespace?") [v] w (Ret (white_answer v) w).
Proof.
  intros S v w I R. rewrite lib2_whitespace. apply apply_fun0; [auto|auto|reflexivity|]. intros S' IN.
  assert (R' : ready S' w) by (eapply inside_ready0; [exact IN|reflexivity|auto]).
  assert (E : forall z, Runs S' (| sym "="; sym "chr"; Chr z |) w (Ret (truth (equ v (Chr z))) w)).
  { intros z. apply equ_chr; auto. arg. }
  apply pipe_call_runs; [known|].
  eapply pipe_next; [apply E|]. eapply pipe_next; [apply stage; [auto|apply E]|].
  eapply pipe_next; [apply stage; [auto|apply E]|]. apply pipe_last. apply stage; [auto|apply E].
Qed.

(** A loop whose every turn asks for another one has no outcome. *)
Lemma no_end : forall cls s b (P : env -> world -> Prop),
  (forall e w, P e w -> exists x e' w1 t, Rprog O (merge cls e) b Nil w (Ret (Pair true (Sym t s) x) w1) /\ env_of_atom x = Some e' /\ P e' w1) ->
  forall e w o, P e w -> ~ Rloop O cls (Symb s) b e w o.
Proof.
  intros cls s b P H e w o HP [N [n E]]. 
  assert (X : forall m k e w, P e w -> tail_loop (eval O m) k cls (Symb s) b e w = NoFuel).
  { intros m. induction k as [|k IH]; intros e0 w0 HP0; auto. cbn [tail_loop]. unfold mbind at 1.
    destruct (H e0 w0 HP0) as [x [e' [w1 [t [[_ [j J]] [EX HP']]]]]].
    assert (M := prog_monof O (merge cls e0) b Nil w0).
    destruct (prog (eval O m) (merge cls e0) b Nil w0) as [r w2|z|] eqn:D; auto.
    - assert (U : @Ret atom r w2 = Ret (Pair true (Sym t s) x) w1).
      { apply (conv_unique _ _ _ M); split; try discriminate; eauto. }
      inversion U; subst r w2. unfold mbind, opt. cbn [self_call]. rewrite sym_match_refl. cbn [ret]. rewrite EX. apply IH; auto.
    - assert (U : @Stop atom z = Ret (Pair true (Sym t s) x) w1).
      { apply (conv_unique _ _ _ M); split; try discriminate; eauto. }
      discriminate. }
  apply N. rewrite <- E. apply X; auto.
Qed.
(** Arguments without an outcome: no outcome. *)
Lemma call_stuck : forall S t k hs d body es w o, means S w k (lam (pars hs) d body) -> body <> [] -> length es = length hs ->
  (forall o', ~ runs_list O S es w o') -> ~ Runs S (Pair t (Symb k) (mk_list es)) w o.
Proof.
  intros S t k hs d body es w o M B L N H.
  rewrite mk_arg_list in M. rewrite (runs_head O _ _ _ _ _ _ _ _ M) in H by (apply lam_func; auto).
  rewrite Rfunc_eq in H. unfold lam in H. cbn [car cdr] in H.
  assert (LE : length es = length (names (map sy hs))) by (unfold names; rewrite !map_length; auto).
  rewrite (mk_arg_list es) in H. rewrite may_apply_rest in H by auto. cbn [may_apply is_null] in H.
  assert (Q : forall o', ~ Rargs O S [] (arg_list (names (map sy hs)) Nil) (arg_list es Nil) w o').
  { intros o' X. apply args_rest in X; auto. destruct X as [[vs [w1 [X _]]]|[z [X _]]]; eapply N; eauto. }
  destruct H as [[a [w1 [X _]]]|[z [X _]]]; eapply Q; eauto.
Qed.
Lemma list1_stuck : forall S e w, (forall o, ~ Runs S e w o) -> forall o, ~ runs_list O S [e] w o.
Proof.
  intros S e w N o H. inversion H; subst; eapply N; eauto.
Qed.

Lemma triml_stuck : forall S v w t es w0 o, increasing S -> ready2 S w -> means S w0 (sy "triml") (lib2 "triml") ->
  runs_list O S es w0 (Ret [v] w) -> ~ Runs S (Pair t (sym "triml") (mk_list es)) w0 o.
Proof.
  intros S v w t es w0 o I R M A H. rewrite lib2_triml in M. rewrite (mk_arg_list (names _)) in M. rewrite mk_arg_list in H.
  assert (LE : length es = length (names (map sy ["strn"]%string))) by (apply runs_list_len in A; auto).
  apply (call_full O S t (sym "triml") (names (map sy ["strn"]%string)) Nil [] [triml_body] es Nil w0 w0 [v] w []) in H;
    auto; [|apply f_sym; auto|discriminate].
  revert H. apply (no_end (merge S []) (sy "triml") (mk_list [triml_body])
    (fun e w1 => exists u, e = bound_all (names (map sy ["strn"]%string)) [u] [] /\ w1 = w)).
  2: { exists v. auto. }
  clear v es w0 A LE M o. intros e w1 [u [-> ->]].
  assert (IN := turn_scope S [] ["strn"]%string [u] I (NoDup_nil _) eq_refl).
  set (S' := merge (merge S []) _) in *. clearbody S'.
  assert (R' : ready2 S' w) by (eapply ready2_apart; [apply (inside_apart _ _ _ _ IN)|reflexivity|reflexivity|auto]).
  assert (R0 := proj1 R').
  exists (atom_of_env (bound_all (names (map sy ["strn"]%string)) [cdr u] [])), (bound_all (names (map sy ["strn"]%string)) [cdr u] []), w, true.
  split; [|split; [apply env_of_atom_of_env|eauto]].
  apply Rprog_list. apply body_one.
  eapply f_if with (v := white_answer (car u)) (w1 := w); [auto| |].
  - change (Runs S' (Pair false (sym "whitespace?") (mk_list [(| sym "car"; sym "strn" |)])) w (Ret (white_answer (car u)) w)).
    eapply (whitespace_ok S' (car u) w (proj1 IN) R0); [apply ready2_means; [auto|cbn; tauto]|].
    apply list1. change (car u) with (val1 "car" u). one "car"%string. arg.
  - cbn [white_answer is_null car cdr].
    change (Runs S' (Pair false (Sym true (sy "triml")) (mk_list [(| sym "cdr"; sym "strn" |)])) w (Ret (again (sy "triml") ["strn"]%string [cdr u]) w)).
    eapply marked_call; [| |rewrite <- lib2_triml; apply ready2_means; [auto|cbn; tauto]|]; [discriminate|auto|].
    apply list1. change (cdr u) with (val1 "cdr" u). one "cdr"%string. arg.
Qed.
Lemma trim_stuck : forall S v w t es w0 o, increasing S -> ready2 S w -> means S w0 (sy "trim") (lib2 "trim") ->
  runs_list O S es w0 (Ret [v] w) -> ~ Runs S (Pair t (sym "trim") (mk_list es)) w0 o.
Proof.
  intros S v w t es w0 o I R M A H. rewrite lib2_trim in M. rewrite (mk_arg_list (names _)) in M. rewrite mk_arg_list in H.
  assert (LE : length es = length (names (map sy ["strn"]%string))) by (apply runs_list_len in A; auto).
  apply (call_full O S t (sym "trim") (names (map sy ["strn"]%string)) Nil [] [trim_body] es Nil w0 w0 [v] w []) in H;
    auto; [|apply f_sym; auto|discriminate].
  cbn [app] in H.
  assert (IN := turn_scope S [] ["strn"]%string [v] I (NoDup_nil _) eq_refl).
  apply Rloop_eq in H. set (S' := merge (merge S []) _) in *. clearbody S'.
  assert (R' : ready2 S' w) by (eapply ready2_apart; [apply (inside_apart _ _ _ _ IN)|reflexivity|reflexivity|auto]).
  assert (N : forall o', ~ runs_body O S' [trim_body] Nil w o').
  { intros o' X. assert (Y : exists o1, Runs S' trim_body w o1) by (inversion X; subst; eauto). destruct Y as [o1 Y]. revert Y.
    change (~ Runs S' (Pair false (sym "trimr") (mk_list [(| sym "triml"; sym "strn" |)])) w o1).
    eapply call_stuck; [rewrite <- lib2_trimr; apply ready2_means; [auto|cbn; tauto]|discriminate|auto|].
    apply list1_stuck. intros o2.
    change (~ Runs S' (Pair false (sym "triml") (mk_list [sym "strn"])) w o2).
    eapply triml_stuck; [apply IN|exact R'|apply ready2_means; [auto|cbn; tauto]|]. apply list1. arg. }
  destruct H as [[r [w1 [X _]]]|[z [X _]]]; apply Rprog_list in X; eapply N; eauto.
Qed.
Lemma trimr_stuck : forall S l w t es w0 o, increasing S -> ready2 S w -> means S w0 (sy "trimr") (lib2 "trimr") ->
  runs_list O S es w0 (Ret [mk_list l] w) -> ~ Runs S (Pair t (sym "trimr") (mk_list es)) w0 o.
Proof.
  intros S l w t es w0 o I R M A H. rewrite lib2_trimr in M. rewrite (mk_arg_list (names _)) in M. rewrite mk_arg_list in H.
  assert (LE : length es = length (names (map sy ["strn"]%string))) by (apply runs_list_len in A; auto).
  apply (call_full O S t (sym "trimr") (names (map sy ["strn"]%string)) Nil [] [trimr_body] es Nil w0 w0 [mk_list l] w []) in H;
    auto; [|apply f_sym; auto|discriminate].
  cbn [app] in H.
  assert (IN := turn_scope S [] ["strn"]%string [mk_list l] I (NoDup_nil _) eq_refl).
  apply Rloop_eq in H. set (S' := merge (merge S []) _) in *. clearbody S'.
  assert (R' : ready2 S' w) by (eapply ready2_apart; [apply (inside_apart _ _ _ _ IN)|reflexivity|reflexivity|auto]).
  assert (R0 := proj1 R').
  assert (N : forall o', ~ runs_body O S' [trimr_body] Nil w o').
  { intros o' X. assert (Y : exists o1, Runs S' trimr_body w o1) by (inversion X; subst; eauto). destruct Y as [o1 Y]. revert Y.
    change (~ Runs S' (Pair false (sym "rev") (mk_list [(| sym "triml"; (| sym "rev"; sym "strn" |) |)])) w o1).
    eapply call_stuck; [rewrite <- lib_rev; apply ready_means; [auto|cbn; tauto]|discriminate|auto|].
    apply list1_stuck. intros o2.
    change (~ Runs S' (Pair false (sym "triml") (mk_list [(| sym "rev"; sym "strn" |)])) w o2).
    eapply triml_stuck with (v := mk_list (rev l)); [apply IN|exact R'|apply ready2_means; [auto|cbn; tauto]|]. apply list1.
    change (Runs S' (Pair false (sym "rev") (mk_list [sym "strn"])) w (Ret (mk_list (rev l)) w)).
    eapply (rev_ok O S' l w); [apply IN|auto|apply ready_means; [auto|cbn; tauto]|]. apply list1. arg. }
  destruct H as [[r [w1 [X _]]]|[z [X _]]]; apply Rprog_list in X; eapply N; eauto.
Qed.
End Trim.

(** ** join *)
Section Join.
Variable O : oracle.
Notation Runs := (runs O).
Variable x : atom.
Fixpoint glue (l : list atom) (m : list (list atom)) : list atom :=
  match m with [] => l | e :: m' => glue (e ++ x :: l) m' end.
Lemma glue_joined : forall m ls r, ls <> [] -> joined x ls r -> joined x (rev m ++ ls) (glue r m).
Proof.
  induction m as [|e m IH]; intros ls r N H; cbn [rev glue app]; auto.
  rewrite <- app_assoc. cbn [app]. apply IH; [discriminate|]. constructor; auto.
Qed.
Lemma joined_unique : forall ls r, joined x ls r -> forall r', joined x ls r' -> r = r'.
Proof.
  intros ls r H. induction H as [|l|l ls r N H IH]; intros r' H'; inversion H' as [|?|? ? r0 N0 H0]; subst; auto; try congruence.
  rewrite (IH r0) by auto. auto.
Qed.
Definition gluing : behaviour := pure (fun vs b => exists a e, vs = [mk_list a; mk_list e] /\ b = mk_list (e ++ x :: a)).
Lemma glue_fold : forall m l w, folds_left gluing (map mk_list m) (mk_list l) w (mk_list (glue l m)) w.
Proof.
  induction m as [|e m IH]; intros l w; cbn [map glue]; [constructor|].
  econstructor; [|apply IH]. split; auto. exists l, e. auto.
Qed.
Lemma join_acts : forall S2, increasing S2 -> env_get S2 (sy "chr") = Some x ->
  acts O S2 ["fun"; "acc"; "lst"]%string (lam (pars ["acc"; "e"]%string) S2 [join_fun]) gluing.
Proof.
  intros S2 I2 G. apply acts_fun; auto; [apply increasing_NoDup; auto|discriminate| |].
  - intros vs w b w' [[a [e [-> ->]]] ->]. split; auto. split; [apply mk_quiet|auto].
  - intros T T' vs w b w' IT AP IN RC R [[a [e [-> ->]]] ->]. apply body_one.
    change (Runs T' (Pair false (sym "append") (Cons (sym "e") (mk_list [(| sym "list"; sym "chr" |); sym "acc"]))) w (Ret (mk_list (e ++ x :: a)) w)).
    assert (I' : increasing T') by apply IN.
    apply append_ok with w; auto; [arg|].
    assert (GC : env_get T' (sy "chr") = Some x).
    { destruct IN as [_ GT]. rewrite GT. cbn [lget]. rewrite combine_none by (apply none_of; reflexivity). rewrite G. auto. }
    assert (GA : env_get T' (sy "acc") = Some (mk_list a)) by (eapply inside_get; [exact IN|reflexivity]).
    change (x :: a) with ([x] ++ a). apply joins_cons with w; auto.
    + intros U IU BU.
      assert (RU : ready U w) by (eapply ready_apart; [apply beside_apart; exact BU|reflexivity|auto]).
      change (Runs U (Pair false (sym "list") (mk_list [sym "chr"])) w (Ret (mk_list [x]) w)).
      apply list_runs; [known|]. left. exists [x], w. split; auto. apply list1. apply f_sym, means_get.
      rewrite beside_get in BU. rewrite BU; auto; [apply none_of; reflexivity|left; congruence].
    + rewrite <- (app_nil_r a) at 1. apply joins_cons with w; auto; [|constructor].
      intros U IU BU. apply (joins_name O T' (sy "acc")); auto. apply none_of; reflexivity.
Qed.
Lemma join_ok : forall ls r, joined x ls r -> kept "rlst" (mk_list (map mk_list (rev ls))) -> forall S w, increasing S -> ready S w ->
  applied O S (lib2 "join") [mk_list (map mk_list ls); x] w (Ret (mk_list r) w).
Proof.
  intros ls r J K S w I R. rewrite lib2_join. apply apply_fun0; [auto|auto|apply mk_quiet|]. intros S1 IN.
  assert (R1 : ready S1 w) by (eapply inside_ready0; [exact IN|reflexivity|auto]).
  apply (f_let O S1 false [("rlst", (| sym "rev"; sym "lst" |))]%string
    [(| sym "foldl"; Cons (sym "\") (Cons (pars ["acc"; "e"]%string) (mk_list [join_fun]));
                  (| sym "car"; sym "rlst" |); (| sym "cdr"; sym "rlst" |) |)] w [mk_list (map mk_list (rev ls))] w); [apply IN|auto| |].
  - apply lets_cons with (w1 := w); [intros S2 IN2|auto|constructor].
    assert (R2 : ready S2 w) by (eapply inside_ready0; [exact IN2|reflexivity|auto]).
    rewrite map_rev.
    change (Runs S2 (Pair false (sym "rev") (mk_list [sym "lst"])) w (Ret (mk_list (rev (map mk_list ls))) w)).
    eapply (rev_ok O S2 _ w (proj1 IN2) R2); [apply ready_means; [auto|cbn; tauto]|]. apply list1. apply f_sym.
    eapply inside_out; [exact IN2|reflexivity|]. eapply inside_get; [exact IN|reflexivity].
  - intros S2 IN2. assert (R2 : ready S2 w) by (eapply inside_ready0; [exact IN2|reflexivity|auto]).
    assert (GC : env_get S2 (sy "chr") = Some x).
    { assert (E : env_get S1 (sy "chr") = Some x) by (eapply inside_get; [exact IN|reflexivity]).
      destruct IN2 as [_ G2]. rewrite G2. cbn [lget]. rewrite combine_none by (apply none_of; reflexivity).
      cbn [env_get]. rewrite E. auto. }
    apply body_one.
    change (Runs S2 (Pair false (sym "foldl") (mk_list [Cons (sym "\") (Cons (pars ["acc"; "e"]%string) (mk_list [join_fun]));
                  (| sym "car"; sym "rlst" |); (| sym "cdr"; sym "rlst" |)])) w (Ret (mk_list r) w)).
    assert (X : exists l m, car (mk_list (map mk_list (rev ls))) = mk_list l /\ cdr (mk_list (map mk_list (rev ls))) = mk_list (map mk_list m) /\ glue l m = r).
    { destruct (rev ls) as [|l m] eqn:E.
      - exists [], []. assert (L : ls = []) by (rewrite <- (rev_involutive ls), E; auto). subst ls. inversion J; subst; auto; congruence.
      - exists l, m. split; auto. split; auto. assert (L : ls = rev m ++ [l]) by (rewrite <- (rev_involutive ls), E; auto).
        subst ls. eapply joined_unique; [|exact J]. apply glue_joined; [discriminate|constructor]. }
    destruct X as [l [m [EC [ED EG]]]].
    eapply (call_foldl O S2 _ gluing (map mk_list m) (mk_list l) w); [apply join_acts; [apply IN2|auto]|rewrite <- EG; apply glue_fold|apply mk_quiet|apply IN2|auto|auto|].
    apply list3 with w w; [apply f_lambda; auto| |].
    + rewrite <- EC. change (car (mk_list (map mk_list (rev ls)))) with (val1 "car" (mk_list (map mk_list (rev ls)))). one "car"%string. arg.
    + rewrite <- ED. change (cdr (mk_list (map mk_list (rev ls)))) with (val1 "cdr" (mk_list (map mk_list (rev ls)))). one "cdr"%string. arg.
Qed.
(** Lists of strings are bound as they are. *)
Lemma kept_texts : forall s ls, kept s (mk_list (map mk_chars ls)).
Proof.
  intros s ls. unfold kept. destruct (is_func (mk_list (map mk_chars ls))) eqn:F; auto. right.
  destruct ls as [|a [|b [|d ls]]].
  1,2,3: exfalso; revert F; unfold is_func; cbn [map mk_list cdr is_args is_clos is_body]; rewrite ?andb_false_r; discriminate.
  cbn [map mk_list car cdr]. generalize (mk_chars a). intro args. clear F a b. revert d.
  induction ls as [|e ls IH]; intros d; cbn [map mk_list].
  - destruct d; cbn; auto.
  - change (match mark_body (sy s) args (Cons (mk_chars e) (mk_list (map mk_chars ls))) with
            | Some r => Some (Cons (mk_chars d) r) | None => None end =
            Some (Cons (mk_chars d) (Cons (mk_chars e) (mk_list (map mk_chars ls))))).
    rewrite IH. auto.
Qed.
End Join.

(** ** merge *)
Section Merge.
Variable O : oracle.
Notation Runs := (runs O).
Variables (c : env) (ded ins : atom) (D I : behaviour).
Notation hid := ["ded"; "ins"; "lstA"; "lstB"; "acc"; "e"; "fun"; "lst"]%string.
Hypothesis AD : acts O c hid ded D.
Hypothesis AI : acts O c hid ins I.
Notation flip := (fun vs : list atom => match vs with [acc; e] => I [e; acc] | _ => fun _ _ _ => False end).
Lemma merge_ok : forall a z w v w', merged I D a z w v w' -> is_tail_call z = false -> ready c w ->
  forall S, increasing S -> apart hid c S -> applied O S (lib2 "merge") [ded; ins; mk_list a; z] w (Ret v w').
Proof.
  intros a z w v w' [r [w1 [HF HD]]] Q R S IS AP. rewrite lib2_merge.
  apply apply_fun0; [auto|auto|exact (acts_quiet O c hid ded D _ _ _ _ AD HD)|]. intros S1 IN.
  assert (AP1 : apart hid c S1) by
    (eapply apart_trans; [exact AP|]; eapply apart_incl; [|apply (inside_apart _ _ _ _ IN)]; intros s; cbn; tauto).
  assert (R1 : ready S1 w) by (eapply ready_apart; [exact AP1|reflexivity|auto]).
  assert (BACK : forall u, ready S1 u -> ready c u).
  { intros u X. eapply (ready_apart hid S1 c); [apply apart_sym; auto|reflexivity|auto]. }
  assert (TO : forall u, ready c u -> ready S1 u).
  { intros u X. eapply (ready_apart hid c S1); [auto|reflexivity|auto]. }
  assert (AF : acts O S1 ["fun"; "acc"; "lst"]%string (lam (pars ["acc"; "e"]%string) S1 [merge_fun]) flip).
  { apply acts_fun; auto; [apply increasing_NoDup, IN|discriminate| |].
    - intros vs u b u' H. destruct vs as [|acc [|e [|? ?]]]; try contradiction. split; auto.
      split; [eapply acts_quiet; eauto|]. intro X. apply TO. eapply acts_keep; eauto.
    - intros T T' vs u b u' IT APT INT RC RT H. destruct vs as [|acc [|e [|? ?]]]; try contradiction. apply body_one.
      change (Runs T' (Pair false (sym "ins") (mk_list [sym "e"; sym "acc"])) u (Ret b u')).
      eapply call_acts; [exact AI|exact H|apply INT| |auto| |].
      + eapply inside_apart_d; [exact INT|intros s; cbn; tauto|exact AP1|].
        eapply apart_trans; [exact AP1|]. eapply apart_incl; [|exact APT]. intros s; cbn; tauto.
      + eapply inside_cap; [exact INT|reflexivity|]. eapply inside_get; [exact IN|reflexivity].
      + apply list2 with u; arg. }
  assert (RW : ready c w1).
  { clear - HF R AI. induction HF as [z w|e l z w z1 w1 r w2 H HF IH]; auto. apply IH. eapply acts_keep; eauto. }
  change (Runs S1 (Pair false (sym "ded") (mk_list [(| sym "foldl"; Cons (sym "\") (Cons (pars ["acc"; "e"]%string) (mk_list [merge_fun])); sym "lstB"; sym "lstA" |)])) w (Ret v w')).
  eapply call_acts; [exact AD|exact HD|apply IN|exact AP1|auto|eapply inside_arg; [exact IN|reflexivity]|].
  apply list1.
  change (Runs S1 (Pair false (sym "foldl") (mk_list [Cons (sym "\") (Cons (pars ["acc"; "e"]%string) (mk_list [merge_fun])); sym "lstB"; sym "lstA"])) w (Ret r w1)).
  eapply (call_foldl O S1 _ flip a z w); [exact AF|exact HF|auto|apply IN|auto|auto|].
  apply list3 with w w; [apply f_lambda; auto|arg|arg].
Qed.
End Merge.

(** ** dedup *)
Section Dedup.
Variable O : oracle.
Notation Runs := (runs O).
Variables (c : env) (f : atom) (F : behaviour).
Notation hid := ["cmp"; "lst"; "elt"; "acc"; "cmd"; "val"; "fun"]%string.
Hypothesis A : acts O c hid f F.
Hypothesis HM : forall vs w b w', F vs w b w' -> calls c w "match" -> calls c w' "match".

(** One element. *)
Definition putting : behaviour := fun vs w b w' =>
  (exists a, vs = [a; Nil] /\ b = mk_list [a] /\ w' = w) \/
  (exists a h r t x v, calls c w "match" /\ vs = [a; mk_list (h :: r)] /\ F [a; h] w (Pair t x v) w' /\
     (x = sym "APPEND" /\ b = mk_list (v :: h :: r) \/ x = sym "REPLACE" /\ b = mk_list (v :: r) \/
      x = sym "SKIP" /\ b = mk_list (h :: r) \/
      (forall u s, In s ["APPEND"; "REPLACE"; "SKIP"]%string -> x <> Sym u (sy s)) /\ b = Nil)).
Lemma dedup_fold : forall l w r w', deduped F l w r w' -> calls c w "match" ->
  folds_right putting Nil l w (mk_list r) w' /\ calls c w' "match".
Proof.
  intros l w r w' H M. induction H as [w|a l w w1 H IH|a l w b r w1 v w2 H IH HF|a l w b r w1 v w2 H IH HF|a l w b r w1 v w2 H IH HF|a l w b r w1 t x v w2 H IH HF N];
    [split; [constructor|auto]| | | | |]; destruct (IH M) as [X M1]; (split; [|eauto]); econstructor; try exact X;
    [left; eauto|right|right|right|right]; unfold cmd in *; do 6 eexists; (split; [exact M1|]); (split; [reflexivity|]); (split; [exact HF|]); eauto 7.
Qed.
Lemma pair_linear : linear dedup_pair.
Proof.
  intros k [|[|] [|? p]] [|[|] [|? q]] H1 H2; cbn in H1, H2; auto; try tauto; try (destruct H1; discriminate);
    try (destruct H2; discriminate).
  - destruct H1 as [? H1], H2 as [? H2]. injection H1 as _ <-. discriminate.
  - destruct H1 as [? H1], H2 as [? H2]. injection H1 as _ <-. discriminate.
Qed.

Lemma dedup_let : forall T e body w t x v w1 o, increasing T -> ready T w -> Runs T e w (Ret (Pair t x v) w1) ->
  (forall S, inside ["cmd"; "val"]%string [x; v] [] T S -> runs_body O S body Nil w1 o) ->
  Runs T (Pair false (sym "let") (Cons (bindings [(dedup_pair, e)]) (mk_list body))) w o.
Proof.
  intros T e body w t x v w1 o I R E B.
  destruct (scope_exists ([bind [] dedup_pair (Pair t x v)] ++ [T])) as [S SC].
  assert (IN : inside ["cmd"; "val"]%string [x; v] [] T S).
  { assert (G : increasing S /\ forall k, env_get S k = lget ([bind [] dedup_pair (Pair t x v)] ++ [T]) k) by (apply scope_iff; auto).
    destruct G as [IS G]. split; auto. intro k. rewrite G. cbn [bind app lget env_get map combine car cdr].
    destruct (sym_match (sy "cmd") k) eqn:E1; [|destruct (sym_match (sy "val") k); auto].
    apply sym_match_eq in E1. subst k. reflexivity. }
  eapply (let_runs O T false [(dedup_pair, e)] body w [bind [] dedup_pair (Pair t x v)] w1 S); [known|auto| |exact SC|apply B; auto].
  eapply bindings_step with (S := T) (v := Pair t x v) (v' := Pair t x v);
    [apply pair_linear| |exact E|apply stored_pattern; reflexivity|apply layer_bind, pair_linear|constructor].
  apply scope_iff. split; auto. intro k. cbn [app lget]. destruct (env_get T k); auto.
Qed.
Lemma dedup_acts : forall S1, increasing S1 -> apart hid c S1 -> env_get S1 (sy "cmp") = Some f ->
  acts O S1 ["fun"; "lst"; "acc"]%string (lam (pars ["elt"; "acc"]%string) S1 [dedup_fun]) putting.
Proof.
  intros S1 I1 AP1 G1.
  assert (BACK : forall u, ready S1 u -> ready c u).
  { intros u X. eapply (ready_apart hid S1 c); [apply apart_sym; auto|reflexivity|auto]. }
  assert (TO : forall u, ready c u -> ready S1 u).
  { intros u X. eapply (ready_apart hid c S1); [auto|reflexivity|auto]. }
  apply acts_fun; auto; [apply increasing_NoDup; auto|discriminate| |].
  - intros vs w b w' [[a [-> [-> ->]]]|[a [h [r [t [x [v [M [-> [HF E]]]]]]]]]].
    + split; auto.
    + split; auto. split; [|intro R; apply TO; eapply acts_keep; [exact A|exact HF|auto]].
      destruct E as [[_ ->]|[[_ ->]|[[_ ->]|[_ ->]]]]; reflexivity.
  - intros T T' vs w b w' IT APT INT RC RT [[a [-> [-> ->]]]|[a [h [r [t [x [v [M [-> [HF E]]]]]]]]]]; apply body_one.
    + eapply f_if; [auto|one "nil?"%string; arg|]. cbn [val1 String.eqb Ascii.eqb Bool.eqb truth is_null car cdr].
      change (mk_list [a]) with (val2 "cons" a Nil). two "cons"%string; arg.
    + assert (APT' : apart hid c T').
      { eapply inside_apart_d; [exact INT|intros s; cbn; tauto|exact AP1|].
        eapply apart_trans; [exact AP1|]. eapply apart_incl; [|exact APT]. intros s; cbn; tauto. }
      eapply f_if; [auto|one "nil?"%string; arg|]. change (is_null (val1 "nil?" (mk_list (h :: r)))) with true. cbn [car cdr].
      apply dedup_let with (t := t) (x := x) (v := v) (w1 := w'); [apply INT|auto| |].
      * change (Runs T' (Pair false (sym "cmp") (mk_list [sym "elt"; (| sym "car"; sym "acc" |)])) w (Ret (Pair t x v) w')).
        eapply call_acts; [exact A|exact HF|apply INT|exact APT'|auto|eapply inside_cap; [exact INT|reflexivity|auto]|].
        apply list2 with w; [arg|]. change h with (val1 "car" (mk_list (h :: r))). one "car"%string. arg.
      * intros S2 IN2. apply body_one.
        assert (AP2 : apart hid c S2) by (eapply apart_trans; [exact APT'|]; eapply apart_incl; [|apply (inside_apart _ _ _ _ IN2)]; intros s; cbn; tauto).
        assert (R' : ready c w') by (eapply acts_keep; [exact A|exact HF|auto]).
        assert (R2 : ready S2 w') by (eapply ready_apart; [exact AP2|reflexivity|auto]).
        assert (M2 : calls S2 w' "match") by (eapply means_apart; [exact AP2|reflexivity|apply (HM _ _ _ _ HF M)]).
        assert (GA : means S2 w' (sy "acc") (mk_list (h :: r))).
        { eapply inside_out; [exact IN2|reflexivity|]. eapply inside_get; [exact INT|reflexivity]. }
        assert (GX : Runs ((sy "ANY", Cons (sym "cmd") (bindings dedup_cases)) :: S2) (sym "cmd") w' (Ret x w')).
        { apply f_sym. apply means_get. cbn [env_get]. replace (sym_match (sy "ANY") (sy "cmd")) with false by reflexivity.
          eapply inside_get; [exact IN2|reflexivity]. }
        destruct (match_runs O S2 false (sym "cmd") dedup_cases w' x w' M2 GX) as [YES NO].
        destruct E as [[-> ->]|[[-> ->]|[[-> ->]|[N ->]]]].
        -- apply (YES [] (sym "APPEND") (| sym "cons"; sym "val"; sym "acc" |) (tl dedup_cases) eq_refl); [constructor|constructor|].
           change (mk_list (v :: h :: r)) with (val2 "cons" v (mk_list (h :: r))). two "cons"%string; [arg|apply f_sym; auto].
        -- apply (YES [hd (Nil, Nil) dedup_cases] (sym "REPLACE") (| sym "cons"; sym "val"; (| sym "cdr"; sym "acc" |) |) (tl (tl dedup_cases)) eq_refl);
             [repeat constructor; intro X; inversion X|constructor|].
           change (mk_list (v :: r)) with (val2 "cons" v (val1 "cdr" (mk_list (h :: r)))). two "cons"%string; [arg|one "cdr"%string; apply f_sym; auto].
        -- apply (YES [hd (Nil, Nil) dedup_cases; hd (Nil, Nil) (tl dedup_cases)] (sym "SKIP") (sym "acc") [] eq_refl);
             [repeat constructor; intro X; inversion X|constructor|]. apply f_sym; auto.
        -- apply NO; auto. repeat constructor; cbn [fst]; intro X; inversion X as [| | | | |? u ?|]; subst; eapply N; try reflexivity; cbn; tauto.
Qed.
Lemma dedup_ok : forall l w r w', deduped F l w r w' -> ready c w -> calls c w "match" ->
  forall S, increasing S -> apart hid c S -> applied O S (lib2 "dedup") [f; mk_list l] w (Ret (mk_list r) w').
Proof.
  intros l w r w' H R M S I AP. rewrite lib2_dedup. apply apply_fun0; [auto|auto|apply mk_quiet|]. intros S1 IN.
  assert (AP1 : apart hid c S1) by
    (eapply apart_trans; [exact AP|]; eapply apart_incl; [|apply (inside_apart _ _ _ _ IN)]; intros s; cbn; tauto).
  assert (R1 : ready S1 w) by (eapply ready_apart; [exact AP1|reflexivity|auto]).
  change (Runs S1 (Pair false (sym "foldr") (mk_list [Cons (sym "\") (Cons (pars ["elt"; "acc"]%string) (mk_list [dedup_fun])); sym "lst"; Nil])) w (Ret (mk_list r) w')).
  eapply (call_foldr O S1 _ putting l Nil w);
    [apply dedup_acts; [apply IN|auto|eapply inside_get; [exact IN|reflexivity]]|apply (dedup_fold l w r w' H M)|reflexivity|apply IN|auto|auto|].
  apply list3 with w w; [apply f_lambda; auto|arg|apply f_const; auto].
Qed.
End Dedup.

(** ** args:skip *)
Section Skip.
Variable O : oracle.
Notation Runs := (runs O).
Lemma skip_turns : forall z l r, skipped z l r -> int64 z -> int64 (z - Z.of_nat (length l)) -> forall S w, increasing S -> ready2 S w ->
  turns O S [] (sy "args:skip") ["LST"; "LEN"]%string [skip_body] [mk_list l; Num z] w (mk_list r) w.
Proof.
  intros z l r H. induction H as [l|z N|z a l r N H IH]; intros Z1 Z2 S w I R.
  1,2: apply turn_done; [auto|constructor|auto|apply mk_quiet|]; intros S' IN;
    assert (R' : ready S' w) by (eapply inside_ready0; [exact IN|reflexivity|apply R]); apply body_one.
  - eapply f_if with (v := Tru) (w1 := w); [auto|eapply f_or; [auto|two "="%string; [apply f_const; auto|arg]|]; cbn; auto|]. cbn. arg.
  - eapply f_if with (v := Tru) (w1 := w); [auto|eapply f_or; [auto|two "="%string; [apply f_const; auto|arg]|]|].
    + replace (val2 "=" (Num 0) (Num z)) with Nil.
      2: { unfold val2. cbn [String.eqb Ascii.eqb Bool.eqb]. destruct (equ (Num 0) (Num z)) eqn:E; auto.
           apply equ_same in E. inversion E. congruence. }
      cbn [is_null]. eexists. split; [one "nil?"%string; arg|]. reflexivity.
    + cbn. arg.
  - assert (Z3 : int64 (z - 1)).
    { unfold int64 in *. cbn [length] in Z2. lia. }
    eapply turn_next; [auto|constructor|auto| |apply (IH Z3)]; auto.
    2: { unfold int64 in *. cbn [length] in Z2. lia. }
    intros S' IN.
    assert (R2 : ready2 S' w) by (eapply ready2_apart; [apply (inside_apart _ _ _ _ IN)|reflexivity|reflexivity|auto]).
    assert (R' := proj1 R2). apply body_one.
    eapply f_if with (v := Nil) (w1 := w); [auto|eapply f_or; [auto|two "="%string; [apply f_const; auto|arg]|]|].
    + replace (val2 "=" (Num 0) (Num z)) with Nil.
      2: { unfold val2. cbn [String.eqb Ascii.eqb Bool.eqb]. destruct (equ (Num 0) (Num z)) eqn:E; auto.
           apply equ_same in E. inversion E. congruence. }
      cbn [is_null]. eexists. split; [one "nil?"%string; arg|]. reflexivity.
    + cbn [is_null car cdr].
      change (Runs S' (Pair false (Sym true (sy "args:skip")) (mk_list [(| sym "cdr"; sym "LST" |); (| sym "-"; sym "LEN"; Num 1 |)])) w
        (Ret (again (sy "args:skip") ["LST"; "LEN"]%string [mk_list l; Num (z - 1)]) w)).
      eapply marked_call; [| |rewrite <- lib2_skip; apply ready2_means; [auto|cbn; tauto]|]; [discriminate|auto|].
      apply list2 with w; [change (mk_list l) with (val1 "cdr" (mk_list (a :: l))); one "cdr"%string; arg|].
      eapply (f_arith O "-"%string S') with (a := z) (b := 1%Z); [cbn; tauto|auto|arg|apply f_const; auto|auto|auto|constructor; auto].
Qed.
Lemma skip_ok : forall z l r, skipped z l r -> int64 z -> int64 (z - Z.of_nat (length l)) -> forall S w, increasing S -> ready2 S w ->
  answers O S (sy "args:skip") (lib2 "args:skip") [mk_list l; Num z] w (Ret (mk_list r) w).
Proof.
  intros. rewrite lib2_skip. apply turns_answer; [discriminate|auto|]. apply skip_turns; auto.
Qed.
End Skip.
