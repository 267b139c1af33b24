(** * Cc4Proofs: cps:type:fold. *)
From Verif Require Import Base Value ValueSpec ValueProofs Tails Print Eval EvalSpec EvalProofs
  Sem1 Sem2 Sem3 Sem4 Sem5 TailsProofs TailsSem BuiltinSpec Sem6 Cases Lib LibSpec LibBase LibProofs LibDerived LibMore LibAssoc LibNum
  Lib2Proofs Install CcSpec CcProofs Cc2Spec Cc3Proofs.
Open Scope nat_scope.

Notation st_pars := (Cons (Cons (sym "symb") (sym "types")) (Cons (sym "acc0") Nil)).
Notation all_fun := (| sym "cons"; (| sym "cons"; sym "symb"; (| sym "cps:type:fold1"; sym "types" |) |); sym "acc0" |).
Notation all_body := (| sym "foldr"; Cons (sym "\") (Cons st_pars (mk_list [all_fun])); sym "alst"; Nil |).
Lemma lib5_all : lib5 "cps:type:fold" = lam (pars ["alst"]%string) [] [all_body].
Proof. vm_compute. reflexivity. Qed.

(** The list with the types of each name taken together (proof only). *)
Definition entry (p : symbol * list symbol) : atom * atom := (Symb (fst p), mk_list (map (Sym false) (snd p))).
Definition result (p : symbol * list symbol) : atom * atom := (Symb (fst p), settled (snd p)).
Definition gathering (w0 : world) : behaviour := fun vs w b w' => w = w0 /\ w' = w0 /\
  exists p r, vs = [Cons (fst (entry p)) (snd (entry p)); r] /\ b = Cons (Cons (fst (result p)) (snd (result p))) r.
Lemma gathered : forall l w, folds_right (gathering w) Nil (map (fun p => Cons (fst p) (snd p)) (map entry l)) w (alist (map result l)) w.
Proof.
  induction l as [|p l IH]; intro w; cbn [map]; [constructor|]. eapply fr_cons; [apply IH|]. split; [reflexivity|]. split; [reflexivity|].
  exists p, (alist (map result l)). split; reflexivity.
Qed.

(** A list of names has the form of an agreement or not. *)
Lemma classic_form : forall ts, (exists t n m, ts = repeat t (S n) ++ repeat (sy "UNDEF") m) \/
  (forall t n m, ts <> repeat t (S n) ++ repeat (sy "UNDEF") m).
Proof.
  intros [|a ts]; [right; intros t n m E; discriminate E|].
  assert (D : (exists n m, ts = repeat a n ++ repeat (sy "UNDEF") m) \/ (forall n m, ts <> repeat a n ++ repeat (sy "UNDEF") m)).
  { assert (U : forall l, (exists m, l = repeat (sy "UNDEF") m) \/ forall m, l <> repeat (sy "UNDEF") m).
    { induction l as [|b l [[m ->]|IH]]; [left; exists 0; reflexivity| |].
      - destruct (equ_name b (sy "UNDEF")) as [[_ ->]|[_ N]]; [left; exists (S m); reflexivity|]. right. intros [|k] E; [discriminate E|].
        cbn [repeat] in E. injection E as E _. contradiction.
      - right. intros [|k] E; [discriminate E|]. cbn [repeat] in E. injection E as _ E. eapply IH. exact E. }
    induction ts as [|b ts IH]; [left; exists 0, 0; reflexivity|]. destruct (U (b :: ts)) as [[m E]|N1]; [left; exists 0, m; exact E|].
    destruct (equ_name b a) as [[_ ->]|[_ N]].
    - destruct IH as [[n [m ->]]|IH]; [left; exists (S n), m; reflexivity|]. right. intros [|n] m E; [eapply N1; exact E|].
      cbn [repeat app] in E. injection E as E. eapply IH. exact E.
    - right. intros [|n] m E; [eapply N1; exact E|]. cbn [repeat app] in E. injection E as E _. contradiction. }
  destruct D as [[n [m ->]]|N]; [left; exists a, n, m; reflexivity|]. right. intros t n m E. cbn [repeat app] in E. injection E as -> E. eapply N. exact E.
Qed.

Section Cc4.
Variable O : oracle.
Notation Runs := (runs O).
Lemma st_linear : linear (Cons (sym "symb") (sym "types")).
Proof.
  intros k [|[|] [|? p]] [|[|] [|? q]] H1 H2; cbn in H1, H2; auto; try tauto; try (destruct H1; discriminate);
    try (destruct H2; discriminate).
  - destruct H1 as [? H1], H2 as [? H2]. injection H1 as _ <-. discriminate.
  - destruct H1 as [? H1], H2 as [? H2]. injection H1 as _ <-. discriminate.
Qed.
Lemma apply_st : forall S d x a b r w v w', increasing S -> NoDup (map fst d) -> is_tail_call v = false ->
  (forall S', inside ["symb"; "types"; "acc0"]%string [a; b; r] d S S' -> Runs S' x w (Ret v w')) ->
  applied O S (lam st_pars d [x]) [Cons a b; r] w (Ret v w').
Proof.
  intros S d x a b r w v w' I N Q H h t es w0 M A. rewrite !mk_arg_list in *.
  eapply (call_any O S t h [Cons (sym "symb") (sym "types"); sym "acc0"] Nil d [x] es Nil [Cons a b; r]); eauto.
  - discriminate.
  - repeat constructor; [apply st_linear|apply linear_sym].
  - apply runs_list_len in A. auto.
  - constructor; [apply layer_bind, st_linear|constructor; [apply layer_bind, linear_sym|constructor]].
  - constructor.
  - intros S' I' G. apply body_one, H. split; auto. intro k. rewrite G.
    cbn [bind app lget env_get map combine].
    destruct (sym_match (sy "symb") k) eqn:E1; [|destruct (sym_match (sy "types") k) eqn:E2; auto].
    + apply sym_match_eq in E1. subst k. reflexivity.
Qed.
Lemma inside_ready5d : forall hs vs d S S' w, inside hs vs d S S' -> clear_of hs names5 = true ->
  ready5 d w -> ready5 S w -> ready5 S' w.
Proof.
  intros hs vs d S S' w IN C Rd RS. assert (C' := C). apply clear_both in C'. destruct C' as [C1 C2].
  split; [eapply inside_ready; [exact IN|exact C1|apply Rd|apply RS]|].
  intros s I. destruct IN as [_ G].
  assert (E : env_get (combine (map sy hs) vs) (sy s) = None).
  { apply combine_none. intros h J. eapply clear_not; eauto. }
  specialize (G (sy s)). cbn [lget] in G. rewrite E in G. destruct (env_get d (sy s)) eqn:D.
  - eapply means_same; [|apply (proj2 Rd s I)]. congruence.
  - eapply means_same; [|apply (proj2 RS s I)]. rewrite G. destruct (env_get S (sy s)); auto.
Qed.
Lemma all_ok : forall l S w, increasing S -> ready5 S w ->
  applied O S (lib5 "cps:type:fold") [alist (map entry l)] w (Ret (alist (map result l)) w).
Proof.
  intros l S w I R. rewrite lib5_all. apply apply_fun0; [auto|auto|apply alist_quiet|]. intros S' IN.
  assert (R5 : ready5 S' w) by (eapply inside_ready5; [exact IN|reflexivity|exact R]). assert (R' := proj1 R5).
  change (Runs S' (Pair false (sym "foldr") (mk_list
    [Cons (sym "\") (Cons st_pars (mk_list [all_fun])); sym "alst"; Nil])) w (Ret (alist (map result l)) w)).
  eapply (call_foldr O S' (lam st_pars S' [all_fun]) (gathering w) _ Nil w);
    [|apply gathered|reflexivity|apply IN|auto|auto|].
  - split.
    + intros T vs w1 b w2 IT AP _ [-> [-> [p [r [-> ->]]]]]. apply apply_st; [exact IT|apply increasing_NoDup, IN|reflexivity|].
      intros T' INT. assert (RT : ready5 T w) by (eapply ready5_apart; [exact AP|reflexivity|exact R5]).
      assert (RT' : ready5 T' w) by (eapply inside_ready5d; [exact INT|reflexivity|exact R5|exact RT]). assert (RT1 := proj1 RT').
      change (Cons (Cons (fst (result p)) (snd (result p))) r) with (val2 "cons" (val2 "cons" (Symb (fst p)) (settled (snd p))) r).
      two "cons"%string; [two "cons"%string; [arg|]|arg].
      change (Runs T' (Pair false (sym "cps:type:fold1") (mk_list [sym "types"])) w (Ret (settled (snd p)) w)).
      apply (fold_ok O (snd p) T' w (proj1 INT) RT'); [apply ready5_means; [auto|cbn; tauto]|]. apply list1. arg.
    + intros vs w1 b w2 [-> [-> [p [r [-> ->]]]]]. split; [reflexivity|auto].
  - apply list3 with w w; [apply f_lambda; auto|arg|apply f_const; auto].
Qed.
End Cc4.
Lemma settled_outcome : forall ts, outcome ts (settled ts).
Proof.
  intro ts. destruct (settled_cases ts) as [->|[[t [n [m ->]]]|E]]; [constructor|rewrite settled_same; constructor|].
  rewrite E. destruct ts as [|a ts]; [discriminate E|]. destruct (classic_form (a :: ts)) as [[t [n [m F]]]|N].
  - rewrite F, settled_same in E. injection E as ->. rewrite F. constructor.
  - apply outcome_error; [discriminate|exact N].
Qed.
