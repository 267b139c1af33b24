(** * TailsSem: the tail-call loop behaves as ordinary recursion (C38). *)
From Verif Require Import Value ValueSpec ValueProofs Tails Print Eval EvalSpec EvalProofs Sem1 Sem2 Sem3 Sem4 Sem5 TailsProofs.
Open Scope nat_scope.

(** ** Meanings that persist during a run *)

Lemma held_means : forall S w w1 w' k v, means S w k v -> held S w w' k ->
  extends w w1 -> extends w1 w' -> means S w1 k v.
Proof.
  intros S w w1 w' k v M H E1 E2. apply means_lookup in M. apply means_lookup.
  unfold lookup in *. destruct H as [[u H]|[g [G N]]].
  - apply env_get_shows in H. rewrite H in *. congruence.
  - destruct (env_get S k); [congruence|].
    destruct E1 as [[g1 G1] _], E2 as [[g2 G2] _].
    assert (EG : g = g2 ++ g1).
    { rewrite G, G1, app_assoc in G2. apply app_inv_tail in G2. auto. }
    rewrite G1, env_get_app.
    assert (X : env_get g1 k = None).
    { apply env_get_none. intro I. apply N. rewrite EG, map_app. apply in_or_app. auto. }
    rewrite X. inversion M. auto.
Qed.
Lemma held_later : forall S w w1 w' k, held S w w' k -> extends w w1 -> extends w1 w' -> held S w1 w' k.
Proof.
  intros S w w1 w' k [H|[g [G N]]] E1 E2; [left; auto|right].
  destruct E1 as [[g1 G1] _], E2 as [[g2 G2] _]. exists g2. split; auto.
  assert (EG : g = g2 ++ g1).
  { rewrite G, G1, app_assoc in G2. apply app_inv_tail in G2. auto. }
  intro I. apply N. rewrite EG, map_app. apply in_or_app. auto.
Qed.
Lemma steady_later : forall S w w1 w', steady S w w' -> extends w w1 -> extends w1 w' -> steady S w1 w'.
Proof.
  intros S w w1 w' H E1 E2 k K. destruct (H k K) as [M D]. split.
  - eapply held_means; eauto.
  - eapply held_later; eauto.
Qed.

Section Sem.
Variable O : oracle.
Notation Runs := (runs O).

Lemma Rcond_wild : forall c e t t1 x r w o,
  Rcond O c e (Pair t (Pair t1 Wild x) r) w o <-> Runs c x w o.
Proof. intros. unfold Rcond. cbn [cond_loop]. rewrite runs_conv. tauto. Qed.
Lemma Rcond_clause : forall c e t t1 a x r w o, a <> Wild ->
  (Rcond O c e (Pair t (Pair t1 a x) r) w o <->
   andthen (Runs c (Cons a (Cons e Nil)) w) (fun v w1 o =>
     if is_true v then Runs c x w1 o else Rcond O c e r w1 o) o).
Proof.
  intros c e t t1 a x r w o N. unfold Rcond.
  rewrite (conv_ext _ (fun n => mbind (eval O n c (Cons a (Cons e Nil)))
    (fun v => if is_true v then eval O n c x else cond_loop (eval O n) c e r) w)).
  2: { intro n. destruct a; try reflexivity. congruence. }
  rewrite (conv_bind (fun n => eval O n c (Cons a (Cons e Nil)))
    (fun n v => if is_true v then eval O n c x else cond_loop (eval O n) c e r) w o).
  - apply andthen_iff; [intro; rewrite runs_conv; tauto|]. intros v w1 o1.
    destruct (is_true v); [rewrite runs_conv|]; tauto.
  - apply eval_monof.
  - intros v w1. destruct (is_true v); [apply eval_monof|apply cond_monof].
Qed.
Lemma Rcond_end : forall c e cl w o, (forall t t1 a x r, cl <> Pair t (Pair t1 a x) r) ->
  (Rcond O c e cl w o <-> o = Ret Nil w).
Proof.
  intros c e cl w o H. unfold Rcond. rewrite (conv_ext _ (fun _ => Ret Nil w)).
  - apply conv_const. discriminate.
  - intro n. destruct cl as [ | | | | | |t a r]; try reflexivity.
    destruct a; try reflexivity. exfalso. eapply H; eauto.
Qed.
Lemma cond_call : forall c t u t1 e cl w o, calls c w "cond" ->
  (Runs c (Pair t (Sym u (sy "cond")) (Pair t1 e cl)) w o <-> Rcond O c e cl w o).
Proof.
  intros. rewrite (call_rest O "cond" 5%Z Pcond); auto; try reflexivity.
  all: unfold Rprim, run_prim; cbn [pops_two prim1 car cdr]; unfold Rcond; tauto.
Qed.
Lemma prog_call : forall c t u d w o, calls c w "prog" ->
  (Runs c (Pair t (Sym u (sy "prog")) d) w o <-> Rprog O c d Nil w o).
Proof.
  intros. rewrite (call_rest O "prog" 23%Z Pprog); auto; try reflexivity.
  all: unfold Rprim, run_prim; cbn [pops_two prim1 car cdr]; unfold Rprog; tauto.
Qed.
Lemma if_call : forall c t u t1 e rem w o, calls c w "if" ->
  (Runs c (Pair t (Sym u (sy "if")) (Pair t1 e rem)) w o <->
   andthen (Runs c e w) (fun v w1 => Runs c (if is_null v then car (cdr rem) else car rem) w1) o).
Proof.
  intros. rewrite (call_rem O "if" 9%Z CondRem Pif); auto; try reflexivity.
  apply andthen_iff; [tauto|]. intros. apply Rprim_if.
Qed.
Lemma when_call : forall c t u t1 e rem w o, calls c w "when" ->
  (Runs c (Pair t (Sym u (sy "when")) (Pair t1 e rem)) w o <->
   andthen (Runs c e w) (fun v w1 o => if is_null v then o = Ret Nil w1 else Rprog O c rem Nil w1 o) o).
Proof.
  intros. rewrite (call_rem O "when" 31%Z CondRem Pwhen); auto; try reflexivity.
  apply andthen_iff; [tauto|]. intros v w1 o1.
  unfold Rprim, run_prim. cbn [pops_two prim2]. destruct (is_null v); [apply conv_ret|]. unfold Rprog. tauto.
Qed.
Lemma unless_call : forall c t u t1 e rem w o, calls c w "unless" ->
  (Runs c (Pair t (Sym u (sy "unless")) (Pair t1 e rem)) w o <->
   andthen (Runs c e w) (fun v w1 o => if is_null v then Rprog O c rem Nil w1 o else o = Ret Nil w1) o).
Proof.
  intros. rewrite (call_rem O "unless" 30%Z CondRem Punless); auto; try reflexivity.
  apply andthen_iff; [tauto|]. intros v w1 o1.
  unfold Rprim, run_prim. cbn [pops_two prim2]. destruct (is_null v); [|apply conv_ret]. unfold Rprog. tauto.
Qed.
Lemma match_call' : forall c t u t1 e cl w o, calls c w "match" ->
  (Runs c (Pair t (Sym u (sy "match")) (Pair t1 e cl)) w o <->
   andthen (Runs ((sy "ANY", Pair t1 e cl) :: c) e w) (fun v w1 => Rmatch O c v cl w1) o).
Proof.
  intros c t u t1 e cl w o C.
  rewrite (call_rest O "match" 22%Z Pmatch); auto; try reflexivity.
  unfold Rprim, run_prim. cbn [pops_two prim1 car cdr].
  rewrite (conv_bind (fun n => eval O n ((sy "ANY", Pair t1 e cl) :: c) e)
     (fun n v => match_loop (eval O n) c v cl) w o).
  - apply andthen_iff; [intro; rewrite runs_conv|]; intros; unfold Rmatch; tauto.
  - apply eval_monof.
  - intros; apply match_monof.
Qed.
Lemma Rmatch_clause : forall c v t t1 a x r w o,
  Rmatch O c v (Pair t (Pair t1 a x) r) w o <->
  if atom_match a v then Runs c x w o else Rmatch O c v r w o.
Proof.
  intros. unfold Rmatch. cbn [match_loop]. destruct (atom_match a v); [rewrite runs_conv|]; tauto.
Qed.
Lemma Rmatch_end : forall c v cl w o, (forall t t1 a x r, cl <> Pair t (Pair t1 a x) r) ->
  (Rmatch O c v cl w o <-> o = Ret Nil w).
Proof.
  intros c v cl w o H. unfold Rmatch. rewrite (conv_ext _ (fun _ => Ret Nil w)).
  - apply conv_const. discriminate.
  - intro n. destruct cl as [ | | | | | |t a r]; try reflexivity.
    destruct a; try reflexivity. exfalso. eapply H; eauto.
Qed.
Lemma Rprog_last : forall c t x d r w o, is_pair d = false ->
  (Rprog O c (Pair t x d) r w o <-> Runs c x w o).
Proof.
  intros c t x d r w o P. rewrite Rprog_pair. split.
  - intros [[v [w1 [H X]]]|[e [H ->]]]; auto. apply Rprog_end in X; auto. subst; auto.
  - intro H. destruct o as [v w1|e|].
    + left. exists v, w1. split; auto. apply Rprog_end; auto.
    + right. exists e; auto.
    + destruct H as [H _]. congruence.
Qed.

(** ** Tails extend the state *)
Scheme tails_ind4 := Induction for tails Sort Prop
  with clauses_ind4 := Induction for tails_clauses Sort Prop
  with matchin_ind4 := Induction for tails_match_in Sort Prop
  with tbody_ind4 := Induction for tails_body Sort Prop.
Combined Scheme tails_mutind from tails_ind4, clauses_ind4, matchin_ind4, tbody_ind4.

Lemma tails_extends_all : forall c,
  (forall x w l w', tails O c x w l w' -> extends w w') /\
  (forall e cl w l w', tails_clauses O c e cl w l w' -> extends w w') /\
  (forall v cl w l w', tails_match_in O c v cl w l w' -> extends w w') /\
  (forall x d w l w', tails_body O c x d w l w' -> extends w w').
Proof.
  intro c.
  apply (tails_mutind O c (fun x w l w' _ => extends w w') (fun e cl w l w' _ => extends w w')
           (fun v cl w l w' _ => extends w w') (fun x d w l w' _ => extends w w'));
    intros; auto using extends_refl; eapply extends_trans; eauto using runs_extends.
Qed.

(** ** The value of an expression is the value of the tail reached *)

Definition TM (g : atom -> atom) (x : atom) : Prop :=
  forall S w r w', steady S w w' ->
  (Runs S (tmap g x) w (Ret r w') <->
   exists l w1, tails O S x w l w1 /\ Runs S (g l) w1 (Ret r w')).

Lemma TM_leaf : forall g x, compound x = false -> tmap g x = g x -> TM g x.
Proof.
  intros g x C E S w r w' _. rewrite E. split.
  - intro H. exists x, w. split; auto. constructor; auto.
  - intros [l [w1 [T H]]]. inversion T; subst; try (cbn in C; discriminate); auto.
Qed.

Ltac other := try (exfalso; match goal with H : sy _ = sy _ |- _ => revert H; vm_compute; discriminate end).
Ltac notself := try (exfalso; match goal with H : compound _ = false |- _ => revert H; cbn; discriminate end).

Lemma tails_if_inv : forall S t u t1 e t2 th r w l w2,
  tails O S (Pair t (Sym u (sy "if")) (Pair t1 e (Pair t2 th r))) w l w2 ->
  exists v w1, Runs S e w (Ret v w1) /\ tails O S (if is_null v then car r else th) w1 l w2.
Proof. intros S t u t1 e t2 th r w l w2 H. inversion H; subst; other; notself; eauto. Qed.
Lemma tails_cond_inv : forall S t u t1 e cl w l w2,
  tails O S (Pair t (Sym u (sy "cond")) (Pair t1 e cl)) w l w2 -> tails_clauses O S e cl w l w2.
Proof. intros S t u t1 e cl w l w2 H. inversion H; subst; other; notself; auto. Qed.
Lemma tails_match_inv : forall S t u t1 e cl w l w2,
  tails O S (Pair t (Sym u (sy "match")) (Pair t1 e cl)) w l w2 ->
  exists t2 k v, e = Sym t2 k /\ k <> sy "ANY" /\ means S w k v /\ tails_match_in O S v cl w l w2.
Proof. intros S t u t1 e cl w l w2 H. inversion H; subst; other; notself; eauto 10. Qed.
Lemma tails_prog_inv : forall S t u t1 e d w l w2,
  tails O S (Pair t (Sym u (sy "prog")) (Pair t1 e d)) w l w2 -> tails_body O S e d w l w2.
Proof. intros S t u t1 e d w l w2 H. inversion H; subst; other; notself; auto. Qed.
Lemma tails_when_inv : forall S t u t1 e t2 x r w l w2,
  tails O S (Pair t (Sym u (sy "when")) (Pair t1 e (Pair t2 x r))) w l w2 ->
  exists v w1, Runs S e w (Ret v w1) /\ tails O S (if is_null v then Nil else x) w1 l w2.
Proof. intros S t u t1 e t2 x r w l w2 H. inversion H; subst; other; notself; eauto. Qed.
Lemma tails_unless_inv : forall S t u t1 e t2 x r w l w2,
  tails O S (Pair t (Sym u (sy "unless")) (Pair t1 e (Pair t2 x r))) w l w2 ->
  exists v w1, Runs S e w (Ret v w1) /\ tails O S (if is_null v then x else Nil) w1 l w2.
Proof. intros S t u t1 e t2 x r w l w2 H. inversion H; subst; other; notself; eauto. Qed.

Lemma TM_nil : forall g, leafy g -> TM g Nil.
Proof. intros g [L _]. apply TM_leaf; auto. cbn. rewrite L; auto. Qed.

Lemma TM_if : forall g t u t1 e t2 th r, TM g th -> TM g (car r) ->
  (forall t3 el r', r = Pair t3 el r' -> True) ->
  TM g (Pair t (Sym u (sy "if")) (Pair t1 e (Pair t2 th r))).
Proof.
  intros g t u t1 e t2 th r H1 H2 _ S w r0 w' K.
  destruct (K "if"%string) as [C _]; [cbn; auto|].
  assert (E : Runs S (tmap g (Pair t (Sym u (sy "if")) (Pair t1 e (Pair t2 th r)))) w (Ret r0 w') <->
    exists v w1, Runs S e w (Ret v w1) /\ Runs S (tmap g (if is_null v then car r else th)) w1 (Ret r0 w')).
  { destruct (is_pair r) eqn:P.
    - destruct r as [ | | | | | |t3 el r]; try discriminate. rewrite tmap_if3, if_call by auto. cbn [car cdr].
      unfold andthen. split.
      + intros [[v [w1 [A B]]]|[x [_ X]]]; [|discriminate]. exists v, w1. split; auto. destruct (is_null v); auto.
      + intros [v [w1 [A B]]]. left. exists v, w1. split; auto. destruct (is_null v); auto.
    - rewrite tmap_if2, if_call by auto. cbn [car cdr].
      assert (X : car r = Nil) by (destruct r; try discriminate; auto). rewrite X. unfold andthen. split.
      + intros [[v [w1 [A B]]]|[x [_ Y]]]; [|discriminate]. exists v, w1. split; auto. destruct (is_null v); auto.
      + intros [v [w1 [A B]]]. left. exists v, w1. split; auto. destruct (is_null v); auto. }
  rewrite E. clear E.
  assert (B : forall v, TM g (if is_null v then car r else th)) by (intro v; destruct (is_null v); auto).
  split.
  - intros [v [w1 [R X]]]. assert (E1 := runs_extends _ _ _ _ _ _ R). assert (E2 := runs_extends _ _ _ _ _ _ X).
    apply B in X; [|eapply steady_later; eauto]. destruct X as [l [w2 [T X]]].
    exists l, w2. split; auto. econstructor; eauto.
  - intros [l [w2 [T X]]]. apply tails_if_inv in T. destruct T as [v [w1 [R T]]]. exists v, w1. split; auto.
    assert (E1 := runs_extends _ _ _ _ _ _ R). assert (E2 := runs_extends _ _ _ _ _ _ X).
    assert (E3 := proj1 (tails_extends_all S) _ _ _ _ T).
    apply B; [|eauto]. eapply steady_later; eauto using extends_trans.
Qed.

Lemma TM_cond : forall g t u t1 e cl, leafy g -> (forall a x q, clause_of cl a x q -> TM g x) ->
  TM g (Pair t (Sym u (sy "cond")) (Pair t1 e cl)).
Proof.
  intros g t u t1 e cl [L _] H S w r0 w' K.
  destruct (K "cond"%string) as [C _]; [cbn; auto|].
  rewrite (tmap_clauses g t u "cond") by (cbn; auto). rewrite cond_call by auto.
  assert (W : forall cl w, (forall a x q, clause_of cl a x q -> TM g x) -> steady S w w' ->
    (Rcond O S e (tassoc g cl) w (Ret r0 w') <->
     exists l w1, tails_clauses O S e cl w l w1 /\ Runs S (g l) w1 (Ret r0 w'))).
  { clear cl w H K C.
    assert (END : forall cl w, (forall t t1 a x r, cl <> Pair t (Pair t1 a x) r) ->
       (forall t t1 a x r, tassoc g cl <> Pair t (Pair t1 a x) r) ->
       (Rcond O S e (tassoc g cl) w (Ret r0 w') <->
        exists l w1, tails_clauses O S e cl w l w1 /\ Runs S (g l) w1 (Ret r0 w'))).
    { intros cl w N1 N2. rewrite Rcond_end by auto. split.
      - intro X. injection X as -> ->. exists Nil, w. split; [constructor; auto|].
        rewrite L by auto. apply runs_const; auto.
      - intros [l [w1 [T X]]]. inversion T; subst; try (exfalso; eapply N1; reflexivity).
        rewrite L in X by auto. apply runs_const in X; auto. }
    induction cl as [ | | | | | |t0 a _ r IH]; intros w H K;
      try (apply END; intros; discriminate).
    destruct a as [ | | | | | |ta a x];
      try (apply END; intros; [discriminate|cbn [tassoc]; discriminate]).
    cbn [tassoc].
    assert (HX : TM g x) by (eapply H; constructor).
    assert (HR : forall a x q, clause_of r a x q -> TM g x) by (intros; eapply H; constructor; eauto).
    destruct (match a with Wild => true | _ => false end) eqn:AW.
    - assert (a = Wild) by (destruct a; congruence). subst a. rewrite Rcond_wild.
      rewrite (HX S w r0 w' K). split.
      + intros [l [w1 [T X]]]. exists l, w1. split; auto. constructor; auto.
      + intros [l [w1 [T X]]]. exists l, w1. split; auto. inversion T; subst; auto; try congruence;
          exfalso; match goal with H : forall t t1 a x r, _ <> _ |- _ => eapply H; reflexivity end.
    - assert (NW : a <> Wild) by (intros ->; discriminate). rewrite Rcond_clause by auto. unfold andthen. split.
      + intros [[v [w1 [R X]]]|[y [_ Y]]]; [|discriminate].
        assert (E1 := runs_extends _ _ _ _ _ _ R).
        destruct (is_true v) eqn:V.
        * assert (v = Tru) by (destruct v; try discriminate; auto). subst v.
          assert (E2 := runs_extends _ _ _ _ _ _ X).
          apply HX in X; [|eapply steady_later; eauto]. destruct X as [l [w2 [T X]]].
          exists l, w2. split; auto. eapply clauses_yes; eauto.
        * assert (E2 : extends w1 w').
          { destruct X as [_ [n X]]. eapply cond_keeps; [|exact X]. intros; apply eval_keeps. }
          apply IH in X; auto; [|eapply steady_later; eauto]. destruct X as [l [w2 [T X]]].
          exists l, w2. split; auto. eapply clauses_no; eauto. intros ->. discriminate.
      + intros [l [w2 [T X]]]. assert (E2 := runs_extends _ _ _ _ _ _ X). inversion T; subst; try congruence.
        * left. exists Tru, w1. split; auto. cbn [is_true]. apply HX; [|eauto].
          match goal with H : tails _ _ _ _ _ _ |- _ => assert (E3 := proj1 (tails_extends_all S) _ _ _ _ H) end.
          eapply steady_later; eauto using runs_extends, extends_trans.
        * left. exists v, w1. split; auto.
          assert (V : is_true v = false) by (destruct v; auto; congruence). rewrite V.
          apply IH; auto; [|eauto].
          match goal with H : tails_clauses _ _ _ _ _ _ _ |- _ => assert (E3 := proj1 (proj2 (tails_extends_all S)) _ _ _ _ _ H) end.
          eapply steady_later; eauto using runs_extends, extends_trans. }
  rewrite (W cl w H K). split; intros [l [w1 [T X]]]; exists l, w1; (split; [|auto]).
  - constructor; auto.
  - apply tails_cond_inv in T; auto.
Qed.

Lemma TM_match : forall g t u t1 t2 k cl, leafy g -> k <> sy "ANY" ->
  (forall a x q, clause_of cl a x q -> TM g x) ->
  TM g (Pair t (Sym u (sy "match")) (Pair t1 (Sym t2 k) cl)).
Proof.
  intros g t u t1 t2 k cl [L _] NK H S w r0 w' K.
  destruct (K "match"%string) as [C _]; [cbn; auto|].
  rewrite (tmap_clauses g t u "match") by (cbn; auto). rewrite match_call' by auto.
  assert (W : forall v cl w, (forall a x q, clause_of cl a x q -> TM g x) -> steady S w w' ->
    (Rmatch O S v (tassoc g cl) w (Ret r0 w') <->
     exists l w1, tails_match_in O S v cl w l w1 /\ Runs S (g l) w1 (Ret r0 w'))).
  { clear cl w H K C. intro v.
    assert (END : forall cl w, (forall t t1 a x r, cl <> Pair t (Pair t1 a x) r) ->
       (forall t t1 a x r, tassoc g cl <> Pair t (Pair t1 a x) r) ->
       (Rmatch O S v (tassoc g cl) w (Ret r0 w') <->
        exists l w1, tails_match_in O S v cl w l w1 /\ Runs S (g l) w1 (Ret r0 w'))).
    { intros cl w N1 N2. rewrite Rmatch_end by auto. split.
      - intro X. injection X as -> ->. exists Nil, w. split; [constructor; auto|].
        rewrite L by auto. apply runs_const; auto.
      - intros [l [w1 [T X]]]. inversion T; subst; try (exfalso; eapply N1; reflexivity).
        rewrite L in X by auto. apply runs_const in X; auto. }
    induction cl as [ | | | | | |t0 a _ r IH]; intros w H K;
      try (apply END; intros; discriminate).
    destruct a as [ | | | | | |ta a x];
      try (apply END; intros; [discriminate|cbn [tassoc]; discriminate]).
    cbn [tassoc]. rewrite Rmatch_clause.
    assert (HX : TM g x) by (eapply H; constructor).
    assert (HR : forall a x q, clause_of r a x q -> TM g x) by (intros; eapply H; constructor; eauto).
    destruct (atom_match a v) eqn:AM.
    - assert (I : instance a v) by (apply atom_match_instance; auto).
      rewrite (HX S w r0 w' K). split.
      + intros [l [w1 [T X]]]. exists l, w1. split; auto. constructor; auto.
      + intros [l [w1 [T X]]]. exists l, w1. split; auto. inversion T; subst; auto; try tauto;
          exfalso; match goal with H : forall t t1 a x r, _ <> _ |- _ => eapply H; reflexivity end.
    - assert (I : ~ instance a v) by (intro I; apply atom_match_instance in I; congruence).
      rewrite (IH w HR K). split.
      + intros [l [w1 [T X]]]. exists l, w1. split; auto. apply match_no; auto.
      + intros [l [w1 [T X]]]. exists l, w1. split; auto. inversion T; subst; auto; try tauto;
          exfalso; match goal with H : forall t t1 a x r, _ <> _ |- _ => eapply H; reflexivity end. }
  destruct (means_exists S w k) as [v M].
  assert (R : forall cl' o, Runs ((sy "ANY", cl') :: S) (Sym t2 k) w o <-> o = Ret v w).
  { intros cl' o. rewrite runs_sym. apply means_lookup in M. unfold lookup in *. cbn [env_get].
    rewrite sym_match_neq by auto. rewrite M. tauto. }
  rewrite (andthen_to _ v w) by (intro; apply R).
  rewrite (W v cl w H K). split; intros [l [w1 [T X]]]; exists l, w1; (split; [|auto]).
  - econstructor; eauto.
  - apply tails_match_inv in T. destruct T as [t3 [k' [v' [E [_ [M' T]]]]]]. injection E as -> ->.
    assert (v = v') by (eapply means_unique; eauto). subst; auto.
Qed.

Lemma TM_prog : forall g t u t1 e d, (forall x q, last_expr (Pair t1 e d) x q -> TM g x) ->
  TM g (Pair t (Sym u (sy "prog")) (Pair t1 e d)).
Proof.
  intros g t u t1 e d H S w r0 w' K.
  destruct (K "prog"%string) as [C _]; [cbn; auto|].
  rewrite tmap_prog, prog_call by auto.
  assert (W : forall d t1 e w r, (forall x q, last_expr (Pair t1 e d) x q -> TM g x) -> steady S w w' ->
    (Rprog O S (tlast g (Pair t1 e d)) r w (Ret r0 w') <->
     exists l w1, tails_body O S e d w l w1 /\ Runs S (g l) w1 (Ret r0 w'))).
  { clear d t1 e w H K C. intro d.
    assert (END : forall t1 e w r, is_pair d = false -> (forall x q, last_expr (Pair t1 e d) x q -> TM g x) ->
      steady S w w' ->
      (Rprog O S (tlast g (Pair t1 e d)) r w (Ret r0 w') <->
       exists l w1, tails_body O S e d w l w1 /\ Runs S (g l) w1 (Ret r0 w'))).
    { intros t1 e w r P H K.
      assert (E : tlast g (Pair t1 e d) = Pair t1 (tmap g e) d) by (destruct d; try discriminate; auto).
      rewrite E, Rprog_last by auto.
      assert (HE : TM g e) by (eapply H; constructor; auto). rewrite (HE S w r0 w' K).
      split; intros [l [w1 [T X]]]; exists l, w1; (split; [|auto]).
      - constructor; auto.
      - inversion T; subst; auto; discriminate. }
    induction d as [ | | | | | |t2 y _ d IH]; intros t1 e w r H K; try (apply END; auto; fail).
    clear END.
    change (tlast g (Pair t1 e (Pair t2 y d))) with (Pair t1 e (tlast g (Pair t2 y d))).
    rewrite Rprog_pair. unfold andthen.
    assert (HD : forall x q, last_expr (Pair t2 y d) x q -> TM g x) by (intros; eapply H; constructor; eauto).
    assert (ALL : forall t1 e w r, (forall x q, last_expr (Pair t1 e d) x q -> TM g x) -> steady S w w' ->
      (Rprog O S (tlast g (Pair t1 e d)) r w (Ret r0 w') <->
       exists l w1, tails_body O S e d w l w1 /\ Runs S (g l) w1 (Ret r0 w'))).
    { apply IH. intros t0 e0 w0 r1 P H0 K0.
      assert (E : tlast g (Pair t0 e0 d) = Pair t0 (tmap g e0) d) by (destruct d; try discriminate; auto).
      rewrite E, Rprog_last by auto.
      assert (HE : TM g e0) by (eapply H0; constructor; auto). rewrite (HE S w0 r0 w' K0).
      split; intros [l [w1 [T X]]]; exists l, w1; (split; [|auto]).
      - constructor; auto.
      - inversion T; subst; auto; discriminate. }
    split.
    - intros [[v [w1 [R X]]]|[z [_ Z]]]; [|discriminate].
      assert (E1 := runs_extends _ _ _ _ _ _ R).
      assert (E2 : extends w1 w').
      { destruct X as [_ [n X]]. eapply prog_keeps; [|exact X]. intros; apply eval_keeps. }
      apply ALL in X; auto; [|eapply steady_later; eauto]. destruct X as [l [w2 [T X]]].
      exists l, w2. split; auto. eapply tbody_next; eauto.
    - intros [l [w2 [T X]]]. assert (E2 := runs_extends _ _ _ _ _ _ X). inversion T; subst; [discriminate|].
      left. exists v, w1. split; auto. apply ALL; auto; [|eauto].
      match goal with H : tails_body _ _ _ _ _ _ _ |- _ =>
        assert (E3 := proj2 (proj2 (proj2 (tails_extends_all S))) _ _ _ _ _ H) end.
      eapply steady_later; eauto using runs_extends, extends_trans. }
  rewrite (W d t1 e w Nil H K). split; intros [l [w1 [T X]]]; exists l, w1; (split; [|auto]).
  - constructor; auto.
  - apply tails_prog_inv in T; auto.
Qed.

Lemma TM_when : forall g t u k t1 e t2 x r, In k ["when"; "unless"]%string -> leafy g ->
  is_pair r = false -> TM g x -> TM g (Pair t (Sym u (sy k)) (Pair t1 e (Pair t2 x r))).
Proof.
  intros g t u k t1 e t2 x r IK LG P HX S w r0 w' K. assert (HN := TM_nil g LG).
  rewrite tmap_when by auto.
  set (br := fun v => if is_null v then (if String.eqb k "when" then Nil else x)
                      else (if String.eqb k "when" then x else Nil)).
  assert (E : Runs S (Pair t (Sym u (sy k)) (Pair t1 e (Pair t2 (tmap g x) r))) w (Ret r0 w') <->
    exists v w1, Runs S e w (Ret v w1) /\ Runs S (tmap g (br v)) w1 (Ret r0 w')).
  { assert (NR : forall w1, Runs S Nil w1 (Ret r0 w') <-> Ret r0 w' = Ret Nil w1) by
      (intro; apply runs_const; auto).
    destruct (K k) as [C _]; [cbn in *; intuition|].
    destruct IK as [<-|[<-|[]]]; cbn [String.eqb] in br.
    - rewrite when_call by auto. unfold andthen. split.
      + intros [[v [w1 [A B]]]|[y [_ Y]]]; [|discriminate]. exists v, w1. split; auto. unfold br. cbn.
        destruct (is_null v); [apply NR; auto|]. apply Rprog_last in B; auto.
      + intros [v [w1 [A B]]]. left. exists v, w1. split; auto. unfold br in B. cbn in B.
        destruct (is_null v); [apply NR; auto|]. apply Rprog_last; auto.
    - rewrite unless_call by auto. unfold andthen. split.
      + intros [[v [w1 [A B]]]|[y [_ Y]]]; [|discriminate]. exists v, w1. split; auto. unfold br. cbn.
        destruct (is_null v); [|apply NR; auto]. apply Rprog_last in B; auto.
      + intros [v [w1 [A B]]]. left. exists v, w1. split; auto. unfold br in B. cbn in B.
        destruct (is_null v); [|apply NR; auto]. apply Rprog_last; auto. }
  rewrite E. clear E.
  assert (HB : forall v, TM g (br v)).
  { intro v. unfold br. destruct (is_null v), (String.eqb k "when"); auto. }
  assert (TI : forall l w2, tails O S (Pair t (Sym u (sy k)) (Pair t1 e (Pair t2 x r))) w l w2 <->
     exists v w1, Runs S e w (Ret v w1) /\ tails O S (br v) w1 l w2).
  { intros l w2. unfold br. destruct IK as [<-|[<-|[]]]; cbn; split.
    - intro T. apply tails_when_inv in T; auto.
    - intros [v [w1 [A B]]]. econstructor; eauto.
    - intro T. apply tails_unless_inv in T; auto.
    - intros [v [w1 [A B]]]. econstructor; eauto. }
  split.
  - intros [v [w1 [R X]]]. assert (E1 := runs_extends _ _ _ _ _ _ R). assert (E2 := runs_extends _ _ _ _ _ _ X).
    apply HB in X; [|eapply steady_later; eauto]. destruct X as [l [w2 [T X]]].
    exists l, w2. split; auto. apply TI. eauto.
  - intros [l [w2 [T X]]]. apply TI in T. destruct T as [v [w1 [R T]]]. exists v, w1. split; auto.
    assert (E1 := runs_extends _ _ _ _ _ _ R). assert (E2 := runs_extends _ _ _ _ _ _ X).
    assert (E3 := proj1 (tails_extends_all S) _ _ _ _ T).
    apply HB; [|eauto]. eapply steady_later; eauto using extends_trans.
Qed.

Lemma TM_all : forall g x, leafy g -> simple_tails x -> plain_match x -> TM g x.
Proof.
  intros g x LG. assert (W : forall n x, asize x < n -> simple_tails x -> plain_match x -> TM g x); [|eauto].
  clear x. induction n as [|n IH]; intros x L T PM; [lia|].
  assert (LF : compound x = false -> tmap g x = x -> g x = x -> TM g x).
  { intros A B D. apply TM_leaf; congruence. }
  destruct T as [x P|t h d P|t u d T1 T2|t u k d K T|t u d T|t u k d K T|t u s0 d K].
  - apply TM_leaf; destruct x; try discriminate; auto; cbn; rewrite (proj1 LG); auto.
  - apply TM_leaf; [|apply tmap_other; auto]. destruct h; try discriminate; auto.
  - destruct d as [ | | | | | |t1 c d];
      try (apply LF; [reflexivity|reflexivity|apply (proj2 LG t u "if"%string); cbn; auto]).
    destruct d as [ | | | | | |t2 th r];
      try (apply LF; [reflexivity|reflexivity|apply (proj2 LG t u "if"%string); cbn; auto]).
    cbn [asize] in L. apply TM_if; auto.
    + apply IH; [lia|eapply T1; eauto|].
      intros p a b c0 d0 e0 TA E. apply (PM (true :: true :: false :: p) a b c0 d0 e0); auto. constructor; auto.
    + destruct r as [ | | | | | |t3 el r]; try (apply TM_nil; auto). cbn [car asize] in *.
      apply IH; [lia|eapply T2; eauto|].
      intros p a b c0 d0 e0 TA E. apply (PM (true :: true :: true :: false :: p) a b c0 d0 e0); auto. constructor; auto.
  - destruct d as [ | | | | | |t1 c l];
      try (apply LF; [destruct K as [<-|[<-|[]]]; reflexivity|destruct K as [<-|[<-|[]]]; reflexivity
           |apply (proj2 LG t u k); destruct K as [<-|[<-|[]]]; cbn; auto]).
    cbn [asize] in L.
    assert (CL : forall a x q, clause_of l a x q -> TM g x).
    { intros a x q C. assert (S := clause_size _ _ _ _ C). apply IH; [lia|eapply T; eauto|].
      assert (PE : part l q = x) by (clear -C; induction C; auto).
      intros p a' b c0 d0 e0 TA E. apply (PM (true :: true :: q ++ p) a' b c0 d0 e0).
      - econstructor; eauto.
      - cbn [part]. rewrite part_app, PE. auto. }
    destruct K as [<-|[<-|[]]].
    + apply TM_cond; auto.
    + destruct (PM [] t u t1 c l) as [t2 [k [-> NK]]]; [constructor|reflexivity|].
      apply TM_match; auto.
  - destruct d as [ | | | | | |t1 c l];
      try (apply LF; [reflexivity|reflexivity|apply (proj2 LG t u "prog"%string); cbn; auto]).
    apply TM_prog. intros x q C. assert (S := last_size _ _ _ C). cbn [asize] in L, S.
    apply IH; [lia|eapply T; eauto|].
    assert (PE : part (Pair t1 c l) q = x).
    { clear -C. remember (Pair t1 c l) as d. clear Heqd t1 c l. induction C; auto. }
    intros p a' b c0 d0 e0 TA E. apply (PM (true :: q ++ p) a' b c0 d0 e0).
    + econstructor; eauto.
    + change (part (Pair t1 c l) (q ++ p) = Pair a' (Sym b (sy "match")) (Pair c0 d0 e0)). rewrite part_app, PE. auto.
  - destruct d as [ | | | | | |t1 c d];
      try (apply LF; [destruct K as [<-|[<-|[]]]; reflexivity|destruct K as [<-|[<-|[]]]; reflexivity
           |apply (proj2 LG t u k); destruct K as [<-|[<-|[]]]; cbn; auto 10]).
    destruct d as [ | | | | | |t2 e r];
      try (apply LF; [destruct K as [<-|[<-|[]]]; reflexivity|destruct K as [<-|[<-|[]]]; reflexivity
           |apply (proj2 LG t u k); destruct K as [<-|[<-|[]]]; cbn; auto 10]).
    destruct (T _ _ _ _ _ eq_refl) as [PR TE]. cbn [asize] in L. apply TM_when; auto.
    apply IH; [lia|auto|].
    intros p a b c0 d0 e0 TA E. apply (PM (true :: true :: [false] ++ p) a b c0 d0 e0); auto.
    eapply tail_when; eauto. constructor; auto.
  - apply TM_leaf; [|apply tmap_call; auto].
    cbn [compound]. rewrite !named_neq by (apply K; cbn; tauto). destruct d; reflexivity.
Qed.

End Sem.
