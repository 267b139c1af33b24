(** * TailsRec: the tail-call loop gives the result of the unmarked body (C38). *)
From Verif Require Import Value ValueSpec ValueProofs Tails Print Eval EvalSpec EvalProofs Sem1 Sem2 Sem3 Sem4 Sem5 TailsProofs TailsSem.
Open Scope nat_scope.

Section Rec.
Variable O : oracle.
Notation Runs := (runs O).

(** ** The tail reached is a part of the expression *)

Lemma tails_unmarked_all : forall c,
  (forall x w l w', tails O c x w l w' -> unmarked x = true -> unmarked l = true) /\
  (forall e cl w l w', tails_clauses O c e cl w l w' -> unmarked cl = true -> unmarked l = true) /\
  (forall v cl w l w', tails_match_in O c v cl w l w' -> unmarked cl = true -> unmarked l = true) /\
  (forall x d w l w', tails_body O c x d w l w' -> unmarked x = true -> unmarked d = true -> unmarked l = true).
Proof.
  intro c.
  apply (tails_mutind O c (fun x w l w' _ => unmarked x = true -> unmarked l = true)
    (fun e cl w l w' _ => unmarked cl = true -> unmarked l = true)
    (fun v cl w l w' _ => unmarked cl = true -> unmarked l = true)
    (fun x d w l w' _ => unmarked x = true -> unmarked d = true -> unmarked l = true));
  intros; auto;
  repeat match goal with
  | H : unmarked (Pair _ _ _) = true |- _ => cbn [unmarked] in H
  | H : (_ && _)%bool = true |- _ => apply andb_true_iff in H; destruct H
  end; auto;
  match goal with H : _ -> unmarked ?l = true |- unmarked ?l = true => apply H end;
  match goal with
  | |- unmarked (if ?b then car ?r else _) = true =>
      destruct b; [destruct r; auto; cbn [unmarked car] in *;
        repeat match goal with H : (_ && _)%bool = true |- _ => apply andb_true_iff in H; destruct H end; auto|auto]
  | |- unmarked (if ?b then _ else _) = true => destruct b; auto
  | _ => auto
  end.
Qed.

(** ** Which names an activation binds *)

Lemma layer_names : forall p v b k, layer p v b -> (env_get b k = None <-> forall q, ~ occurs p q k).
Proof.
  intros p v b k L. split.
  - intros E q Q. apply env_get_shows in E. apply L in E. destruct E as [[p' [_ X]]|[X _]]; [discriminate|].
    apply (X q); auto.
  - intro N. apply env_get_shows. apply L. right; auto.
Qed.
Lemma layers_names : forall ps vs ls vs' ls' k, layers ps vs ls -> layers ps vs' ls' ->
  (lget ls k = None <-> lget ls' k = None).
Proof.
  intros ps vs ls vs' ls' k H. revert vs' ls'.
  induction H as [|p ps v vs b ls L H IH]; intros vs' ls' H'; inversion H'; subst; cbn [lget]; [tauto|].
  assert (A := layer_names _ _ _ k L).
  match goal with X : layer p _ ?b0 |- _ => assert (B := layer_names _ _ _ k X) end.
  match goal with X : layers ps _ _ |- _ => specialize (IH _ _ X) end.
  destruct (env_get b k) eqn:E1, (env_get b0 k) eqn:E2.
  - split; discriminate.
  - destruct B as [B _], A as [_ A]. assert (X := A (B eq_refl)). discriminate.
  - destruct A as [A _], B as [_ B]. assert (X := B (A eq_refl)). discriminate.
  - apply IH.
Qed.
Lemma rest_names : forall tail r rl r' rl' k, rest_layer tail r rl -> rest_layer tail r' rl' ->
  (lget rl k = None <-> lget rl' k = None).
Proof.
  intros tail r rl r' rl' k H H'. inversion H; subst; inversion H'; subst; [tauto|].
  cbn [lget env_get]. destruct (sym_match k0 k); [split; discriminate|tauto].
Qed.

(** ** The loop, as a relation *)

Section Fun.
Variables (c d : env) (f : symbol) (ps : list atom) (tail : atom) (before : list atom) (x : atom).
Let args := arg_list ps tail.
Let mbody := mk_list (before ++ [mark_expr f args x]).
Let F := lam args d (before ++ [mark_expr f args x]).

Inductive loops (c1 : env) : env -> world -> atom -> world -> Prop :=
| loops_done : forall b w v w', Rprog O (merge c1 b) mbody Nil w (Ret v w') ->
    self_call (Symb f) v = Some None -> loops c1 b w v w'
| loops_next : forall b w r w1 e b' v w', Rprog O (merge c1 b) mbody Nil w (Ret r w1) ->
    self_call (Symb f) r = Some (Some e) -> env_of_atom e = Some b' -> loops c1 b' w1 v w' ->
    loops c1 b w v w'.

Lemma loops_iff : forall c1 b w v w',
  Rloop O c1 (Symb f) mbody b w (Ret v w') <-> loops c1 b w v w'.
Proof.
  intros c1 b w v w'. split.
  - intros [_ [n E]]. revert E.
    assert (W : forall k b w, tail_loop (eval O n) k c1 (Symb f) mbody b w = Ret v w' -> loops c1 b w v w'); [|apply W].
    induction k as [|k IH]; intros b0 w0 E; [discriminate|]. cbn [tail_loop] in E. unfold mbind in E at 1.
    destruct (prog (eval O n) (merge c1 b0) mbody Nil w0) as [r w1|e|] eqn:P; try discriminate.
    assert (RP : Rprog O (merge c1 b0) mbody Nil w0 (Ret r w1)) by (split; [discriminate|exists n; auto]).
    unfold mbind at 1, opt in E. destruct (self_call (Symb f) r) as [[e|]|] eqn:SC; unfold ret, halt in E; cbv beta iota in E.
    + unfold mbind, opt in E. destruct (env_of_atom e) as [b'|] eqn:EB; unfold ret, halt in E; cbv beta iota in E; [|discriminate].
      eapply loops_next; eauto.
    + inversion E; subst. apply loops_done; auto.
    + discriminate.
  - intro H. induction H.
    + apply Rloop_eq. left. exists v, w'. split; auto. rewrite H0. auto.
    + apply Rloop_eq. left. exists r, w1. split; auto. rewrite H0, H1. auto.
Qed.

Hypothesis Hlin : Forall linear ps.
Hypothesis Hd : NoDup (map fst d).
Hypothesis Hc : increasing c.
Hypothesis Htail : tail = Nil \/ is_symb tail = true.
Hypothesis Hun : unmarked x = true.
Hypothesis Hsimple : simple_tails x.
Hypothesis Hplain : plain_match x.
Hypothesis Hf : forall k, In k keywords -> f <> sy k.

(** The bindings [b] made by a complete list of arguments. *)
Definition full (b : env) : Prop :=
  exists vs ls r rl, layers ps vs ls /\ rest_layer tail r rl /\
    forall k, env_get (rev b) k = lget (ls ++ rl) k.

(** A complete evaluation of the arguments. *)
Lemma args_complete : forall ps' c1 vals w acc b w', unmarked vals = true ->
  may_apply (arg_list ps' tail) vals = true ->
  Rargs O c1 acc (arg_list ps' tail) vals w (Ret (b, Nil) w') ->
  exists es rest vs, vals = arg_list es rest /\ length es = length ps' /\
    runs_list O c1 es w (Ret vs w') /\
    ((tail = Nil /\ rest = Nil /\ b = bound_all ps' vs acc) \/
     (exists u k, tail = Sym u k /\ b = (k, rest) :: bound_all ps' vs acc)).
Proof.
  induction ps' as [|p ps' IH]; intros c1 vals w acc b w' U M R; cbn [arg_list] in *.
  - exists [], vals, []. cbn [arg_list bound_all length]. ands; auto.
    + destruct Htail as [-> | T].
      * apply Rargs_nil in R. inversion R; subst. constructor.
      * destruct tail as [| | | | |u k|]; try discriminate. apply Rargs_sym in R. inversion R; subst. constructor.
    + destruct Htail as [E | T].
      * left. subst tail. destruct vals; try discriminate. apply Rargs_nil in R. inversion R; subst. auto.
      * destruct tail as [| | | | |u k|]; try discriminate. apply Rargs_sym in R. inversion R; subst. right; eauto.
  - destruct vals as [| | | | | |t a y]; cbn [may_apply] in M; try discriminate.
    + apply Rargs_out in R; auto. discriminate.
    + cbn [unmarked] in U. apply andb_true_iff in U. destruct U as [U U2].
      apply andb_true_iff in U. destruct U as [U0 U1]. destruct t; [discriminate|].
      apply Rargs_pair in R. destruct R as [[v [w1 [R1 R2]]]|[e [_ X]]]; [|discriminate].
      destruct (IH _ _ _ _ _ _ U2 M R2) as [es [rest [vs [-> [L [RL B]]]]]].
      exists (a :: es), rest, (v :: vs). cbn [arg_list length bound_all]. ands; auto.
      eapply list_step; eauto.
Qed.
Lemma complete_full : forall c1 es w vs w' rest, length es = length ps -> runs_list O c1 es w (Ret vs w') ->
  forall b, (tail = Nil /\ rest = Nil /\ b = bound_all ps vs []) \/
     (exists u k, tail = Sym u k /\ b = (k, rest) :: bound_all ps vs []) ->
  exists ls rl, layers ps vs ls /\ rest_layer tail rest rl /\ forall k, env_get (rev b) k = lget (ls ++ rl) k.
Proof.
  intros c1 es w vs w' rest L R b B. assert (LV := runs_list_len _ _ _ _ _ _ R).
  destruct (layers_exist ps vs Hlin) as [ls HL]; [congruence|].
  destruct B as [[-> [-> ->]]|[u [k [-> ->]]]].
  - exists ls, []. ands; auto; [constructor|]. intro k. rewrite (bound_all_get ps vs ls HL Hlin). cbn [rev env_get].
    rewrite app_nil_r. auto.
  - exists ls, [[(k, rest)]]. ands; auto; [constructor|]. intro k'. cbn [rev].
    rewrite env_get_app, (bound_all_get ps vs ls HL Hlin), lget_app. cbn [rev env_get lget].
    destruct (lget ls k'); auto. destruct (sym_match k k'); auto.
Qed.

(** Two scopes the loop cannot tell apart. *)
Definition same_under (c1 c2 : env) : Prop := forall b, full b -> merge c1 b = merge c2 b.

Lemma scope_full : forall b ls rl, (forall k, env_get (rev b) k = lget (ls ++ rl) k) ->
  scope (ls ++ rl ++ [d; c]) (merge (merge c d) b).
Proof.
  intros b ls rl E. assert (X := merge2_scope c d b Hc Hd). apply scope_iff in X. destruct X as [X1 X2].
  apply scope_iff. split; auto. intro k. rewrite X2. rewrite app_assoc, lget_app, <- E. cbn [lget]. auto.
Qed.
Lemma full_names : forall b b' k, full b -> full b' -> (env_get (rev b) k = None <-> env_get (rev b') k = None).
Proof.
  intros b b' k [vs [ls [r [rl [H1 [H2 H3]]]]]] [vs' [ls' [r' [rl' [H1' [H2' H3']]]]]].
  rewrite H3, H3', !lget_app.
  assert (A := layers_names _ _ _ _ _ k H1 H1'). assert (B := rest_names _ _ _ _ _ k H2 H2').
  destruct (lget ls k) eqn:E1, (lget ls' k) eqn:E2; auto.
  - destruct A as [_ A]. assert (X := A eq_refl). discriminate.
  - destruct A as [A _]. assert (X := A eq_refl). discriminate.
Qed.
Lemma same_caller : forall b0, full b0 -> same_under (merge (merge (merge c d) b0) d) (merge c d).
Proof.
  intros b0 F0 b Fb. assert (I : increasing (merge (merge c d) b0)) by
    (apply merge_increasing, merge_increasing; auto).
  apply (scope_unique [rev b; d; c]); [|apply merge2_scope; auto].
  assert (X := merge2_scope _ d b I Hd). assert (Y := merge2_scope c d b0 Hc Hd).
  apply scope_iff in X. apply scope_iff in Y. apply scope_iff. destruct X as [X1 X2], Y as [Y1 Y2].
  split; auto. intro k. rewrite X2. cbn [lget]. rewrite Y2. cbn [lget].
  destruct (env_get (rev b) k) eqn:E; auto. apply (full_names b b0 k Fb F0) in E. rewrite E.
  destruct (env_get d k); auto. destruct (env_get c k); auto.
Qed.

(** ** One activation *)

(** What is assumed along the run. *)
Definition fine (S : env) (w w' : world) : Prop :=
  steady S w w' /\ means S w f F /\ held S w w' f.
Lemma fine_later : forall S w w1 w', fine S w w' -> extends w w1 -> extends w1 w' -> fine S w1 w'.
Proof.
  intros S w w1 w' [A [B D]] E1 E2. split; [|split].
  - eapply steady_later; eauto.
  - eapply held_means; eauto.
  - eapply held_later; eauto.
Qed.

Lemma body_split : forall S y r w o, Rprog O S (mk_list (before ++ [y])) r w o <->
  andthen (runs_body O S before r w) (fun _ w1 o => Runs S y w1 o) o.
Proof.
  intros S y. induction before as [|z l IH]; intros r w o; cbn [app].
  - cbn [mk_list]. rewrite Rprog_last by auto. split.
    + intro H. left. exists r, w. split; auto. constructor.
    + intros [[a [w1 [H X]]]|[e [H X]]]; inversion H; subst; auto.
  - cbn [mk_list]. rewrite Rprog_pair. split.
    + intros [[v [w1 [H X]]]|[e [H ->]]].
      * apply IH in X. destruct X as [[v2 [w2 [X1 X2]]]|[e [X1 ->]]].
        -- left. exists v2, w2. split; auto. eapply body_step; eauto.
        -- right. exists e. split; auto. eapply body_step; eauto.
      * right. exists e. split; auto. apply body_stop; auto.
    + intros [[v [w1 [H X]]]|[e [H ->]]]; inversion H; subst.
      * left. eexists; eexists. split; eauto. apply IH. left. eauto.
      * left. eexists; eexists. split; eauto. apply IH. right. eauto.
      * right. eauto.
Qed.

(** A call to [f] at a leaf. *)
Lemma leaf_runs : forall S t u vals w o, means S w f F -> may_apply args vals = true ->
  (Runs S (Pair t (Sym u f) vals) w o <->
   andthen (Rargs O S [] args vals w) (fun r w1 o =>
     if is_null (snd r) then
       if u then o = Ret (Pair true (Sym u f) (atom_of_env (fst r))) w1
       else Rloop O (merge S d) (Symb f) mbody (fst r) w1 o
     else o = Ret (Cons (snd r) (Cons (atom_of_env (fst r ++ d)) mbody)) w1) o).
Proof.
  intros S t u vals w o M A.
  assert (NE : before ++ [mark_expr f args x] <> []) by (destruct before; discriminate).
  rewrite (runs_head O _ _ _ _ _ _ F) by (auto; apply lam_func; auto).
  rewrite Rfunc_eq. unfold F, lam. cbn [car cdr]. rewrite A.
  apply andthen_iff; [tauto|]. intros r w1 o1. fold mbody. rewrite !env_of_atom_of_env.
  destruct (is_null (snd r)); [|tauto].
  assert (NN : forall (A : Type) (p : Z -> A) (q : A), match mbody with Num a => p a | _ => q end = q).
  { intros A0 p q. unfold mbody. destruct (before ++ [mark_expr f args x]); [congruence|reflexivity]. }
  destruct mbody eqn:E; try (destruct u; cbn [is_tail_call]; tauto).
  exfalso. unfold mbody in E. destruct (before ++ [mark_expr f args x]); [congruence|discriminate].
Qed.

(** What the marked body returns, in terms of the leaf reached; and the same for
    the written body. *)
Lemma marked_body : forall S w r w', steady S w w' ->
  (Rprog O S mbody Nil w (Ret r w') <->
   exists v0 w0 l w1, runs_body O S before Nil w (Ret v0 w0) /\ tails O S x w0 l w1 /\
     Runs S (mark_cell f args l) w1 (Ret r w')).
Proof.
  intros S w r w' K. unfold mbody. rewrite body_split. unfold andthen. split.
  - intros [[v0 [w0 [H X]]]|[e [_ X]]]; [|discriminate].
    assert (E1 := body_extends _ _ _ _ _ _ _ H). assert (E2 := runs_extends _ _ _ _ _ _ X).
    rewrite mark_tmap in X.
    apply (TM_all O _ x (mark_leafy f args Hf) Hsimple Hplain) in X; [|eapply steady_later; eauto].
    destruct X as [l [w1 [T X]]]. exists v0, w0, l, w1. auto.
  - intros [v0 [w0 [l [w1 [H [T X]]]]]]. left. exists v0, w0. split; auto. rewrite mark_tmap.
    assert (E1 := body_extends _ _ _ _ _ _ _ H). assert (E2 := runs_extends _ _ _ _ _ _ X).
    assert (E3 := proj1 (tails_extends_all O S) _ _ _ _ T).
    apply (TM_all O _ x (mark_leafy f args Hf) Hsimple Hplain); [|eauto].
    eapply steady_later; eauto using extends_trans.
Qed.
Lemma written_body : forall S w r w', steady S w w' ->
  (runs_body O S (before ++ [x]) Nil w (Ret r w') <->
   exists v0 w0 l w1, runs_body O S before Nil w (Ret v0 w0) /\ tails O S x w0 l w1 /\
     Runs S l w1 (Ret r w')).
Proof.
  intros S w r w' K. rewrite <- Rprog_list, body_split. unfold andthen. split.
  - intros [[v0 [w0 [H X]]]|[e [_ X]]]; [|discriminate].
    assert (E1 := body_extends _ _ _ _ _ _ _ H). assert (E2 := runs_extends _ _ _ _ _ _ X).
    rewrite <- (tmap_id x) in X.
    apply (TM_all O _ x id_leafy Hsimple Hplain) in X; [|eapply steady_later; eauto].
    destruct X as [l [w1 [T X]]]. exists v0, w0, l, w1. auto.
  - intros [v0 [w0 [l [w1 [H [T X]]]]]]. left. exists v0, w0. split; auto. rewrite <- (tmap_id x).
    assert (E1 := body_extends _ _ _ _ _ _ _ H). assert (E2 := runs_extends _ _ _ _ _ _ X).
    assert (E3 := proj1 (tails_extends_all O S) _ _ _ _ T).
    apply (TM_all O _ x id_leafy Hsimple Hplain); [|eauto].
    eapply steady_later; eauto using extends_trans.
Qed.

(** A leaf is left alone by the marking, or is a self-call. *)
Lemma mark_cases : forall l, unmarked l = true -> mark_cell f args l = l \/
  exists t vals, l = Pair t (Symb f) vals /\ mark_cell f args l = Pair t (Sym true f) vals /\
    may_apply args vals = true /\ unmarked vals = true.
Proof.
  intros l U. destruct l as [ | | | | | |t h vals]; auto. destruct h as [ | | | | |u s|]; auto.
  cbn [mark_cell]. destruct (sym_match s f) eqn:E; cbn [andb]; auto.
  destruct (may_apply args vals) eqn:M; auto. right. apply sym_match_eq in E. subst s.
  cbn [unmarked] in U. apply andb_true_iff in U. destruct U as [U U2]. apply andb_true_iff in U. destruct U as [U0 U1].
  destruct u; [discriminate|]. exists t, vals. auto.
Qed.

Lemma self_call_none : forall r, is_tail_call r = false -> self_call (Symb f) r = Some None.
Proof. intros [ | | | | |[] ?|[] ? ?]; cbn; auto; discriminate. Qed.
Lemma self_call_self : forall b, self_call (Symb f) (Pair true (Sym true f) b) = Some (Some b).
Proof. intro b. cbn. rewrite sym_match_refl. auto. Qed.

(** ** The runs from one first activation *)
Variables (S0 : env) (w0 : world).
Hypothesis Hquiet : forall S w o, activation O c d f ps tail before x S0 w0 S w ->
  runs_body O S (before ++ [x]) Nil w o -> quiet o.
(** The names needed are not bound by the parameters. *)
Hypothesis Hnames : forall k b, (k = f \/ exists s, In s keywords /\ k = sy s) -> full b ->
  env_get (rev b) k = None.

Lemma loop_extends : forall c1 b w v w', loops c1 b w v w' -> extends w w'.
Proof.
  intros c1 b w v w' H. apply loops_iff in H. destruct H as [_ [n H]].
  eapply loop_keeps; [|exact H]. intros; apply eval_keeps.
Qed.

Lemma fine_move : forall b b' w w', full b -> full b' ->
  fine (merge (merge c d) b) w w' -> fine (merge (merge c d) b') w w'.
Proof.
  intros b b' w w' Fb Fb' [A [B D]].
  assert (G : forall k, (k = f \/ exists s, In s keywords /\ k = sy s) ->
    env_get (merge (merge c d) b) k = env_get (merge (merge c d) b') k).
  { intros k K. assert (X := merge2_scope c d b Hc Hd). assert (Y := merge2_scope c d b' Hc Hd).
    apply scope_iff in X. apply scope_iff in Y. destruct X as [_ X], Y as [_ Y]. rewrite X, Y. cbn [lget].
    rewrite !Hnames; auto. }
  assert (M : forall k v w, (k = f \/ exists s, In s keywords /\ k = sy s) ->
    means (merge (merge c d) b) w k v -> means (merge (merge c d) b') w k v).
  { intros k v w1 K H. apply means_lookup in H. apply means_lookup. unfold lookup in *. rewrite <- G; auto. }
  assert (HH : forall k, (k = f \/ exists s, In s keywords /\ k = sy s) ->
    held (merge (merge c d) b) w w' k -> held (merge (merge c d) b') w w' k).
  { intros k K [[v H]|H]; [left|right; auto]. exists v. apply env_get_shows in H. apply env_get_shows.
    rewrite <- G; auto. }
  split; [|split]; auto. intros s K. destruct (A s K) as [A1 A2].
  assert (KK : In s keywords) by (unfold keywords; cbn in *; tauto).
  split; [apply M|apply HH]; eauto.
Qed.

(** A marked leaf in an activation: the next activation, or an ordinary result. *)
Lemma marked_leaf : forall S b w v0 wa t vals wb r w', S = merge (merge c d) b ->
  full b -> activation O c d f ps tail before x S0 w0 S w ->
  means S wb f F ->
  runs_body O S before Nil w (Ret v0 wa) ->
  tails O S x wa (Pair t (Symb f) vals) wb ->
  may_apply args vals = true -> unmarked vals = true ->
  Runs S (Pair t (Sym true f) vals) wb (Ret r w') ->
  (is_tail_call r = false /\ Runs S (Pair t (Symb f) vals) wb (Ret r w')) \/
  exists b', r = Pair true (Sym true f) (atom_of_env b') /\ full b' /\
    activation O c d f ps tail before x S0 w0 (merge (merge c d) b') w' /\
    forall o, Runs S (Pair t (Symb f) vals) wb o <->
      Rloop O (merge S d) (Symb f) mbody b' w' o.
Proof.
  intros S b w v0 wa t vals wb r w' ES Fb A M RB T MA U R.
  apply leaf_runs in R; auto. destruct R as [[[b' na] [w1 [R1 R2]]]|[e [_ X]]]; [|discriminate].
  cbn [fst snd] in R2. destruct (is_null na) eqn:N.
  - right. inversion R2; subst r w1. assert (na = Nil) by (destruct na; try discriminate; auto). subst na.
    destruct (args_complete ps S vals wb [] b' w' U MA R1) as [es [rest [vs [-> [L [RL B]]]]]].
    destruct (complete_full S es wb vs w' rest L RL b' B) as [ls [rl [HL [HR HG]]]].
    exists b'. ands; auto.
    + exists vs, ls, rest, rl. auto.
    + eapply act_next; eauto. apply scope_full; auto.
    + intro o. rewrite leaf_runs by auto. rewrite (andthen_to _ (b', Nil) w').
      * cbn [fst snd is_null]. tauto.
      * intro y. split; [|intros ->; auto]. intro Y.
        destruct R1 as [_ [n1 R1]], Y as [Y0 [n2 Y]].
        eapply (conv_unique (fun n => eval_args (eval O n) S [] args (arg_list es rest) wb)).
        -- apply args_monof.
        -- split; [auto|exists n2; exact Y].
        -- split; [discriminate|exists n1; exact R1].
  - left. inversion R2; subst r w1. split; [reflexivity|]. apply leaf_runs; auto.
    left. exists (b', na), w'. split; auto. cbn [fst snd]. rewrite N. auto.
Qed.

(** The scope under the bindings does not matter for the loop. *)
Lemma loops_same : forall c1 b w v w', loops c1 b w v w' ->
  (forall b, full b -> merge c1 b = merge (merge c d) b) -> forall c2,
  (forall b, full b -> merge c2 b = merge (merge c d) b) -> full b ->
  activation O c d f ps tail before x S0 w0 (merge (merge c d) b) w ->
  fine (merge (merge c d) b) w w' -> loops c2 b w v w'.
Proof.
  intros c1 b w v w' H E1. induction H as [b w v w' P N|b w r w1 e b' v w' P N EB H IH]; intros c2 E2 Fb A K.
  - apply loops_done; auto. rewrite E2, <- E1; auto.
  - assert (EH := loop_extends _ _ _ _ _ H). rewrite E1 in P by auto.
    assert (EP : extends w w1). { apply Rprog_list in P. eapply body_extends; eauto. }
    assert (K1 : fine (merge (merge c d) b) w1 w') by (eapply fine_later; eauto).
    apply loops_next with (r := r) (w1 := w1) (e := e) (b' := b'); auto; [rewrite E2; auto|].
    assert (ST : steady (merge (merge c d) b) w w1).
    { intros s Ks. destruct K as [K _]. destruct (K s Ks) as [C D]. split; auto.
      destruct D as [D|[g [G1 G2]]]; [left; auto|right].
      destruct EP as [[g1 EP] _], EH as [[g2 EH] _]. exists g1. split; auto.
      assert (EG : g = g2 ++ g1). { rewrite G1, EP, app_assoc in EH. apply app_inv_tail in EH. auto. }
      intro Z. apply G2. rewrite EG, map_app. apply in_or_app. auto. }
    assert (P' := P). apply marked_body in P'; auto.
    destruct P' as [v0 [wa [l [wb [B [T R]]]]]].
    assert (U := proj1 (tails_unmarked_all _) _ _ _ _ T Hun).
    destruct (mark_cases l U) as [ML|[t [vals [-> [ML [MA UV]]]]]]; rewrite ML in R.
    + exfalso. assert (Q : quiet (Ret r w1)).
      { eapply Hquiet; eauto. apply written_body; auto. exists v0, wa, l, wb. auto. }
      cbn in Q. rewrite self_call_none in N by auto. discriminate.
    + assert (MB : means (merge (merge c d) b) wb f F).
      { destruct K as [_ [M D]]. assert (X1 := body_extends _ _ _ _ _ _ _ B).
        assert (X2 := proj1 (tails_extends_all O _) _ _ _ _ T). assert (X3 := runs_extends _ _ _ _ _ _ R).
        eapply held_means; eauto using extends_trans. }
      destruct (marked_leaf _ b w v0 wa t vals wb r w1 eq_refl Fb A MB B T MA UV R) as [[Q _]|[b2 [-> [F2 [A2 _]]]]].
      * rewrite self_call_none in N by auto. discriminate.
      * rewrite self_call_self in N. inversion N; subst e. rewrite env_of_atom_of_env in EB. inversion EB; subst b2.
        apply IH; auto. apply (fine_move b); auto.
Qed.

(** The loop from the first activation gives the result of the written body. *)
Lemma loop_body : forall b v w', S0 = merge (merge c d) b -> full b -> fine S0 w0 w' ->
  (loops (merge c d) b w0 v w' <-> runs_body O S0 (before ++ [x]) Nil w0 (Ret v w')).
Proof.
  intros b v w' ES Fb K.
  assert (A0 : activation O c d f ps tail before x S0 w0 S0 w0) by constructor.
  assert (SC := same_caller b Fb). rewrite <- ES in SC.
  assert (GO : forall w1, extends w0 w1 -> extends w1 w' -> steady S0 w0 w1).
  { intros w1 EP EH s Ks. destruct K as [K _]. destruct (K s Ks) as [C D]. split; auto.
    destruct D as [D|[g [G1 G2]]]; [left; auto|right].
    destruct EP as [[g1 EP] _], EH as [[g2 EH] _]. exists g1. split; auto.
    assert (EG : g = g2 ++ g1). { rewrite G1, EP, app_assoc in EH. apply app_inv_tail in EH. auto. }
    intro Z. apply G2. rewrite EG, map_app. apply in_or_app. auto. }
  split.
  - intro H. inversion H as [b1 w1 v1 w1' P N|b1 w r w1 e b' v1 w1' P N EB L].
    + subst b1 w1 v1 w1'. rewrite <- ES in P. assert (K0 := K). destruct K as [K _]. apply marked_body in P; auto.
      destruct P as [v0 [wa [l [wb [B [T R]]]]]]. apply written_body; auto.
      exists v0, wa, l, wb. ands; auto.
      assert (U := proj1 (tails_unmarked_all _) _ _ _ _ T Hun).
      destruct (mark_cases l U) as [ML|[t [vals [-> [ML [MA UV]]]]]]; rewrite ML in R; auto.
      assert (MB : means S0 wb f F).
      { destruct K0 as [_ [M D]]. assert (X1 := body_extends _ _ _ _ _ _ _ B).
        assert (X2 := proj1 (tails_extends_all O _) _ _ _ _ T). assert (X3 := runs_extends _ _ _ _ _ _ R).
        eapply held_means; eauto using extends_trans. }
      destruct (marked_leaf S0 b w0 v0 wa t vals wb v w' ES Fb A0 MB B T MA UV R) as [[_ Q]|[b2 [-> _]]]; auto.
      rewrite self_call_self in N. discriminate.
    + subst b1 w v1 w1'. rewrite <- ES in P. assert (EL := loop_extends _ _ _ _ _ L).
      assert (EP : extends w0 w1). { apply Rprog_list in P. eapply body_extends; eauto. }
      assert (K0 := K). destruct K as [K _]. assert (P' := P). apply marked_body in P'; auto.
      destruct P' as [v0 [wa [l [wb [B [T R]]]]]]. apply written_body; auto.
      exists v0, wa, l, wb. ands; auto.
      assert (U := proj1 (tails_unmarked_all _) _ _ _ _ T Hun).
      assert (XB : extends w0 wb).
      { assert (X1 := body_extends _ _ _ _ _ _ _ B).
        assert (X2 := proj1 (tails_extends_all O _) _ _ _ _ T). eauto using extends_trans. }
      assert (XR := runs_extends _ _ _ _ _ _ R).
      destruct (mark_cases l U) as [ML|[t [vals [-> [ML [MA UV]]]]]]; rewrite ML in R.
      * exfalso. assert (Q : quiet (Ret r w1)).
        { eapply Hquiet; eauto. apply written_body; auto. exists v0, wa, l, wb. auto. }
        cbn in Q. rewrite self_call_none in N by auto. discriminate.
      * assert (MB : means S0 wb f F).
        { destruct K0 as [_ [M D]]. eapply held_means; eauto using extends_trans. }
        destruct (marked_leaf S0 b w0 v0 wa t vals wb r w1 ES Fb A0 MB B T MA UV R) as [[Q _]|[b2 [-> [F2 [A2 RR]]]]].
        -- rewrite self_call_none in N by auto. discriminate.
        -- rewrite self_call_self in N. inversion N; subst e. rewrite env_of_atom_of_env in EB. inversion EB; subst b2.
           apply RR. apply loops_iff. eapply loops_same; eauto.
           apply (fine_move b); auto. rewrite <- ES. eapply fine_later; eauto.
  - intro H. assert (Q : quiet (Ret v w')) by (eapply Hquiet; [constructor|eauto]). cbn in Q.
    assert (K0 := K). destruct K as [K _]. apply written_body in H; auto.
    destruct H as [v0 [wa [l [wb [B [T R]]]]]].
    assert (U := proj1 (tails_unmarked_all _) _ _ _ _ T Hun).
    assert (XB : extends w0 wb).
    { assert (X1 := body_extends _ _ _ _ _ _ _ B).
      assert (X2 := proj1 (tails_extends_all O _) _ _ _ _ T). eauto using extends_trans. }
    assert (XR := runs_extends _ _ _ _ _ _ R).
    destruct (mark_cases l U) as [ML|[t [vals [-> [ML [MA UV]]]]]].
    + apply loops_done; [|apply self_call_none; auto]. rewrite <- ES. apply marked_body; auto.
      exists v0, wa, l, wb. ands; auto. rewrite ML; auto.
    + assert (MB : means S0 wb f F).
      { destruct K0 as [_ [M D]]. eapply held_means; eauto using extends_trans. }
      assert (R' := R). apply leaf_runs in R'; auto.
      destruct R' as [[[b' na] [w1 [R1 R2]]]|[e [_ X]]]; [|discriminate].
      cbn [fst snd] in R2. destruct (is_null na) eqn:NA.
      * assert (RM : Runs S0 (Pair t (Sym true f) vals) wb (Ret (Pair true (Sym true f) (atom_of_env b')) w1)).
        { apply leaf_runs; auto. left. exists (b', na), w1. split; auto. cbn [fst snd]. rewrite NA. auto. }
        assert (X1 := runs_extends _ _ _ _ _ _ RM).
        assert (X2 : extends w1 w') by (apply loops_iff in R2; eapply loop_extends; eauto).
        destruct (marked_leaf S0 b w0 v0 wa t vals wb _ w1 ES Fb A0 MB B T MA UV RM) as [[Z _]|[b2 [Z [F2 [A2 RR]]]]].
        { discriminate. }
        inversion Z as [Z']. assert (b' = b2).
        { apply (f_equal env_of_atom) in Z'. rewrite !env_of_atom_of_env in Z'. congruence. }
        subst b2.
        eapply loops_next with (r := Pair true (Sym true f) (atom_of_env b')) (w1 := w1) (b' := b').
        -- rewrite <- ES. apply marked_body; [apply GO; eauto using extends_trans|]. exists v0, wa, (Pair t (Symb f) vals), wb.
           ands; auto. rewrite ML; auto.
        -- apply self_call_self.
        -- apply env_of_atom_of_env.
        -- apply loops_iff in R2. eapply loops_same; eauto.
           apply (fine_move b); auto. rewrite <- ES. eapply fine_later; eauto using extends_trans.
      * injection R2 as -> ->. apply loops_done; [|reflexivity]. rewrite <- ES.
        apply marked_body; auto. exists v0, wa, (Pair t (Symb f) vals), wb. ands; auto. rewrite ML.
        apply leaf_runs; auto. left. exists (b', na), w1. split; auto. cbn [fst snd]. rewrite NA. auto.
Qed.

End Fun.
End Rec.

Section Sem.
Variable O : oracle.
Notation Runs := (runs O).

Lemma tail_calls : forall c t d f ps tail before x es rest w vs w1 ls rl S v w2,
  means c w f (lam (arg_list ps tail) d (before ++ [mark_expr f (arg_list ps tail) x])) ->
  Forall linear ps -> NoDup (map fst d) -> increasing c ->
  unmarked x = true -> simple_tails x -> plain_match x -> (forall k, In k keywords -> f <> sy k) ->
  length es = length ps -> runs_list O c es w (Ret vs w1) ->
  layers ps vs ls -> rest_layer tail rest rl -> scope (ls ++ rl ++ [d; c]) S ->
  layered (ls ++ rl) f None -> (forall s, In s keywords -> layered (ls ++ rl) (sy s) None) ->
  means S w1 f (lam (arg_list ps tail) d (before ++ [mark_expr f (arg_list ps tail) x])) ->
  held S w1 w2 f -> steady S w1 w2 ->
  (forall S' w' o, activation O c d f ps tail before x S w1 S' w' ->
     runs_body O S' (before ++ [x]) Nil w' o -> quiet o) ->
  (Runs c (Pair t (Symb f) (arg_list es rest)) w (Ret v w2) <->
   runs_body O S (before ++ [x]) Nil w1 (Ret v w2)).
Proof.
  intros c t d f ps tail before x es rest w vs w1 ls rl S v w2 M LIN ND I U ST PM NK L RL LS RR SC NF NKL MS HF SY Q.
  set (body := before ++ [mark_expr f (arg_list ps tail) x]) in *.
  assert (TL : tail = Nil \/ is_symb tail = true) by (inversion RR; subst; auto).
  assert (NE : body <> []) by (unfold body; destruct before; discriminate).
  assert (exists bs, (tail = Nil /\ rest = Nil /\ bs = [] \/ exists u k, tail = Sym u k /\ bs = [(k, rest)])
            /\ forall k, env_get (rev bs) k = lget rl k) as [bs [HB GB]].
  { inversion RR; subst.
    - exists []. split; auto.
    - exists [(k, rest)]. split; [right; eauto|]. intro k'. cbn. destruct (sym_match k k'); auto. }
  assert (RF : Runs c (Symb f) w (Ret (lam (arg_list ps tail) d body) w)) by (apply (runs_means O c false f w _ _ M); auto).
  rewrite (call_full O c t (Symb f) ps tail d body es rest w w vs w1 bs _ RF eq_refl NE L RL HB).
  set (b := bs ++ bound_all ps vs []) in *.
  assert (G : forall k, env_get (rev b) k = lget (ls ++ rl) k).
  { intro k. unfold b. rewrite rev_app_distr, env_get_app, (bound_all_get ps vs ls LS LIN), lget_app. cbn [rev env_get].
    rewrite GB. auto. }
  assert (FB : full ps tail b) by (exists vs, ls, rest, rl; auto).
  assert (ES : S = merge (merge c d) b).
  { apply (scope_unique (ls ++ rl ++ [d; c])); auto. apply scope_full; auto. }
  unfold body. rewrite (loops_iff O f ps tail before x).
  apply loop_body; auto.
  - intros k b' K FB'. apply (full_names ps tail b b' k FB FB'). rewrite G. apply layered_lget.
    destruct K as [-> |[s [K ->]]]; auto.
  - split; [|split]; auto.
Qed.

End Sem.
