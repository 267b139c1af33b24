(** * Sem2: scopes, user functions, currying, [let]. *)
From Verif Require Import Value ValueSpec ValueProofs Tails Print Eval EvalSpec EvalProofs Sem1.
Open Scope nat_scope.

(** ** Scopes *)

Fixpoint lget (ls : list env) (k : symbol) : option atom :=
  match ls with
  | [] => None
  | e :: r => match env_get e k with Some v => Some v | None => lget r k end
  end.
Lemma layered_lget : forall ls k r, layered ls k r <-> lget ls k = r.
Proof.
  induction ls as [|e ls IH]; intros k r; cbn [layered lget].
  - split; congruence.
  - destruct (env_get e k) as [v|] eqn:E; [clear IH|rewrite <- IH].
    + split.
      * intros [[u [H ->]]|[H _]]; apply env_get_shows in H; congruence.
      * intros <-. left. exists v. split; auto. apply env_get_shows; auto.
    + split.
      * intros [[u [H ->]]|[H X]]; [apply env_get_shows in H; congruence|auto].
      * intro X. right. split; auto. apply env_get_shows; auto.
Qed.
Lemma lget_app : forall a b k,
  lget (a ++ b) k = match lget a k with Some v => Some v | None => lget b k end.
Proof.
  induction a as [|e a IH]; intros b k; cbn [lget app]; auto.
  destruct (env_get e k); auto.
Qed.

Lemma scope_iff : forall ls s, scope ls s <-> increasing s /\ forall k, env_get s k = lget ls k.
Proof.
  intros ls s. unfold scope. split; intros [I H]; (split; [auto|]).
  - intro k. destruct (H k (lget ls k)) as [_ X].
    assert (Y : shows s k (lget ls k)) by (apply X, layered_lget; auto).
    apply env_get_shows in Y; auto.
  - intros k r. rewrite env_get_shows, layered_lget, H. tauto.
Qed.
Lemma scope_unique : forall ls s s', scope ls s -> scope ls s' -> s = s'.
Proof.
  intros ls s s' H H'. apply scope_iff in H; apply scope_iff in H'.
  destruct H as [I H], H' as [I' H']. apply increasing_ext; auto.
  intro k. rewrite H, H'; auto.
Qed.

Lemma env_get_in : forall e k v, env_get e k = Some v -> In (k, v) e.
Proof.
  induction e as [|[k' v'] e IH]; cbn; intros k v H; [discriminate|].
  destruct (sym_match k' k) eqn:E; auto. apply sym_match_eq in E. left; congruence.
Qed.
Lemma env_get_none : forall e k, env_get e k = None <-> ~ In k (map fst e).
Proof.
  induction e as [|[k' v'] e IH]; cbn; intros k; [tauto|].
  destruct (sym_match k' k) eqn:E.
  - apply sym_match_eq in E. split; [discriminate|tauto].
  - rewrite IH. assert (k' <> k) by (intros ->; rewrite sym_match_refl in E; discriminate). tauto.
Qed.
Lemma NoDup_in_get : forall e k v, NoDup (map fst e) -> In (k, v) e -> env_get e k = Some v.
Proof.
  induction e as [|[k' v'] e IH]; cbn; intros k v N H; [tauto|]. inversion N; subst.
  destruct H as [H|H].
  - injection H as -> ->. rewrite sym_match_refl; auto.
  - rewrite sym_match_neq; auto. intros ->.
    match goal with H : ~ In _ _ |- _ => apply H end. apply in_map_iff. exists (k, v); auto.
Qed.
Lemma get_rev_NoDup : forall e k, NoDup (map fst e) -> env_get (rev e) k = env_get e k.
Proof.
  intros e k N. destruct (env_get e k) as [v|] eqn:E.
  - apply NoDup_in_get.
    + rewrite map_rev. apply NoDup_rev; auto.
    + apply in_rev. rewrite rev_involutive. apply env_get_in; auto.
  - apply env_get_none. rewrite map_rev. intro H. apply in_rev in H.
    apply env_get_none in E. auto.
Qed.

Lemma merge2_scope : forall c d b, increasing c -> NoDup (map fst d) ->
  scope [rev b; d; c] (merge (merge c d) b).
Proof.
  intros c d b I N. apply scope_iff. split.
  - apply merge_increasing, merge_increasing; auto.
  - intro k. cbn [lget]. rewrite !merge_get, (get_rev_NoDup d) by auto.
    destruct (env_get (rev b) k); auto. destruct (env_get d k); auto.
    destruct (env_get c k); auto.
Qed.
Lemma merge1_scope : forall c b, increasing c -> scope [rev b; c] (merge c b).
Proof.
  intros c b I. apply scope_iff. split; [apply merge_increasing; auto|].
  intro k. cbn [lget]. rewrite merge_get. destruct (env_get (rev b) k); auto.
  destruct (env_get c k); auto.
Qed.

(** Scopes exist. *)
Lemma lget_merge : forall ls, exists s, increasing s /\ forall k, env_get s k = lget ls k.
Proof.
  induction ls as [|e ls [s [I H]]].
  - exists []. split; [constructor|auto].
  - exists (merge s (rev e)). split; [apply merge_increasing; auto|].
    intro k. cbn [lget]. rewrite merge_get, rev_involutive, H; auto.
Qed.
Lemma scope_exists : forall ls, exists s, scope ls s.
Proof. intro ls. destruct (lget_merge ls) as [s H]. exists s. apply scope_iff; auto. Qed.

(** ** Layers *)

Lemma layer_bind : forall pat v, linear pat -> layer pat v (bind [] pat v).
Proof.
  intros pat v L k r. rewrite env_get_shows. split.
  - intros <-. destruct (occurs_dec pat k) as [[p Hp]|H].
    + left. exists p. split; auto. apply bind_hit; auto.
      intros p' H'. apply (L k p' p); auto.
    + right. split; auto. rewrite bind_other; auto.
  - intros [[p [Hp ->]]|[H ->]].
    + apply bind_hit; auto. intros p' H'. apply (L k p' p); auto.
    + rewrite bind_other; auto.
Qed.
Lemma layer_get : forall pat v b b', layer pat v b -> layer pat v b' ->
  forall k, env_get b k = env_get b' k.
Proof.
  intros pat v b b' H H' k. destruct (H k (env_get b k)) as [X _].
  assert (Y := X (proj2 (env_get_shows b k _) eq_refl)).
  destruct (H' k (env_get b k)) as [_ Z]. apply Z in Y. apply env_get_shows in Y; auto.
Qed.
Lemma linear_nodup : forall pat v, linear pat -> NoDup (map fst (bind [] pat v)).
Proof.
  induction pat as [| | |xc|xz|t s|t a1 IH1 a2 IH2]; intros v L; cbn [bind]; try constructor; auto.
  - constructor.
  - rewrite bind_nil_app, map_app.
    assert (L1 : linear a1). { intros k p q Hp Hq.
      assert (E : false :: p = false :: q) by (apply (L k); auto). congruence. }
    assert (L2 : linear a2). { intros k p q Hp Hq.
      assert (E : true :: p = true :: q) by (apply (L k); auto). congruence. }
    assert (D : forall k, In k (map fst (bind [] a2 (cdr v))) -> ~ In k (map fst (bind [] a1 (car v)))).
    { intros k H2 H1.
      destruct (occurs_dec a1 k) as [[p Hp]|N1].
      - destruct (occurs_dec a2 k) as [[q Hq]|N2].
        + assert (E : false :: p = true :: q) by (apply (L k); auto). discriminate.
        + assert (E := bind_other a2 (cdr v) [] k N2). apply env_get_none in E; auto.
      - assert (E := bind_other a1 (car v) [] k N1). apply env_get_none in E; auto. }
    specialize (IH1 (car v) L1). specialize (IH2 (cdr v) L2).
    clear -IH1 IH2 D. revert IH2 D. generalize (map fst (bind [] a2 (cdr v))).
    induction l as [|x l IH]; intros N D; cbn; auto. inversion N; subst. constructor.
    + rewrite in_app_iff. intros [H|H]; auto. apply (D x); cbn; auto.
    + apply IH; auto. intros k Hk. apply D; cbn; auto.
Qed.

(** The bindings accumulated by a call, in order. *)
Fixpoint bound_all (ps vs : list atom) (acc : env) : env :=
  match ps, vs with
  | p :: ps', v :: vs' => bound_all ps' vs' (bind acc p v)
  | _, _ => acc
  end.
Lemma bound_all_app : forall ps vs acc, bound_all ps vs acc = bound_all ps vs [] ++ acc.
Proof.
  induction ps as [|p ps IH]; intros [|v vs] acc; cbn [bound_all]; auto.
  rewrite (IH vs (bind acc p v)), (IH vs (bind [] p v)).
  rewrite (bind_nil_app p v acc), app_assoc; auto.
Qed.
Lemma bound_all_get : forall ps vs ls, layers ps vs ls -> Forall linear ps ->
  forall acc k, env_get (rev (bound_all ps vs acc)) k = 
    match env_get (rev acc) k with Some v => Some v | None => lget ls k end.
Proof.
  intros ps vs ls H. induction H as [|p ps v vs b ls Hb H IH]; intros L acc k; cbn [bound_all lget].
  - destruct (env_get (rev acc) k); auto.
  - inversion L; subst. rewrite IH by auto. rewrite bind_nil_app, rev_app_distr, env_get_app.
    destruct (env_get (rev acc) k); auto.
    rewrite get_rev_NoDup by (apply linear_nodup; auto).
    rewrite (layer_get p v _ b (layer_bind p v ltac:(auto)) Hb). auto.
Qed.
Lemma layers_exist : forall ps vs, Forall linear ps -> length vs = length ps -> exists ls, layers ps vs ls.
Proof.
  induction ps as [|p ps IH]; intros [|v vs] L E; cbn in E; try discriminate.
  - exists []. constructor.
  - inversion L; subst. destruct (IH vs) as [ls H]; auto.
    exists (bind [] p v :: ls). constructor; auto. apply layer_bind; auto.
Qed.
Lemma linear_sym : forall t k, linear (Sym t k).
Proof. intros t k k' [|b p] [|b' q]; cbn; auto; try tauto. Qed.
Lemma linear_names : forall ks, Forall linear (names ks).
Proof. induction ks; constructor; auto. apply linear_sym. Qed.

Lemma andthen_to {A B} (P : out A -> Prop) a w (Q : A -> world -> out B -> Prop) o :
  (forall x, P x <-> x = Ret a w) -> (andthen P Q o <-> Q a w o).
Proof.
  intro H. rewrite (andthen_iff P (fun x => x = Ret a w) Q Q o H (fun a w o => iff_refl _)).
  apply andthen_ret.
Qed.

(** ** Argument evaluation *)

Section Sem.
Variable O : oracle.
Notation Runs := (runs O).

Lemma runs_list_nil : forall c w o, runs_list O c [] w o <-> o = Ret [] w.
Proof. intros. split; [intro H; inversion H; auto|intros ->; constructor]. Qed.
Lemma runs_list_cons : forall c x l w o, runs_list O c (x :: l) w o <->
  andthen (Runs c x w) (fun v w1 => andthen (runs_list O c l w1) (fun vs w2 o => o = Ret (v :: vs) w2)) o.
Proof.
  intros. split.
  - intro H; inversion H; subst.
    + left. exists v, w1. split; auto. left. exists vs, w2. auto.
    + right. exists e. auto.
    + left. exists v, w1. split; auto. right. exists e. auto.
  - intros [[v [w1 [H1 [[vs [w2 [H2 ->]]]|[e [H2 ->]]]]]]|[e [H1 ->]]].
    + econstructor; eauto.
    + eapply list_stop2; eauto.
    + apply list_stop1; auto.
Qed.

Lemma runs_list_app : forall a b c w o, runs_list O c (a ++ b) w o <->
  andthen (runs_list O c a w) (fun va w1 => andthen (runs_list O c b w1)
    (fun vb w2 o => o = Ret (va ++ vb) w2)) o.
Proof.
  induction a as [|x a IH]; intros b c w o; cbn [app].
  - rewrite (andthen_iff _ _ _ _ o (fun x => runs_list_nil c w x) (fun a w o => iff_refl _)).
    rewrite andthen_ret. split.
    + intro H. destruct o as [vs w2|e|].
      * left. exists vs, w2. auto.
      * right. exists e. auto.
      * inversion H.
    + intros [[vs [w2 [H ->]]]|[e [H ->]]]; auto.
  - rewrite runs_list_cons.
    rewrite (andthen_iff _ _ _ _ o (fun y => runs_list_cons c x a w y) (fun a w o => iff_refl _)).
    rewrite andthen_assoc. apply andthen_iff; [tauto|]. intros v w1 o1.
    rewrite (andthen_iff _ _ _ _ o1 (fun y => IH b c w1 y) (fun a w o => iff_refl _)).
    rewrite !andthen_assoc. apply andthen_iff; [tauto|]. intros va w2 o2.
    rewrite andthen_ret, andthen_assoc. apply andthen_iff; [tauto|]. intros vb w3 o3.
    rewrite andthen_ret. tauto.
Qed.

Lemma runs_list_len : forall c es w vs w1, runs_list O c es w (Ret vs w1) -> length vs = length es.
Proof.
  intros c es. induction es as [|x es IH]; intros w vs w1 H; inversion H; subst; cbn; eauto.
Qed.

Lemma runs_list_unique : forall c es w a b,
  runs_list O c es w a -> runs_list O c es w b -> a = b.
Proof.
  intros c es w a b H. revert b. induction H; intros b Hb; inversion Hb; subst; auto;
  repeat match goal with
  | H1 : runs ?O ?c ?x ?w ?o1, H2 : runs ?O ?c ?x ?w ?o2 |- _ =>
      let E := fresh in assert (E := runs_unique O c x w o1 o2 H1 H2);
      first [discriminate E | injection E as ? ?; subst | injection E as ?; subst]; clear H2
  end; auto;
  match goal with H : runs_list _ _ _ _ _ |- _ => apply IHruns_list in H; inversion H; auto end.
Qed.

Lemma args_rest : forall ps tail c es1 r acc w o, length es1 = length ps ->
  (Rargs O c acc (arg_list ps tail) (arg_list es1 r) w o <->
   andthen (runs_list O c es1 w) (fun vs w1 => Rargs O c (bound_all ps vs acc) tail r w1) o).
Proof.
  induction ps as [|p ps IH]; intros tail c [|x es1] r acc w o E; cbn in E; try discriminate.
  - cbn [arg_list app bound_all].
    rewrite (andthen_iff _ _ _ _ o (fun x => runs_list_nil c w x) (fun a w o => iff_refl _)).
    rewrite andthen_ret. tauto.
  - cbn [arg_list app mk_list]. rewrite Rargs_pair.
    rewrite (andthen_iff _ _ _ _ o (fun y => runs_list_cons c x es1 w y) (fun a w o => iff_refl _)).
    rewrite andthen_assoc. apply andthen_iff; [tauto|]. intros v w1 o1.
    rewrite IH by congruence. rewrite andthen_assoc. apply andthen_iff; [tauto|]. intros vs w2 o2.
    rewrite andthen_ret. tauto.
Qed.
Lemma mk_list_app_rest : forall a b, mk_list (a ++ b) = arg_list a (mk_list b).
Proof. induction a; intros; cbn [app arg_list mk_list]; [|rewrite IHa]; auto. Qed.
Lemma args_app : forall ps tail c es1 es2 acc w o, length es1 = length ps ->
  (Rargs O c acc (arg_list ps tail) (mk_list (es1 ++ es2)) w o <->
   andthen (runs_list O c es1 w) (fun vs w1 => Rargs O c (bound_all ps vs acc) tail (mk_list es2) w1) o).
Proof. intros. rewrite mk_list_app_rest. apply args_rest; auto. Qed.

Lemma arg_list_app : forall a b t, arg_list (a ++ b) t = arg_list a (arg_list b t).
Proof. induction a; intros; cbn [app arg_list]; [|rewrite IHa]; auto. Qed.
Lemma mk_arg_list : forall a, mk_list a = arg_list a Nil.
Proof. induction a; cbn; [|rewrite IHa]; auto. Qed.

Lemma env_of_atom_of_env : forall e, env_of_atom (atom_of_env e) = Some e.
Proof. induction e as [|[k v] e IH]; cbn; [|rewrite IH]; auto. Qed.
Lemma atom_of_env_list : forall e, is_list (atom_of_env e) = true.
Proof. intros [|[k v] e]; reflexivity. Qed.
Lemma arg_list_ok : forall ps tail, tail = Nil \/ is_symb tail = true ->
  is_list (arg_list ps tail) || is_symb (arg_list ps tail) = true.
Proof. intros [|p ps] tail [->|H]; cbn; auto. destruct tail; auto. Qed.
Lemma lam_func : forall ps tail d body, tail = Nil \/ is_symb tail = true -> body <> [] ->
  is_func (lam (arg_list ps tail) d body) = true.
Proof.
  intros ps tail d body T B. unfold lam, is_func, is_args, is_clos, is_body. cbn [car cdr is_pair is_null].
  rewrite arg_list_ok by auto. rewrite atom_of_env_list. destruct body; [congruence|]. reflexivity.
Qed.

(** ** Calls *)

Lemma runs_call : forall c t h vals w f w1 o, Runs c h w (Ret f w1) -> is_func f = true ->
  (Runs c (Pair t h vals) w o <-> Rfunc O c h f vals w1 o).
Proof.
  intros c t h vals w f w1 o H F. rewrite runs_pair.
  rewrite (andthen_to _ f w1); [rewrite F; tauto|].
  intro x. split; [intro X; apply (runs_unique O c h w x (Ret f w1)); auto|intros ->; auto].
Qed.

Lemma may_apply_rest : forall ps tail es1 r, length es1 = length ps ->
  may_apply (arg_list ps tail) (arg_list es1 r) = may_apply tail r.
Proof.
  induction ps as [|p ps IH]; intros tail [|x es1] r E; cbn in *; try discriminate; auto.
Qed.
Lemma may_apply_tail : forall ps tail es1 es2, length es1 = length ps ->
  may_apply (arg_list ps tail) (mk_list (es1 ++ es2)) = may_apply tail (mk_list es2).
Proof. intros. rewrite mk_list_app_rest. apply may_apply_rest; auto. Qed.

Lemma Rloop_quiet : forall c s b e w o,
  (forall o, Rprog O (merge c e) b Nil w o -> quiet o) ->
  (Rloop O c s b e w o <-> Rprog O (merge c e) b Nil w o).
Proof.
  intros c s b e w o Q. rewrite Rloop_eq. split.
  - intros [[r [w1 [H X]]]|[x [H ->]]]; auto.
    specialize (Q _ H). cbn in Q. destruct r; cbn in Q, X; try (subst; auto).
  - intro H. specialize (Q _ H). destruct o as [r w1|x|].
    + left. exists r, w1. split; auto. cbn in Q. destruct r as [| | | | | |[|] ? ?]; cbn in Q |- *; auto.
      * subst; auto.
      * discriminate.
    + right. exists x; auto.
    + destruct H as [H _]. congruence.
Qed.

(** The result of a call that has all its arguments. *)
Lemma call_full : forall c t h ps tail d body es1 rest w w1 vs w2 bs o,
  Runs c h w (Ret (lam (arg_list ps tail) d body) w1) -> is_tail_call h = false -> body <> [] ->
  length es1 = length ps -> runs_list O c es1 w1 (Ret vs w2) ->
  (tail = Nil /\ rest = Nil /\ bs = [] \/ exists u k, tail = Sym u k /\ bs = [(k, rest)]) ->
  (Runs c (Pair t h (arg_list es1 rest)) w o <->
   Rloop O (merge c d) h (mk_list body) (bs ++ bound_all ps vs []) w2 o).
Proof.
  intros c t h ps tail d body es1 rest w w1 vs w2 bs o H T B E L R.
  rewrite (runs_call c t h _ w _ w1 o H).
  2: { apply lam_func; auto. destruct R as [[-> _]|[u [k [-> _]]]]; auto. }
  rewrite Rfunc_eq. unfold lam. cbn [car cdr].
  rewrite may_apply_rest by auto.
  assert (M : may_apply tail rest = true) by
    (destruct R as [[-> [-> _]]|[u [k [-> _]]]]; reflexivity).
  rewrite M.
  rewrite (andthen_to _ (bs ++ bound_all ps vs [], Nil) w2).
  - cbn [fst snd is_null]. rewrite env_of_atom_of_env, T.
    destruct body; [congruence|]. cbn [mk_list]. tauto.
  - intro x. rewrite args_rest by auto.
    rewrite (andthen_to _ vs w2).
    + destruct R as [[-> [-> ->]]|[u [k [-> ->]]]].
      * rewrite Rargs_nil. tauto.
      * rewrite Rargs_sym. tauto.
    + intro y. split; [|intros ->; auto]. intro Y. apply (runs_list_unique c es1 w1); auto.
Qed.

(** C37, C36, C33 *)
Lemma call_scope : forall c t h ps tail d body es1 rest w w1 vs w2 ls rl S,
  Runs c h w (Ret (lam (arg_list ps tail) d body) w1) -> is_tail_call h = false -> body <> [] ->
  Forall linear ps -> NoDup (map fst d) -> increasing c ->
  length es1 = length ps -> runs_list O c es1 w1 (Ret vs w2) ->
  layers ps vs ls -> rest_layer tail rest rl -> scope (ls ++ rl ++ [d; c]) S ->
  (forall o, runs_body O S body Nil w2 o -> quiet o) ->
  forall o, Runs c (Pair t h (arg_list es1 rest)) w o <-> runs_body O S body Nil w2 o.
Proof.
  intros c t h ps tail d body es1 rest w w1 vs w2 ls rl S H T B L N I E RL LS R SC Q o.
  assert (exists bs, (tail = Nil /\ rest = Nil /\ bs = [] \/ exists u k, tail = Sym u k /\ bs = [(k, rest)])
            /\ forall k, env_get (rev bs) k = lget rl k) as [bs [HB GB]].
  { inversion R; subst.
    - exists []. split; auto.
    - exists [(k, rest)]. split; [right; eauto|]. intro k'. cbn.
      destruct (sym_match k k'); auto. }
  rewrite (call_full c t h ps tail d body es1 rest w w1 vs w2 bs o H T B E RL HB).
  assert (ES : merge (merge c d) (bs ++ bound_all ps vs []) = S).
  { apply (scope_unique (ls ++ rl ++ [d; c])); auto.
    assert (X := merge2_scope c d (bs ++ bound_all ps vs []) I N). apply scope_iff in X.
    apply scope_iff. destruct X as [X1 X2]. split; auto. intro k. rewrite X2.
    cbn [lget]. rewrite rev_app_distr, env_get_app, (bound_all_get ps vs ls LS L). cbn [rev env_get].
    rewrite GB, !lget_app. cbn [lget]. destruct (lget ls k); auto. }
  rewrite Rloop_quiet; rewrite ES; [apply Rprog_list|].
  intros o1 H1. apply Q. apply Rprog_list; auto.
Qed.

End Sem.
