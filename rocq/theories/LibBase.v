(** * LibBase: rules for running library code. *)
From Verif Require Import Base Value ValueSpec ValueProofs Tails Print Eval EvalSpec EvalProofs
  Sem1 Sem2 Sem3 Sem4 Sem5 TailsProofs TailsSem BuiltinSpec Sem6 Cases Lib LibSpec.
Open Scope nat_scope.

Notation sym s := (Symb (sy s)).
Notation "(| a ; .. ; b |)" := (Cons a .. (Cons b Nil) ..).
Notation pars l := (mk_list (names (map sy l))).

(** ** Scopes *)

Lemma apart_get : forall hid c S, apart hid c S <->
  forall k, (forall s, In s hid -> k <> sy s) -> env_get S k = env_get c k.
Proof.
  intros hid c S. split.
  - intros H k N. specialize (H k (env_get c k) N).
    apply env_get_shows. apply H. apply env_get_shows. auto.
  - intros H k r N. specialize (H k N). split; intro X; apply env_get_shows; apply env_get_shows in X; congruence.
Qed.
Lemma apart_refl : forall hid c, apart hid c c.
Proof. intros hid c k r _. tauto. Qed.
Lemma apart_trans : forall hid a b c, apart hid a b -> apart hid b c -> apart hid a c.
Proof. intros hid a b c H1 H2 k r N. rewrite (H2 k r N). apply H1; auto. Qed.
Lemma apart_incl : forall h1 h2 a b, incl h1 h2 -> apart h1 a b -> apart h2 a b.
Proof. intros h1 h2 a b I H k r N. apply H. intros s X. apply N, I; auto. Qed.

Definition clear_of (hid names : list string) : bool :=
  forallb (fun s => forallb (fun h => negb (sym_match (sy s) (sy h))) hid) names.
Lemma clear_not : forall hid names s h, clear_of hid names = true -> In s names -> In h hid -> sy s <> sy h.
Proof.
  intros hid names s h C I J E. unfold clear_of in C. rewrite forallb_forall in C.
  specialize (C s I). rewrite forallb_forall in C. specialize (C h J).
  rewrite E, sym_match_refl in C. discriminate.
Qed.
Lemma means_get : forall c w k v, env_get c k = Some v -> means c w k v.
Proof. intros. apply means_local, env_get_shows; auto. Qed.
Lemma means_same : forall c S w k v, env_get S k = env_get c k -> means c w k v -> means S w k v.
Proof.
  intros c S w k v E H. apply means_lookup. apply means_lookup in H. unfold lookup in *. rewrite E. auto.
Qed.
Lemma ready_apart : forall hid c S w, apart hid c S -> clear_of hid (used ++ given) = true ->
  ready c w -> ready S w.
Proof.
  intros hid c S w A C R s I. eapply means_same; [|apply R; auto].
  rewrite apart_get in A. apply A. intros h J. eapply clear_not; eauto.
Qed.

(** The scope of a call: parameters over the definition scope over the caller's. *)
Definition inside (hs : list string) (vs : list atom) (d S S' : env) : Prop :=
  increasing S' /\ forall k, env_get S' k = lget [combine (map sy hs) vs; d; S] k.

Lemma combine_none : forall hs vs k, (forall s, In s hs -> k <> sy s) -> env_get (combine (map sy hs) vs) k = None.
Proof.
  induction hs as [|h hs IH]; intros [|v vs] k N; cbn [map combine env_get]; auto.
  destruct (sym_match (sy h) k) eqn:E.
  - apply sym_match_eq in E. exfalso. apply (N h); cbn; auto.
  - apply IH. intros s I. apply N; cbn; auto.
Qed.
Lemma inside_apart : forall hs vs S S', inside hs vs [] S S' -> apart hs S S'.
Proof.
  intros hs vs S S' [_ G]. apply apart_get. intros k N. rewrite G. cbn [lget].
  rewrite combine_none by auto. cbn. destruct (env_get S k); auto.
Qed.
Lemma inside_arg : forall hs vs d S S' w k v, inside hs vs d S S' ->
  env_get (combine (map sy hs) vs) k = Some v -> means S' w k v.
Proof. intros hs vs d S S' w k v [_ G] E. apply means_get. rewrite G. cbn [lget]. rewrite E. auto. Qed.
Lemma inside_cap : forall hs vs d S S' w k v, inside hs vs d S S' ->
  env_get (combine (map sy hs) vs) k = None -> env_get d k = Some v -> means S' w k v.
Proof. intros hs vs d S S' w k v [_ G] E E'. apply means_get. rewrite G. cbn [lget]. rewrite E, E'. auto. Qed.
Lemma inside_ready : forall hs vs d S S' w, inside hs vs d S S' -> clear_of hs (used ++ given) = true ->
  ready d w -> ready S w -> ready S' w.
Proof.
  intros hs vs d S S' w [_ G] C Rd RS s I.
  assert (E : env_get (combine (map sy hs) vs) (sy s) = None).
  { apply combine_none. intros h J. eapply clear_not; eauto. }
  specialize (G (sy s)). cbn [lget] in G. rewrite E in G.
  destruct (env_get d (sy s)) as [v|] eqn:D.
  - eapply means_same; [|apply (Rd s I)]. congruence.
  - eapply means_same; [|apply (RS s I)]. rewrite G. destruct (env_get S (sy s)); auto.
Qed.
Lemma inside_ready0 : forall hs vs S S' w, inside hs vs [] S S' -> clear_of hs (used ++ given) = true ->
  ready S w -> ready S' w.
Proof. intros. eapply ready_apart; eauto. eapply inside_apart; eauto. Qed.

(** Other names, likewise. *)
Lemma means_apart : forall hid c S w s v, apart hid c S -> clear_of hid [s] = true -> means c w (sy s) v -> means S w (sy s) v.
Proof.
  intros hid c S w s v A C M. eapply means_same; [|exact M].
  rewrite apart_get in A. apply A. intros h J. eapply clear_not; eauto. cbn; auto.
Qed.
Lemma inside_means : forall hs vs d S S' w s v, inside hs vs d S S' -> clear_of hs [s] = true ->
  means d w (sy s) v -> means S w (sy s) v -> means S' w (sy s) v.
Proof.
  intros hs vs d S S' w s v [_ G] C Md MS.
  assert (E : env_get (combine (map sy hs) vs) (sy s) = None).
  { apply combine_none. intros h J. eapply clear_not; eauto. cbn; auto. }
  specialize (G (sy s)). cbn [lget] in G. rewrite E in G.
  destruct (env_get d (sy s)) as [u|] eqn:D.
  - eapply means_same; [|exact Md]. congruence.
  - eapply means_same; [|exact MS]. rewrite G. destruct (env_get S (sy s)); auto.
Qed.
Lemma inside_means0 : forall hs vs S S' w s v, inside hs vs [] S S' -> clear_of hs [s] = true ->
  means S w (sy s) v -> means S' w (sy s) v.
Proof. intros. eapply means_apart; eauto. eapply inside_apart; eauto. Qed.

Section Base.
Variable O : oracle.
Notation Runs := (runs O).

(** ** Expressions *)

Lemma f_sym : forall S t k w v, means S w k v -> Runs S (Sym t k) w (Ret v w).
Proof. intros. apply symbol_runs. eauto. Qed.
Definition self (x : atom) : bool := match x with Pair _ _ _ | Sym _ _ => false | _ => true end.
Lemma f_const : forall S x w, self x = true -> Runs S x w (Ret x w).
Proof. intros S x w H. destruct x; try discriminate; apply runs_eval with (n := 1); try reflexivity; discriminate. Qed.

Lemma lib_the : forall s, In s used -> lib s = the s.
Proof. intros s H. repeat (destruct H as [<-|H]; [vm_compute; reflexivity|]). destruct H. Qed.
Lemma ready_calls : forall S w s, ready S w -> In s used -> calls S w s.
Proof. intros S w s R I. unfold calls. rewrite <- lib_the by auto. apply R. apply in_or_app; auto. Qed.
Lemma ready_means : forall S w s, ready S w -> In s given -> means S w (sy s) (lib s).
Proof. intros S w s R I. apply R. apply in_or_app; auto. Qed.

Ltac known := apply ready_calls; [assumption|cbn; tauto].

Lemma f_if : forall S t u t1 e rem w v w1 o, ready S w -> Runs S e w (Ret v w1) ->
  Runs S (if is_null v then car (cdr rem) else car rem) w1 o ->
  Runs S (Pair t (Sym u (sy "if")) (Pair t1 e rem)) w o.
Proof.
  intros S t u t1 e rem w v w1 o R H X.
  apply if_call; [known|]. left. exists v, w1. split; auto.
Qed.
Lemma f_when : forall S t t1 e body w v w1 o, ready S w -> Runs S e w (Ret v w1) ->
  (if is_null v then o = Ret Nil w1 else runs_body O S body Nil w1 o) ->
  Runs S (Pair t (sym "when") (Pair t1 e (mk_list body))) w o.
Proof.
  intros S t t1 e body w v w1 o R H X.
  apply when_runs; [known|]. left. exists v, w1. split; auto.
Qed.

Definition val1 (s : string) (v : atom) : atom :=
  if String.eqb s "nil?" then truth (is_null v)
  else if String.eqb s "not" then truth (is_null v)
  else if String.eqb s "lst?" then truth (is_list v)
  else if String.eqb s "car" then car v
  else cdr v.
Lemma f_one : forall s S t u t1 e w v w1, In s ["nil?"; "not"; "lst?"; "car"; "cdr"]%string -> ready S w ->
  Runs S e w (Ret v w1) -> Runs S (Pair t (Sym u (sy s)) (Pair t1 e Nil)) w (Ret (val1 s v) w1).
Proof.
  intros s S t u t1 e w v w1 H R E.
  destruct H as [<-|[<-|[<-|[<-|[<-|[]]]]]];
    [apply (one_ret O "nil?" 13%Z Pnil) with (f := val1 "nil?") | apply (one_ret O "not" 35%Z Pnot) with (f := val1 "not")
    | apply (one_ret O "lst?" 12%Z Plst) with (f := val1 "lst?") | apply (one_ret O "car" 1%Z Pcar) with (f := val1 "car")
    | apply (one_ret O "cdr" 2%Z Pcdr) with (f := val1 "cdr")]; try reflexivity; try known;
  left; exists v, w1; auto.
Qed.
Definition val2 (s : string) (v1 v2 : atom) : atom :=
  if String.eqb s "cons" then Cons v1 v2
  else if String.eqb s "and" then truth (negb (is_null v1) && negb (is_null v2))
  else truth (equ v1 v2).
Lemma f_two : forall s S t u t1 e1 t2 e2 w v1 w1 v2 w2, In s ["cons"; "and"; "="]%string -> ready S w ->
  Runs S e1 w (Ret v1 w1) -> Runs S e2 w1 (Ret v2 w2) ->
  Runs S (Pair t (Sym u (sy s)) (Pair t1 e1 (Pair t2 e2 Nil))) w (Ret (val2 s v1 v2) w2).
Proof.
  intros s S t u t1 e1 t2 e2 w v1 w1 v2 w2 H R E1 E2.
  destruct H as [<-|[<-|[<-|[]]]];
    [apply (prim2_runs O "cons" 6%Z Pcons) | apply (prim2_runs O "and" 33%Z Pand)
    | apply (prim2_runs O "=" 36%Z Pequ)]; try reflexivity; try known;
  left; exists v1, w1; split; auto; left; exists v2, w2; split; auto; cbn [prim2]; apply conv_ret; reflexivity.
Qed.
Lemma f_or : forall S t u t1 e1 t2 e2 w v1 w1 v w2, ready S w -> Runs S e1 w (Ret v1 w1) ->
  (if is_null v1 then exists v2, Runs S e2 w1 (Ret v2 w2) /\ v = truth (negb (is_null v2))
   else v = Tru /\ w2 = w1) ->
  Runs S (Pair t (Sym u (sy "or")) (Pair t1 e1 (Pair t2 e2 Nil))) w (Ret v w2).
Proof.
  intros S t u t1 e1 t2 e2 w v1 w1 v w2 R E1 H. apply or_runs; [known|].
  left. exists v1, w1. split; auto. destruct (is_null v1) eqn:N.
  - right. split; [destruct v1; auto; discriminate|]. destruct H as [v2 [E2 ->]].
    left. exists v2, w2. split; auto. exists (truth (negb (is_null v2))). split; auto.
    unfold answer. destruct v2; cbn; ((left; split; [discriminate|auto]) || (right; split; [congruence|auto])).
  - left. destruct H as [-> ->]. split; auto. intros ->. discriminate.
Qed.
Lemma f_lambda : forall S t args body w, ready S w ->
  Runs S (Pair t (sym "\") (Cons args (mk_list body))) w (Ret (lam args S body) w).
Proof. intros S t args body w R. apply lambda_runs; [known|auto]. Qed.
Lemma f_quote : forall S t x w, ready S w -> Runs S (Pair t (sym "quote") x) w (Ret x w).
Proof. intros S t x w R. apply quote_runs; [known|auto]. Qed.
Lemma f_list : forall S l w vs w1, runs_list O S l w (Ret vs w1) -> runs_list O S l w (Ret vs w1).
Proof. auto. Qed.
(** A literal string evaluates to itself. *)
Lemma f_text : forall S t z d w, Runs S (Pair t (Chr z) d) w (Ret (Cons (Chr z) d) w).
Proof.
  intros S t z d w. apply runs_pair. left. exists (Chr z), w. split; [apply f_const; auto|].
  cbn [is_func is_pair]. assert (E : equ (Chr z) (Chr z) = true) by (apply equ_same; constructor).
  rewrite E. reflexivity.
Qed.

Lemma body_one : forall S x w v w', Runs S x w (Ret v w') -> runs_body O S [x] Nil w (Ret v w').
Proof. intros. econstructor; eauto. constructor. Qed.
Lemma list1 : forall S e w v w', Runs S e w (Ret v w') -> runs_list O S [e] w (Ret [v] w').
Proof. intros. econstructor; eauto. constructor. Qed.
Lemma list2 : forall S e1 e2 w v1 w1 v2 w2, Runs S e1 w (Ret v1 w1) -> Runs S e2 w1 (Ret v2 w2) ->
  runs_list O S [e1; e2] w (Ret [v1; v2] w2).
Proof. intros. econstructor; eauto. apply list1; auto. Qed.
Lemma list3 : forall S e1 e2 e3 w v1 w1 v2 w2 v3 w3, Runs S e1 w (Ret v1 w1) -> Runs S e2 w1 (Ret v2 w2) ->
  Runs S e3 w2 (Ret v3 w3) -> runs_list O S [e1; e2; e3] w (Ret [v1; v2; v3] w3).
Proof. intros. econstructor; eauto. apply list2 with w2; auto. Qed.

(** ** Calls of functions *)

Lemma layers_names : forall hs vs, length vs = length hs ->
  layers (names (map sy hs)) vs (map (fun p => [p]) (combine (map sy hs) vs)).
Proof. intros. apply names_layers. rewrite map_length. auto. Qed.
Lemma lget_single : forall (b : env) r k, lget (map (fun p => [p]) b ++ r) k =
  match env_get b k with Some v => Some v | None => lget r k end.
Proof.
  induction b as [|[k0 v] b IH]; intros r k; cbn [map app lget env_get]; auto.
  destruct (sym_match k0 k); auto.
Qed.

Lemma apply_fun : forall S hs d body vs w v w', increasing S -> NoDup (map fst d) -> body <> [] ->
  length vs = length hs -> is_tail_call v = false ->
  (forall S', inside hs vs d S S' -> runs_body O S' body Nil w (Ret v w')) ->
  applied O S (lam (pars hs) d body) vs w (Ret v w').
Proof.
  intros S hs d body vs w v w' I N B L Q H h t es w0 M A.
  destruct (scope_exists (map (fun p => [p]) (combine (map sy hs) vs) ++ [] ++ [d; S])) as [S' SC].
  assert (IN : inside hs vs d S S').
  { apply scope_iff in SC. destruct SC as [I' G]. split; auto. intro k. rewrite G, lget_single.
    cbn [app lget]. auto. }
  specialize (H S' IN). rewrite !mk_arg_list in *.
  assert (LE : length es = length (names (map sy hs))).
  { apply runs_list_len in A. unfold names. rewrite !map_length. congruence. }
  apply (call_scope O S t (Symb h) (names (map sy hs)) Nil d body es Nil w0 w0 vs w
    (map (fun p => [p]) (combine (map sy hs) vs)) [] S'); auto.
  - apply f_sym; auto.
  - apply linear_names.
  - apply layers_names; auto.
  - constructor.
  - intros o X. rewrite <- Rprog_list in X, H.
    assert (E := conv_unique _ o (Ret v w') (prog_monof O S' (mk_list body) Nil w) X H). subst o. exact Q.
Qed.
Lemma apply_fun0 : forall S hs x vs w v w', increasing S -> length vs = length hs -> is_tail_call v = false ->
  (forall S', inside hs vs [] S S' -> Runs S' x w (Ret v w')) ->
  applied O S (lam (pars hs) [] [x]) vs w (Ret v w').
Proof.
  intros. apply apply_fun; auto; [constructor|discriminate|]. intros. apply body_one; auto.
Qed.

(** ** The loop of a function that calls itself in tail position *)

Definition turns (S d : env) (f : symbol) (hs : list string) (body : list atom) (vs : list atom) (w : world)
  (v : atom) (w' : world) : Prop :=
  Rloop O (merge S d) (Symb f) (mk_list body) (bound_all (names (map sy hs)) vs []) w (Ret v w').

Definition again (f : symbol) (hs : list string) (vs : list atom) : atom :=
  Pair true (Sym true f) (atom_of_env (bound_all (names (map sy hs)) vs [])).

Lemma turn_scope : forall S d hs vs, increasing S -> NoDup (map fst d) -> length vs = length hs ->
  inside hs vs d S (merge (merge S d) (bound_all (names (map sy hs)) vs [])).
Proof.
  intros S d hs vs I N L.
  assert (X := merge2_scope S d (bound_all (names (map sy hs)) vs []) I N).
  apply scope_iff in X. destruct X as [X1 X2]. split; auto. intro k. rewrite X2. cbn [lget].
  rewrite (bound_all_get _ _ _ (layers_names hs vs L) (linear_names _)).
  assert (E := lget_single (combine (map sy hs) vs) [] k). rewrite app_nil_r in E. rewrite E.
  cbn [lget]. destruct (env_get (combine (map sy hs) vs) k); auto.
Qed.
Lemma turn_done : forall S d f hs body vs w v w', increasing S -> NoDup (map fst d) -> length vs = length hs ->
  is_tail_call v = false ->
  (forall S', inside hs vs d S S' -> runs_body O S' body Nil w (Ret v w')) ->
  turns S d f hs body vs w v w'.
Proof.
  intros S d f hs body vs w v w' I N L Q H. unfold turns. apply Rloop_eq. left. exists v, w'. split.
  - apply Rprog_list. apply H. apply turn_scope; auto.
  - destruct v as [ | | | | |[] ?|[] ? ?]; cbn in Q |- *; auto; discriminate.
Qed.
Lemma turn_next : forall S d f hs body vs w vs' w1 v w', increasing S -> NoDup (map fst d) -> length vs = length hs ->
  (forall S', inside hs vs d S S' -> runs_body O S' body Nil w (Ret (again f hs vs') w1)) ->
  turns S d f hs body vs' w1 v w' -> turns S d f hs body vs w v w'.
Proof.
  intros S d f hs body vs w vs' w1 v w' I N L H T. unfold turns. apply Rloop_eq. left.
  exists (again f hs vs'), w1. split.
  - apply Rprog_list. apply H. apply turn_scope; auto.
  - unfold again. cbn [self_call]. rewrite sym_match_refl, env_of_atom_of_env. exact T.
Qed.
Lemma turns_answer : forall S d f hs body vs w v w', body <> [] -> length vs = length hs ->
  turns S d f hs body vs w v w' -> answers O S f (lam (pars hs) d body) vs w (Ret v w').
Proof.
  intros S d f hs body vs w v w' B L T t es w0 M A. rewrite !mk_arg_list in *.
  assert (LE : length es = length (names (map sy hs))).
  { apply runs_list_len in A. unfold names. rewrite !map_length. congruence. }
  apply (call_full O S t (Symb f) (names (map sy hs)) Nil d body es Nil w0 w0 vs w []); auto.
  apply f_sym; auto.
Qed.
(** The marked call. *)
Lemma marked_call : forall S t d f hs body es w vs w1, body <> [] -> length vs = length hs ->
  means S w f (lam (pars hs) d body) -> runs_list O S es w (Ret vs w1) ->
  Runs S (Pair t (Sym true f) (mk_list es)) w (Ret (again f hs vs) w1).
Proof.
  intros S t d f hs body es w vs w1 B L M A.
  assert (LE : length es = length (names (map sy hs))).
  { apply runs_list_len in A. unfold names. rewrite !map_length. congruence. }
  rewrite mk_arg_list in M. rewrite mk_arg_list.
  rewrite (runs_head O _ _ _ _ _ _ _ _ M) by (apply lam_func; auto).
  rewrite Rfunc_eq. unfold lam. cbn [car cdr]. rewrite may_apply_rest by auto. cbn [may_apply is_null].
  left. exists (bound_all (names (map sy hs)) vs [], Nil), w1. split.
  - apply args_rest; auto. left. exists vs, w1. split; auto. apply Rargs_nil. reflexivity.
  - cbn [fst snd is_null is_tail_call]. rewrite env_of_atom_of_env. destruct body; [congruence|]. cbn [mk_list]. reflexivity.
Qed.
End Base.

Ltac known := apply ready_calls; [assumption|cbn; tauto].
