(** * HostRun: scripts. *)
From Verif Require Import Value ValueSpec ValueProofs Lexer LexerSpec LexerProofs ReadSpec Parser ParserProofs ReadProofs EvalSpec Sem5.
From Verif Require Import Path Load HostSpec HostProofs.
From Verif Require Eval.
Open Scope nat_scope.

(** ** Reading leaves the state to read-time evaluation *)
Section Reading.
Variable W : Type.
Variable ev : atom -> W -> option (atom * W).
Variable R : W -> W -> Prop.
Hypothesis Rr : forall w, R w w.
Hypothesis Rt : forall a b c, R a b -> R b c -> R a c.
Hypothesis Rev : forall a w v w', ev a w = Some (v, w') -> R w w'.

Lemma prefix_done_R : forall a st w st' w', prefix_done W ev a st w = Some (st', w') -> R w w'.
Proof.
  intros a st w st' w' E. unfold prefix_done in E.
  repeat match type of E with context [match ?x with _ => _ end] => destruct x eqn:? end; try discriminate; injection E as <- <-; eauto.
Qed.
Lemma item_done_R : forall a st w st' w', item_done W ev a st w = Some (st', w') -> R w w'.
Proof.
  intros a st w st' w' E. unfold item_done in E. destruct st as [|[] st]; try (eapply prefix_done_R; exact E).
  destruct (ev a w) as [(v, w1)|] eqn:Q; [|discriminate]. eapply Rt; [eapply Rev; eauto|eapply prefix_done_R; exact E].
Qed.
Lemma feed_R : forall t st w st' w', feed W ev t st w = Some (st', w') -> R w w'.
Proof.
  intros t st w st' w' E. unfold feed in E. destruct (item_of t).
  - destruct (item_here st); [eapply item_done_R; exact E|injection E as <- <-; auto].
  - destruct t; try (injection E as <- <-; auto; fail);
      (destruct st as [|[] [|[] [|[] [|[] st]]]]; try (injection E as <- <-; auto; fail); eapply item_done_R; exact E).
Qed.
Lemma push_R : forall t l l', push_tok W ev t l = Some l' -> R (env_w l) (env_w l').
Proof.
  intros t l l' E. unfold push_tok in E. destruct (feed W ev t (stack l) (env_w l)) as [(st, w)|] eqn:F; [|discriminate].
  injection E as <-. eapply feed_R; exact F.
Qed.
Lemma consume_w : forall l : lstate W, env_w (consume l) = env_w l.
Proof. intro l; unfold consume; destruct (depth l); reflexivity. Qed.
Lemma value_R : forall t l l', value_tok W ev t l = Some l' -> R (env_w l) (env_w l').
Proof.
  intros t l l' E. unfold value_tok in E. destruct (push_tok W ev t l) as [l1|] eqn:P; [|discriminate].
  injection E as <-. rewrite consume_w. eapply push_R; eauto.
Qed.
Lemma open_R : forall l l', open_tok W ev l = Some l' -> R (env_w l) (env_w l').
Proof.
  intros l l' E. unfold open_tok in E. destruct (push_tok W ev POPEN l) as [l1|] eqn:P; [|discriminate].
  injection E as <-. apply push_R in P. exact P.
Qed.
Lemma act_R : forall k s l l', act W ev k s l = Some (Some l') -> R (env_w l) (env_w l').
Proof.
  intros k s l l' E.
  assert (Om : forall o, option_map Some o = Some (Some l') -> o = Some l') by (intros [x|] X; [injection X as ->; reflexivity|discriminate X]).
  destruct k; cbn [act] in E; cbv beta zeta in E;
    try (apply Om in E; solve [eapply value_R; exact E|eapply open_R; exact E|eapply push_R; exact E]).
  - destruct (depth l); [discriminate|]. destruct (push_tok W ev PCLOSE l) as [l1|] eqn:P; [|discriminate].
    injection E as <-. rewrite consume_w. cbn [env_w]. eapply push_R; exact P.
  - destruct (push_tok W ev (prefix_terminal p) l) as [l1|] eqn:P; [|discriminate]. apply Om in E.
    eapply Rt; [eapply push_R; exact P|eapply open_R; exact E].
  - destruct (push_tok W ev (prefix_terminal p) l) as [l1|] eqn:P; [|discriminate]. apply Om in E.
    eapply Rt; [eapply push_R; exact P|eapply value_R; exact E].
  - destruct (push_tok W ev (prefix_terminal p) l) as [l1|] eqn:P; [|discriminate]. apply Om in E.
    eapply Rt; [eapply push_R; exact P|eapply value_R; exact E].
  - injection E as <-; auto.
  - injection E as <-; auto.
Qed.
Lemma lex_R : forall f s l l' e, lex W ev f s l = Some (l', e) -> R (env_w l) (env_w l').
Proof.
  induction f as [|f IH]; intros s l l' e E.
  - destruct s; [injection E as <- <-; auto|discriminate].
  - destruct s as [|c s]; [injection E as <- <-; auto|]. cbn [lex] in E. destruct (scan_token (c :: s)) as [k n| |].
    + destruct (act W ev k (firstn n (c :: s)) l) as [[l1|]|] eqn:A; [|injection E as <- <-; auto|discriminate].
      eapply Rt; [eapply act_R; exact A|eapply IH; exact E].
    + injection E as <- <-; auto.
    + injection E as <- <-; auto.
Qed.
Definition read_w (r : read_result W) : option W :=
  match r with Value _ _ _ _ w => Some w | Eof _ w => Some w | _ => None end.
Lemma read_loop_R : forall f kept stream l w', read_w (read_loop W ev f kept stream l) = Some w' -> R (env_w l) w'.
Proof.
  induction f as [|f IH]; intros kept stream l w' E; [discriminate|].
  rewrite read_loop_S in E. cbv zeta in E.
  assert (Fin : forall st (l1 : lstate W), read_w (match got l1 with [] => Eof W (env_w l1) | a :: r => Value W a r st (env_w l1) end) = Some w' ->
     env_w l1 = w') by (intros st l1 X; destruct (got l1); injection X; auto).
  destruct (fgets (RBUFLEN - length kept) stream) as [(line, stream')|].
  - destruct (lexer_parse W ev (kept ++ cstr line) l) as [(l', e)|] eqn:P; [|discriminate].
    apply lex_R in P. destruct e as [|k|].
    + destruct (got l') eqn:G; [eapply Rt; [exact P|eapply IH; exact E]|].
      destruct (depth l'); [|eapply Rt; [exact P|eapply IH; exact E]]. cbn in E. injection E as <-. exact P.
    + eapply Rt; [exact P|eapply IH; exact E].
    + discriminate.
  - apply Fin in E. subst; auto.
Qed.
Lemma lisp_read_R : forall f vals stream w w', read_w (lisp_read W ev f vals stream w) = Some w' -> R w w'.
Proof.
  intros f vals stream w w' E. destruct vals as [|a r].
  - apply read_loop_R in E. exact E.
  - injection E as <-; auto.
Qed.
End Reading.

(** ** What a top-level expression leaves as it was *)
Section Run.
Variable H : host.
Variable D : disk.
Variable O : oracle.

Lemma ext_refl : forall s, ext H D s s.
Proof. intro s; split; [apply extends_refl|]. split; auto. split; [exists []; reflexivity|auto]. Qed.
Lemma ext_trans : forall a b c, ext H D a b -> ext H D b c -> ext H D a c.
Proof.
  intros a b c (E1 & D1 & (m1 & M1) & Q1 & C1) (E2 & D2 & (m2 & M2) & Q2 & C2).
  split; [eapply extends_trans; eauto|]. split; [congruence|]. split; [exists (m2 ++ m1); rewrite M2, M1, app_assoc; reflexivity|]. auto.
Qed.
Lemma ext_w : forall s w, extends (wd s) w -> ext H D s (with_w s w).
Proof. intros s w E; split; auto. split; auto. split; [exists []; reflexivity|auto]. Qed.

Lemma at_read_extends : forall n a w v w', at_read O n a w = Some (v, w') -> extends w w'.
Proof.
  intros n a w v w' E. unfold at_read in E. destruct (Eval.eval O n [] a w) as [v1 w1|e|] eqn:X; try discriminate.
  injection E as <- <-. eapply eval_keeps; exact X.
Qed.
Lemma read_extends : forall n k vals stream w w',
  read_w Eval.world (lisp_read Eval.world (at_read O n) k vals stream w) = Some w' -> extends w w'.
Proof.
  intros n k vals stream w w' E. eapply (lisp_read_R Eval.world (at_read O n) extends); [apply extends_refl|apply extends_trans| |exact E].
  apply at_read_extends.
Qed.
Lemma eval_top_ext : forall n x s v s', eval_top O n x s = Got v s' -> ext H D s s'.
Proof.
  intros n x s v s' E. unfold eval_top in E. destruct (Eval.eval O n [] x (wd s)) as [v1 w1|e|] eqn:X; try discriminate.
  injection E as <- <-. apply ext_w. eapply eval_keeps; exact X.
Qed.

Lemma bind_extends : forall e w, extends w (bind_entry e w).
Proof.
  intros e w. unfold extends, bind_entry; cbn. split; [eexists [_]; reflexivity|]. split; auto. split; auto. split; [lia|].
  exists []. split; auto. intros ? ? [].
Qed.
Lemma load_list_extends : forall es c w, extends w (snd (load_list es c w)).
Proof.
  intros es c. induction c as [ | | | | | |t a IHa d IHd]; intros w; cbn [load_list snd]; try apply extends_refl.
  specialize (IHd w). destruct (load_list es d w) as (nxt, w1). cbn [snd] in IHd.
  destruct a; try exact IHd. match goal with |- context [find ?f es] => destruct (find f es) as [e|] end; [|exact IHd].
  cbn [snd]. eapply extends_trans; [exact IHd|apply bind_extends].
Qed.
Lemma load_symbols_extends : forall es c w, extends w (snd (load_symbols es c w)).
Proof.
  intros es c w. unfold load_symbols. destruct c; try apply load_list_extends.
  induction es as [|e es IH]; cbn [fold_right snd]; [apply extends_refl|]. eapply extends_trans; [exact IH|apply bind_extends].
Qed.
Lemma module_load_ext : forall c s v s', module_load H D c s = Got v s' -> ext H D s s'.
Proof.
  intros c s v s' E. unfold module_load in E. destruct (Value.car c) as [ | | | | |t0 m|]; try (injection E as <- <-; apply ext_refl).
  destruct (module_paths H D) as [paths|] eqn:P; [|discriminate].
  destruct (find_in D (tokens paths) (sym_text m)) as [path|] eqn:F; [|injection E as <- <-; apply ext_refl].
  pose proof (find_found _ _ _ _ _ P F) as Fo. destruct (fits path); [|discriminate].
  destruct (load_binary D path m (Value.cdr c) s) as (v1, s1) eqn:L. injection E as <- <-.
  unfold load_binary in L. cbv beta zeta in L.
  assert (Go : forall es (add : bool), (add = true -> forall q, found H D m q -> binary D q = Some (sym_text m, es)) ->
    (let (syms, w') := load_symbols es (Value.cdr c) (wd s) in
     match syms with Nil => (Nil, with_w s w') | _ => (syms, mkst w' (dirs s) (if add then (m, es) :: mods s else mods s) (quits s)) end) = (v1, s1) ->
    ext H D s s1).
  { intros es add Ad X. pose proof (load_symbols_extends es (Value.cdr c) (wd s)) as Ex.
    destruct (load_symbols es (Value.cdr c) (wd s)) as (syms, w'). cbn [snd] in Ex.
    assert (Y : ext H D s (mkst w' (dirs s) (if add then (m, es) :: mods s else mods s) (quits s))).
    { split; auto. split; auto. cbn [mods quits]. split; [destruct add; [exists [(m, es)]|exists []]; reflexivity|]. split; auto.
      intro Co. unfold coherent; cbn [mods]. destruct add; [|exact Co]. intros m' es' [I|I]; [|apply Co; auto]. injection I as <- <-. auto. }
    destruct syms; injection X as <- <-; auto. apply ext_w; auto. }
  match type of L with context [find ?f (mods s)] => destruct (find f (mods s)) as [(m', es)|] eqn:Fm end.
  - apply (Go es false); [discriminate|exact L].
  - destruct (open_at D path (sym_text m)) as [es|] eqn:Op; [|injection L as <- <-; apply ext_refl].
    apply (Go es true); [|exact L]. intros _ q Q. rewrite (found_unique _ _ _ _ _ Q Fo).
    unfold open_at in Op. destruct (binary D path) as [(n, es')|]; [|discriminate].
    destruct (beq n (sym_text m)) eqn:B; [|discriminate]. apply beq_eq in B. injection Op as ->. rewrite B; reflexivity.
Qed.

Section Rec.
Variable run : atom -> st -> res atom.
Hypothesis Run : forall x s v s', run x s = Got v s' -> ext H D s s'.
Variable n : nat.

Lemma load_loop_ext : forall k vals stream last s v s', load_loop O run n k vals stream last s = Got v s' -> ext H D s s'.
Proof.
  induction k as [|k IH]; intros vals stream last s v s' E; [discriminate|]. cbn [load_loop] in E.
  destruct (lisp_read Eval.world (at_read O n) (S (length stream)) vals stream (wd s)) as [x more rest w1|w1| | |] eqn:L; try discriminate.
  - assert (X : extends (wd s) w1) by (eapply read_extends; rewrite L; reflexivity).
    unfold andthen_ in E. destruct (run x (with_w s w1)) as [v2 s2| | |] eqn:Rx; try discriminate.
    eapply ext_trans; [apply ext_w; exact X|]. eapply ext_trans; [eapply Run; exact Rx|]. eapply IH; exact E.
  - injection E as <- <-. apply ext_w. eapply read_extends; rewrite L; reflexivity.
Qed.
Lemma push_pop : forall d s s1, ext H D (push_dir d s) s1 -> ext H D s (pop_dir s1).
Proof.
  intros d s s1 (E & Di & M & Q & C). unfold extends, push_dir, pop_dir in *. cbn in *.
  destruct E as (G & I & Oc & Op & l & L & X).
  split; [|split; [cbn; rewrite Di; reflexivity|split; [exact M|split; [exact Q|exact C]]]].
  split; [exact G|]. cbn. rewrite I. split; auto. split; auto. split; [lia|].
  exists l. split; auto. intros h b J. destruct (X h b J) as [Y|Y]; [auto|right; lia].
Qed.
Lemma load_file_ext : forall name s v s', load_file H D O run n name s = Got v s' -> ext H D s s'.
Proof.
  intros name s v s' E. unfold load_file in E.
  destruct (match dirs s with [] => pwd H | d :: _ => Some (cstr (cstring_bytes PATH_MAX d)) end) as [cwd|]; [|discriminate].
  destruct (fits cwd) as [cwd'|]; [|discriminate].
  destruct (get_fullpath H _ cwd' name) as [p| |]; try discriminate; [|injection E as <- <-; apply ext_refl].
  destruct (content D p) as [text|]; [|injection E as <- <-; apply ext_refl].
  unfold andthen_ in E. destruct (load_loop O run n (S (length text)) [] text Nil (push_dir (dirname p) s)) as [v1 s1| | |] eqn:L; try discriminate.
  injection E as <- <-. apply load_loop_ext in L. eapply push_pop; exact L.
Qed.
Lemma load_one_ext : forall v s r s', load_one H D O run n v s = Got r s' -> ext H D s s'.
Proof.
  intros v s r s' E. destruct v; cbn [load_one] in E; try (injection E as <- <-; apply ext_refl).
  - eapply module_load_ext; exact E.
  - match type of E with (if ?b then _ else _) = _ => destruct b end; [eapply load_file_ext; exact E|eapply module_load_ext; exact E].
Qed.
Lemma load_args_ext : forall args s v s', load_args H D O run n args s = Got v s' -> ext H D s s'.
Proof.
  intros args. induction args as [ | | |z|z|fl k|t a IHa d IHd]; intros s v s' E; cbn [load_args] in E; try (injection E as <- <-; apply ext_refl).
  unfold andthen_ in E. destruct (eval_top O n a s) as [v1 s1| | |] eqn:E1; try discriminate.
  destruct (load_one H D O run n v1 s1) as [r2 s2| | |] eqn:E2; try discriminate.
  eapply ext_trans; [eapply eval_top_ext; exact E1|]. eapply ext_trans; [eapply load_one_ext; exact E2|].
  destruct d; try (eapply IHd; exact E). injection E as <- <-; apply ext_refl.
Qed.
End Rec.

Lemma form_ext : forall n x s v s', form H D O n x s = Got v s' -> ext H D s s'.
Proof.
  induction n as [|n IH]; intros x s v s' E; [discriminate|]. cbn [form] in E. destruct (calls x (wd s)) as [args| |].
  - eapply load_args_ext; [exact IH|exact E].
  - injection E as <- <-. split; [apply extends_refl|]. split; auto. split; [exists []; reflexivity|]. auto.
  - eapply eval_top_ext; exact E.
Qed.
End Run.

(** ** More budget changes nothing *)
Section MoreEv.
Variable W : Type.
Variables ev ev' : atom -> W -> option (atom * W).
Hypothesis More : forall a w r, ev a w = Some r -> ev' a w = Some r.

Lemma prefix_done_more : forall a st w r, prefix_done W ev a st w = Some r -> prefix_done W ev' a st w = Some r.
Proof.
  intros a st w r E. unfold prefix_done in *. destruct st as [|[] st]; auto. destruct st as [|[] st]; auto.
  destruct (ev a w) as [(v, w')|] eqn:Q; [|discriminate]. rewrite (More _ _ _ Q). exact E.
Qed.
Lemma item_done_more : forall a st w r, item_done W ev a st w = Some r -> item_done W ev' a st w = Some r.
Proof.
  intros a st w r E. unfold item_done in *. destruct st as [|[] st]; try (apply prefix_done_more; exact E).
  destruct (ev a w) as [(v, w')|] eqn:Q; [|discriminate]. rewrite (More _ _ _ Q). apply prefix_done_more; exact E.
Qed.
Lemma feed_more : forall t st w r, feed W ev t st w = Some r -> feed W ev' t st w = Some r.
Proof.
  intros t st w r E. unfold feed in *. destruct (item_of t).
  - destruct (item_here st); [apply item_done_more|]; exact E.
  - destruct t; try exact E; (destruct st as [|[] [|[] [|[] [|[] st]]]]; try exact E; apply item_done_more; exact E).
Qed.
Lemma push_more : forall t l r, push_tok W ev t l = Some r -> push_tok W ev' t l = Some r.
Proof.
  intros t l r E. unfold push_tok in *. destruct (feed W ev t (stack l) (env_w l)) as [(st, w)|] eqn:F; [|discriminate].
  rewrite (feed_more _ _ _ _ F). exact E.
Qed.
Lemma value_more : forall t l r, value_tok W ev t l = Some r -> value_tok W ev' t l = Some r.
Proof.
  intros t l r E. unfold value_tok in *. destruct (push_tok W ev t l) as [l1|] eqn:P; [|discriminate].
  rewrite (push_more _ _ _ P). exact E.
Qed.
Lemma open_more : forall l r, open_tok W ev l = Some r -> open_tok W ev' l = Some r.
Proof.
  intros l r E. unfold open_tok in *. destruct (push_tok W ev POPEN l) as [l1|] eqn:P; [|discriminate].
  rewrite (push_more _ _ _ P). exact E.
Qed.
Lemma act_more : forall k s l r, act W ev k s l = Some r -> act W ev' k s l = Some r.
Proof.
  intros k s l r E.
  assert (V : forall t r, option_map Some (value_tok W ev t l) = Some r -> option_map Some (value_tok W ev' t l) = Some r).
  { intros t r0 X. destruct (value_tok W ev t l) as [l1|] eqn:Q; [|discriminate]. rewrite (value_more _ _ _ Q). exact X. }
  destruct k; cbn [act] in *; cbv beta zeta in *; try (apply V; exact E); try exact E.
  - destruct (depth l); [exact E|]. destruct (push_tok W ev PCLOSE l) as [l1|] eqn:P; [|discriminate]. rewrite (push_more _ _ _ P). exact E.
  - destruct (push_tok W ev (prefix_terminal p) l) as [l1|] eqn:P; [|discriminate]. rewrite (push_more _ _ _ P).
    destruct (open_tok W ev l1) as [l2|] eqn:Q; [|discriminate]. rewrite (open_more _ _ Q). exact E.
  - destruct (push_tok W ev (prefix_terminal p) l) as [l1|] eqn:P; [|discriminate]. rewrite (push_more _ _ _ P).
    match type of E with option_map _ ?x = _ => destruct x as [l2|] eqn:Q end; [|discriminate]. rewrite (value_more _ _ _ Q). exact E.
  - destruct (push_tok W ev (prefix_terminal p) l) as [l1|] eqn:P; [|discriminate]. rewrite (push_more _ _ _ P).
    match type of E with option_map _ ?x = _ => destruct x as [l2|] eqn:Q end; [|discriminate]. rewrite (value_more _ _ _ Q). exact E.
Qed.
Lemma lex_more : forall f s l r, lex W ev f s l = Some r -> lex W ev' f s l = Some r.
Proof.
  induction f as [|f IH]; intros s l r E; [destruct s; exact E|]. destruct s as [|c s]; [exact E|]. cbn [lex] in *.
  destruct (scan_token (c :: s)) as [k n| |]; try exact E.
  destruct (act W ev k (firstn n (c :: s)) l) as [[l1|]|] eqn:A; [|rewrite (act_more _ _ _ _ A); exact E|discriminate].
  rewrite (act_more _ _ _ _ A). apply IH; exact E.
Qed.
Lemma read_loop_more : forall f kept stream l w', read_w W (read_loop W ev f kept stream l) = Some w' ->
  read_loop W ev' f kept stream l = read_loop W ev f kept stream l.
Proof.
  induction f as [|f IH]; intros kept stream l w' E; [discriminate|].
  rewrite read_loop_S in *. rewrite (read_loop_S ev f). cbv zeta in *.
  destruct (fgets (RBUFLEN - length kept) stream) as [(line, stream')|]; [|reflexivity].
  destruct (lexer_parse W ev (kept ++ cstr line) l) as [(l', e)|] eqn:P; [|discriminate].
  unfold lexer_parse in *. rewrite (lex_more _ _ _ _ P). destruct e as [|k|].
  - destruct (got l') eqn:G; [eapply IH; exact E|]. destruct (depth l'); [reflexivity|eapply IH; exact E].
  - eapply IH; exact E.
  - reflexivity.
Qed.
Lemma lisp_read_more : forall f vals stream w w', read_w W (lisp_read W ev f vals stream w) = Some w' ->
  lisp_read W ev' f vals stream w = lisp_read W ev f vals stream w.
Proof. intros f vals stream w w' E. destruct vals; [eapply read_loop_more; exact E|reflexivity]. Qed.
End MoreEv.

Section More.
Variable H : host.
Variable D : disk.
Variable O : oracle.

Lemma eval_more : forall n m x w v w', n <= m -> Eval.eval O n [] x w = Eval.Ret v w' -> Eval.eval O m [] x w = Eval.Ret v w'.
Proof. intros n m x w v w' L E. rewrite (EvalProofs.more_budget O n m [] x w L); [exact E|congruence]. Qed.
Lemma eval_top_more : forall n m x s v s', n <= m -> eval_top O n x s = Got v s' -> eval_top O m x s = Got v s'.
Proof.
  intros n m x s v s' L E. unfold eval_top in *. destruct (Eval.eval O n [] x (wd s)) as [v1 w1|e|] eqn:X; try discriminate.
  rewrite (eval_more _ _ _ _ _ _ L X). exact E.
Qed.
Lemma at_read_more : forall n m a w r, n <= m -> at_read O n a w = Some r -> at_read O m a w = Some r.
Proof.
  intros n m a w r L E. unfold at_read in *. destruct (Eval.eval O n [] a w) as [v1 w1|e|] eqn:X; try discriminate.
  rewrite (eval_more _ _ _ _ _ _ L X). exact E.
Qed.

Section Rec.
Variables run run' : atom -> st -> res atom.
Hypothesis Run : forall x s v s', run x s = Got v s' -> run' x s = Got v s'.
Variables n m : nat.
Hypothesis Le : n <= m.
Lemma load_loop_more : forall k vals stream last s v s', load_loop O run n k vals stream last s = Got v s' ->
  load_loop O run' m k vals stream last s = Got v s'.
Proof.
  induction k as [|k IH]; intros vals stream last s v s' E; [discriminate|]. cbn [load_loop] in *.
  assert (L : lisp_read Eval.world (at_read O m) (S (length stream)) vals stream (wd s) = lisp_read Eval.world (at_read O n) (S (length stream)) vals stream (wd s)).
  { destruct (lisp_read Eval.world (at_read O n) (S (length stream)) vals stream (wd s)) as [x more rest w1|w1| | |] eqn:Q; try discriminate;
      rewrite <- Q; apply (lisp_read_more _ (at_read O n) _ (fun a w r => at_read_more n m a w r Le) _ _ _ _ w1); rewrite Q; reflexivity. }
  rewrite L. destruct (lisp_read Eval.world (at_read O n) (S (length stream)) vals stream (wd s)) as [x more rest w1|w1| | |]; try discriminate; [|exact E].
  unfold andthen_ in *. destruct (run x (with_w s w1)) as [v2 s2| | |] eqn:Rx; try discriminate. rewrite (Run _ _ _ _ Rx). apply IH; exact E.
Qed.
Lemma load_file_more : forall name s v s', load_file H D O run n name s = Got v s' -> load_file H D O run' m name s = Got v s'.
Proof.
  intros name s v s' E. unfold load_file in *.
  destruct (match dirs s with [] => pwd H | d :: _ => Some (cstr (cstring_bytes PATH_MAX d)) end) as [cwd|]; [|discriminate].
  destruct (fits cwd) as [cwd'|]; [|discriminate].
  destruct (get_fullpath H _ cwd' name) as [p| |]; try discriminate; [|exact E].
  destruct (content D p) as [text|]; [|exact E].
  unfold andthen_ in *. destruct (load_loop O run n (S (length text)) [] text Nil (push_dir (dirname p) s)) as [v1 s1| | |] eqn:L; try discriminate.
  rewrite (load_loop_more _ _ _ _ _ _ _ L). exact E.
Qed.
Lemma load_args_more : forall args s v s', load_args H D O run n args s = Got v s' -> load_args H D O run' m args s = Got v s'.
Proof.
  intros args. induction args as [ | | |z|z|fl k|t a IHa d IHd]; intros s v s' E; cbn [load_args] in *; try exact E.
  unfold andthen_ in *. destruct (eval_top O n a s) as [v1 s1| | |] eqn:E1; try discriminate. rewrite (eval_top_more _ _ _ _ _ _ Le E1).
  destruct (load_one H D O run n v1 s1) as [r2 s2| | |] eqn:E2; try discriminate.
  assert (E3 : load_one H D O run' m v1 s1 = Got r2 s2).
  { destruct v1; cbn [load_one] in *; try exact E2.
    match type of E2 with (if ?b then _ else _) = _ => destruct b end; [apply load_file_more; exact E2|exact E2]. }
  rewrite E3. destruct d; try exact E; apply IHd; exact E.
Qed.
End Rec.

Lemma form_more : forall n m x s v s', n <= m -> Load.form H D O n x s = Got v s' -> Load.form H D O m x s = Got v s'.
Proof.
  induction n as [|n IH]; intros m x s v s' L E; [discriminate|]. destruct m as [|m]; [lia|]. cbn [Load.form] in *.
  destruct (calls x (wd s)) as [args| |]; [|exact E|eapply eval_top_more; [|exact E]; lia].
  refine (load_args_more (Load.form H D O n) (Load.form H D O m) _ n m _ args s v s' E); [|lia].
  intros y s0 v0 s0' F. apply (IH m); [lia|exact F].
Qed.

(** ** Scripts *)
Definition does (x : atom) (s : st) (v : atom) (s' : st) : Prop := exists n, Load.form H D O n x s = Got v s'.
Definition reads (a : atom) (w : Eval.world) (v : atom) (w' : Eval.world) : Prop := exists n, at_read O n a w = Some (v, w').
Definition reads_in (n : nat) (a : atom) (w : Eval.world) (v : atom) (w' : Eval.world) : Prop := at_read O n a w = Some (v, w').

Lemma form_reads :
  (forall w l v w', ReadSpec.form Eval.world reads w l v w' -> exists N, forall n, N <= n -> ReadSpec.form Eval.world (reads_in n) w l v w') /\
  (forall b w l v w', body Eval.world reads b w l v w' -> exists N, forall n, N <= n -> body Eval.world (reads_in n) b w l v w').
Proof.
  assert (Rd : forall a w v w', reads a w v w' -> exists N, forall n, N <= n -> reads_in n a w v w').
  { intros a w v w' [N E]. exists N. intros n L. eapply at_read_more; eauto. }
  apply form_body_ind.
  - intros; exists 0; intros; apply form_plain; auto.
  - intros w l v w' _ [N IH]. exists N; intros; apply form_list; auto.
  - intros w l v w' _ [N IH]. exists N; intros; apply form_quote_list; auto.
  - intros; exists 0; intros; apply form_quote_symbol; auto.
  - intros; exists 0; intros; apply form_quote_number; auto.
  - intros w l a w1 v w2 _ [N IH] R. destruct (Rd _ _ _ _ R) as [M R']. exists (Nat.max N M). intros n L.
    apply (form_back_list _ _ _ _ a w1); [apply IH; lia|apply R'; lia].
  - intros w nm s v w' Sy Pa R. destruct (Rd _ _ _ _ R) as [M R']. exists M. intros n L. apply (form_back_symbol _ _ _ _ s); auto.
  - intros w t z v w' Nu R. destruct (Rd _ _ _ _ R) as [M R']. exists M. intros n L. apply (form_back_number _ _ _ _ z); auto.
  - intros; exists 0; intros; apply body_close.
  - intros b w t l v w' F _ [N IH]. exists N; intros; apply body_filler; auto.
  - intros b w l1 x w1 l2 d w2 _ [N IH] _ [M IH']. exists (Nat.max N M); intros n L.
    apply (body_item _ _ _ _ _ _ w1); [apply IH; lia|apply IH'; lia].
  - intros w f1 l x f2 w' F1 _ [N IH] F2. exists N; intros; apply body_dot; auto.
  - intros w l1 a w1 xs w2 l2 d w3 _ [N IH] R _ [M IH']. destruct (Rd _ _ _ _ R) as [K R'].
    exists (Nat.max K (Nat.max N M)); intros n L.
    apply (body_splice _ _ _ _ a w1 _ w2); [apply IH; lia|apply R'; lia|apply IH'; lia].
Qed.
Lemma program_reads : forall w l vs w', program Eval.world reads w l vs w' -> exists N, forall n, N <= n -> program Eval.world (reads_in n) w l vs w'.
Proof.
  intros w l vs w' P. induction P as [w | w t l vs w' F _ [N IH] | w l1 v w1 l2 vs w2 F _ [N IH]].
  - exists 0; intros; constructor.
  - exists N; intros; constructor; auto.
  - apply form_reads in F. destruct F as [M F]. exists (Nat.max N M). intros n L. econstructor; [apply F; lia|apply IH; lia].
Qed.

Lemma program_count : forall (R : atom -> Eval.world -> atom -> Eval.world -> Prop) w l vs w', program Eval.world R w l vs w' -> length vs <= length l.
Proof.
  intros R w l vs w' P. induction P as [w | w t l vs w' F _ IH | w l1 v w1 l2 vs w2 F _ IH]; cbn [length]; try lia.
  rewrite app_length. assert (length l1 > 0) by (destruct F; cbn [length]; lia). lia.
Qed.
Lemma splits_count : forall s l e, splits s l e -> length l <= length s.
Proof.
  intros s l e S. induction S as [|s k t r l e N L S IH| |]; cbn [length]; try lia.
  assert (E : s = t ++ r) by (destruct L; tauto).
  rewrite E, app_length. destruct t; [contradiction|]. cbn [length]. lia.
Qed.
Lemma lines_count : forall lines : list (bytes * list (kind * bytes)),
  Forall (fun p => short_line (fst p) /\ splits (fst p ++ [10%N]) (snd p) Done) lines ->
  length (concat (map snd lines)) <= length (flat_map (fun p => fst p ++ [10%N]) lines) /\
  length lines <= length (flat_map (fun p => fst p ++ [10%N]) lines).
Proof.
  intros lines F. induction F as [|(t, l) lines [_ S] F [IH1 IH2]]; cbn [length map concat flat_map fst snd] in *; [lia|].
  apply splits_count in S. rewrite !app_length in *. cbn [length] in *. lia.
Qed.

Lemma piece_read : forall w t x l w1, piece reads w t (x :: l) w1 -> exists N, forall n, N <= n -> forall rest,
  lisp_read Eval.world (at_read O n) (S (length (t ++ rest))) [] (t ++ rest) w = Value Eval.world x l rest w1.
Proof.
  intros w t x l w1 (lines & Ne & -> & F & P & Mid). apply program_reads in P. destruct P as [N P]. exists N. intros n L rest.
  apply (read_lines (at_read O n) lines w x l w1 rest); auto.
  - apply (P n L).
  - pose proof (proj2 (lines_count lines F)). rewrite app_length. lia.
Qed.
Lemma piece_count : forall w t vs w1, piece reads w t vs w1 -> length vs <= length t.
Proof.
  intros w t vs w1 (lines & Ne & -> & F & P & Mid). apply program_count in P. pose proof (proj1 (lines_count lines F)). lia.
Qed.
Lemma blank_read : forall ev w t, blank t -> lisp_read Eval.world ev (S (length t)) [] t w = Eof Eval.world w.
Proof.
  intros ev w t (lines & -> & F & B). cbn [lisp_read].
  assert (G : forall k, length lines <= k ->
    read_loop Eval.world ev (S k) [] (flat_map (fun p => fst p ++ [10%N]) lines) (mkl 0 [] [] w) = Eof Eval.world w).
  { clear - F B. induction F as [|(tx, tk) lines [Sh Sp] F IH]; intros k L.
    - reflexivity.
    - cbn [fst snd] in *. rewrite read_loop_S. cbv zeta. cbn [length flat_map fst].
      rewrite <- app_assoc. cbn [app]. change (RBUFLEN - 0) with (RBUFLEN - 0). rewrite (fgets_line ev _ _ Sh).
      rewrite cstr_line by apply Sh. rewrite (parse_splits ev _ _ _ _ Sp).
      cbn [map concat snd] in B. apply Forall_app in B. destruct B as [B1 B2].
      rewrite run_filler by exact B1. cbn [got depth]. cbn [length] in L. destruct k as [|k]; [lia|]. apply IH; auto. lia. }
  apply G. apply (proj2 (lines_count lines F)).
Qed.

Lemma with_same : forall s, with_w s (wd s) = s.
Proof. intros []; reflexivity. Qed.

Lemma in_order_loop : forall l v0 s v1 s1, in_order does l v0 s v1 s1 -> exists N, forall n, N <= n -> forall k stream,
  load_loop O (Load.form H D O n) n (length l + k) l stream v0 s = load_loop O (Load.form H D O n) n k [] stream v1 s1.
Proof.
  intros l v0 s v1 s1 I. induction I as [v s|x l v0 s v1 s1 v2 s2 [M X] _ [N IH]].
  - exists 0. reflexivity.
  - exists (Nat.max M N). intros n L k stream. cbn [length Nat.add load_loop lisp_read].
    rewrite with_same. rewrite (form_more M n x s v1 s1) by (auto; lia). cbn [andthen_]. apply IH. lia.
Qed.

Lemma script_loop : forall t v0 s v1 s1, runs_script does reads t v0 s v1 s1 -> exists N, forall n, N <= n -> forall k, length t < k ->
  load_loop O (Load.form H D O n) n k [] t v0 s = Got v1 s1.
Proof.
  intros t v0 s v1 s1 R. induction R as [t v s B|t x l r v0 s w1 v1 s1 v2 s2 P I _ [N IH]].
  - exists 0. intros n _ k L. destruct k as [|k]; [lia|]. cbn [load_loop]. rewrite blank_read by exact B. rewrite with_same. reflexivity.
  - pose proof (piece_count _ _ _ _ P) as Pc. cbn [length] in Pc. apply piece_read in P. destruct P as [N1 P].
    inversion I as [|y l' v0' s' v1' s1' v2' s2' [M X] I']; subst. apply in_order_loop in I'. destruct I' as [N2 I'].
    exists (Nat.max M (Nat.max N (Nat.max N1 N2))). intros n L k K. rewrite app_length in K.
    destruct k as [|k]; [lia|]. cbn [load_loop]. rewrite P by lia. rewrite (form_more M n x _ v1' s1') by (auto; lia).
    cbn [andthen_]. replace k with (length l + (k - length l)) by lia. rewrite I' by lia. apply IH; lia.
Qed.
End More.
