(** * Sem5: what evaluation does to the state; channels. *)
From Verif Require Import Value ValueSpec ValueProofs Tails Print Eval EvalSpec EvalProofs Sem1 Sem2 Sem3 Sem4.
Open Scope nat_scope.

Lemma extends_refl : forall w, extends w w.
Proof.
  intro w. unfold extends. split; [exists []; auto|]. split; auto. split; auto. split; [lia|].
  exists []. split; auto. intros h b [].
Qed.
Lemma extends_trans : forall a b c, extends a b -> extends b c -> extends a c.
Proof.
  intros a b c [[g G] [I [C [P [l [E H]]]]]] [[g' G'] [I' [C' [P' [l' [E' H']]]]]].
  unfold extends. split; [exists (g' ++ g); rewrite <- app_assoc; congruence|].
  split; [congruence|]. split; [congruence|]. split; [lia|].
  exists (l' ++ l). split; [rewrite <- app_assoc; congruence|].
  intros h x X. apply in_app_or in X. destruct X as [X|X].
  - destruct (H' h x X) as [Y|Y]; [left; congruence|right; lia].
  - destruct (H h x X) as [Y|Y]; [left; auto|right; lia].
Qed.

Definition keeps {A} (m : M A) : Prop := forall w a w', m w = Ret a w' -> extends w w'.
Lemma keeps_ret {A} (a : A) : keeps (ret a).
Proof. intros w x w' H. inversion H; subst. apply extends_refl. Qed.
Lemma keeps_halt {A} e : keeps (@halt A e).
Proof. intros w x w' H. discriminate. Qed.
Lemma keeps_dry {A} : keeps (@dry A).
Proof. intros w x w' H. discriminate. Qed.
Lemma keeps_bind {A B} (m : M A) (k : A -> M B) : keeps m -> (forall a, keeps (k a)) -> keeps (mbind m k).
Proof.
  intros H K w b w' E. unfold mbind in E. destruct (m w) as [a w1|e|] eqn:X; try discriminate.
  eapply extends_trans; [eapply H; eauto|eapply K; eauto].
Qed.
Lemma keeps_opt {A} (x : option A) : keeps (opt x).
Proof. destruct x; [apply keeps_ret|apply keeps_halt]. Qed.
Lemma keeps_set : forall k v, keeps (set_global k v).
Proof.
  intros k v w a w' H. inversion H; subst. unfold extends; cbn.
  split; [exists [(k, v)]; auto|]. split; auto. split; auto. split; [lia|]. exists []. split; auto. intros h b [].
Qed.
Lemma keeps_emit : forall b, keeps (emit b).
Proof.
  intros b w a w' H. unfold emit in H. destruct (ochan w) as [|h r] eqn:E; [discriminate|].
  inversion H; subst. unfold extends; cbn. split; [exists []; auto|]. split; auto. split; [congruence|]. split; [lia|].
  exists [(h, b)]. split; auto. intros h' b' [X|[]]. injection X as <- <-. left. rewrite E. auto.
Qed.
Lemma keeps_print : forall v l, keeps (print_atom v l).
Proof. intros v l. unfold print_atom. destruct (lisp_prin _ _ _ _); [apply keeps_emit|apply keeps_halt]. Qed.

Ltac keep1 :=
  match goal with
  | |- keeps (mbind _ _) => apply keeps_bind; [|intro]
  | |- keeps (ret _) => apply keeps_ret
  | |- keeps (halt _) => apply keeps_halt
  | |- keeps dry => apply keeps_dry
  | |- keeps (opt _) => apply keeps_opt
  | |- keeps (set_global _ _) => apply keeps_set
  | |- keeps (emit _) => apply keeps_emit
  | |- keeps (print_atom _ _) => apply keeps_print
  | |- keeps (if ?b then _ else _) => destruct b
  | |- keeps (match ?x with _ => _ end) => destruct x
  | |- keeps (let (_, _) := ?p in _) => destruct p
  | H : forall c x, keeps (?f c x) |- keeps (?f _ _) => apply H
  end.
Ltac keep := repeat keep1; auto.

Section Keep.
Variables (O : oracle) (ev : env -> atom -> M atom).
Hypothesis EV : forall c x, keeps (ev c x).

Lemma args_keeps : forall args c acc vals, keeps (eval_args ev c acc args vals).
Proof. induction args as [ | | | | | |t a IHa d IHd]; intros; cbn [eval_args]; keep. Qed.
Lemma prog_keeps : forall cell c r, keeps (prog ev c cell r).
Proof. induction cell; intros; cbn [prog]; keep. Qed.
Lemma loop_keeps : forall n c s b e, keeps (tail_loop ev n c s b e).
Proof. induction n; intros; cbn [tail_loop]; keep. apply prog_keeps. Qed.
Lemma cond_keeps : forall l c x, keeps (cond_loop ev c x l).
Proof.
  induction l as [ | | | | | |t a IHa d IHd]; intros; cbn [cond_loop]; keep.
Qed.
Lemma match_keeps : forall l c x, keeps (match_loop ev c x l).
Proof. induction l as [ | | | | | |t a IHa d IHd]; intros; cbn [match_loop]; keep. Qed.
Lemma list_keeps : forall l c, keeps (list_loop ev c l).
Proof. induction l as [ | | | | | |t a IHa d IHd]; intros; cbn [list_loop]; keep. Qed.
Lemma let_keeps : forall l c e, keeps (let_bind ev c e l).
Proof. induction l as [ | | | | | |t a IHa d IHd]; intros; cbn [let_bind]; keep. Qed.
Lemma stream_keeps : forall l c x, keeps (stream_loop ev c l x).
Proof. induction l as [ | | | | | |t a IHa d IHd]; intros; cbn [stream_loop]; keep. Qed.
Lemma while_keeps : forall n c x p r, keeps (while_loop ev n c x p r).
Proof. induction n; intros; cbn [while_loop]; keep. apply prog_keeps. Qed.
Lemma prin_keeps : forall l b c r, keeps (prin_all ev b c l r).
Proof. induction l as [ | | | | | |t a IHa d IHd]; intros; cbn [prin_all]; keep. Qed.

Lemma open_chan_spec : forall b ch w r w', open_chan O b ch w = Ret r w' ->
  (r = None /\ w' = w) \/
  (r = Some (opens w) /\ w' = mkw (globals w) (outs w) (ichan w) (ochan w) (opens w + 1)%N).
Proof.
  intros b ch w r w' H. unfold open_chan in H.
  destruct ch; try (inversion H; auto; fail);
  repeat match type of H with context [if ?x then _ else _] => destruct x end;
    try discriminate; inversion H; auto.
Qed.

Lemma chan_keeps : forall b c ch body, keeps (with_chan O ev b c ch body).
Proof.
  intros b c ch body w a w' H. unfold with_chan in H. unfold mbind at 1 in H.
  assert (H1 : mbind (open_chan O b ch) (fun h => match h with
            | None => ret Nil
            | Some h => _ <- push_chan b h ;; r <- prog ev c body Nil ;; _ <- pop_chan b ;; ret r
            end) w = Ret a w').
  { destruct b; auto. destruct (ichan w); [discriminate|auto]. }
  clear H. unfold mbind at 1 in H1.
  destruct (open_chan O b ch w) as [r w1|e|] eqn:E; try discriminate.
  apply open_chan_spec in E. destruct E as [[-> ->]|[-> ->]].
  { inversion H1; subst. apply extends_refl. }
  unfold push_chan, mbind at 1 in H1. cbv beta iota in H1. unfold mbind at 1 in H1.
  match type of H1 with match prog ev c body Nil ?x with _ => _ end = _ => set (w2 := x) in * end.
  destruct (prog ev c body Nil w2) as [r w3|e|] eqn:P; try discriminate.
  apply prog_keeps in P. destruct P as [[g G] [I [C [Q [l [L X]]]]]].
  unfold mbind, pop_chan in H1. unfold w2 in *; clear w2.
  destruct b; cbn [globals outs ichan ochan opens] in *.
  - rewrite C in H1. inversion H1; subst. unfold extends; cbn. split; [eauto|]. split; auto. split; auto. split; [lia|].
    exists l. split; auto. intros h x Y. apply X in Y. cbn in Y. destruct Y as [Y|Y].
    + injection Y as <-. right. lia.
    + right. lia.
  - rewrite I in H1. inversion H1; subst. unfold extends; cbn. split; [eauto|]. split; auto. split; auto. split; [lia|].
    exists l. split; auto. intros h x Y. apply X in Y. destruct Y as [Y|Y]; [auto|right; lia].
Qed.

Lemma prim1_keeps : forall n p full c x, keeps (prim1 ev n p full c x).
Proof.
  intros n p full c x. destruct p; cbn [prim1]; unfold run_def, run_setq, run_set, run_or; keep;
    auto using cond_keeps, match_keeps, list_keeps, let_keeps, stream_keeps, while_keeps, prin_keeps, prog_keeps.
  intros w a w' H. destruct (env_get (globals w) _).
  - revert H. apply (keeps_bind (set_global _ _) (fun _ => ret _)); [apply keeps_set|intro; apply keeps_ret].
  - inversion H; subst. apply extends_refl.
Qed.
Lemma prim2_keeps : forall p c x y, keeps (prim2 O ev p c x y).
Proof.
  intros p c x y. destruct p; cbn [prim2]; keep; auto using prog_keeps, chan_keeps.
Qed.
Lemma run_prim_keeps : forall n p full, keeps (run_prim O ev n p full).
Proof.
  intros n p full. unfold run_prim. keep; auto using prim1_keeps, prim2_keeps.
Qed.
Lemma func_keeps : forall n c s f v, keeps (eval_func O ev n c s f v).
Proof.
  intros n c s f v. unfold eval_func. keep; auto using args_keeps, run_prim_keeps, loop_keeps.
Qed.
Lemma pair_keeps : forall n c a d, keeps (eval_pair O ev n c a d).
Proof. intros n c a d. unfold eval_pair. keep. apply func_keeps. Qed.
End Keep.

Lemma eval_keeps : forall O n c x, keeps (eval O n c x).
Proof.
  intros O n. induction n as [|n IH]; intros c x; cbn [eval]; [apply keeps_dry|].
  destruct x; try apply keeps_ret.
  - intros w a w' H. inversion H; subst. apply extends_refl.
  - apply pair_keeps; auto.
Qed.

(** C44 *)
Lemma runs_extends : forall O c x w v w', runs O c x w (Ret v w') -> extends w w'.
Proof. intros O c x w v w' [_ [n E]]. eapply eval_keeps; eauto. Qed.
Lemma body_extends : forall O c l r w v w', runs_body O c l r w (Ret v w') -> extends w w'.
Proof.
  intros O c l r w v w' H. remember (Ret v w') as o eqn:E. revert v w' E.
  induction H; intros v0 w0 E; inversion E; subst.
  - apply extends_refl.
  - eapply extends_trans; [eapply runs_extends; eauto|eauto].
Qed.

Section Sem.
Variable O : oracle.
Notation Runs := (runs O).

Lemma chan_runs : forall (output : bool) c t u s t1 e body w v w1,
  s = (if output then "out" else "in")%string -> calls c w s ->
  Runs c e w (Ret v w1) ->
  (v = Nil \/ (exists z, v = Num z) \/ (is_pair v = true /\ is_string v = true)) ->
  (output = false -> ichan w1 <> []) -> O (opens w1) output v = true ->
  forall o, Runs c (Pair t (Sym u (sy s)) (Pair t1 e (mk_list body))) w o <->
    andthen (runs_body O c body Nil (entered output w1)) (fun r w2 o => o = Ret r (restored w1 w2)) o.
Proof.
  intros output c t u s t1 e body w v w1 ES C R V NI OP o.
  assert (PS : is_string v = true -> proper v = true).
  { clear. induction v; cbn; auto; try discriminate. intro H. apply andb_true_iff in H. tauto. }
  assert (RC : Runs c (Pair t (Sym u (sy s)) (Pair t1 e (mk_list body))) w o <->
               Rchan O output c v (mk_list body) w1 o).
  { destruct output; subst s.
    - rewrite (call_rem O "out" 48%Z ChanRem Pout); auto; try reflexivity.
      rewrite (andthen_to _ v w1) by (apply runs_to; auto). unfold Rprim, run_prim. cbn [pops_two prim2]. tauto.
    - rewrite (call_rem O "in" 47%Z ChanRem Pin); auto; try reflexivity.
      rewrite (andthen_to _ v w1) by (apply runs_to; auto). unfold Rprim, run_prim. cbn [pops_two prim2]. tauto. }
  rewrite RC. clear RC.
  unfold Rchan.
  rewrite (conv_ext _ (fun n => mbind (prog (eval O n) c (mk_list body) Nil)
     (fun r => _ <- pop_chan output ;; ret r) (entered output w1)) o).
  2: { intro n. unfold with_chan. unfold mbind at 1.
       assert (OC : open_chan O output v w1 = Ret (Some (opens w1))
                 (mkw (globals w1) (outs w1) (ichan w1) (ochan w1) (opens w1 + 1)%N)).
       { unfold open_chan. rewrite OP. destruct V as [->|[[z ->]|[P S]]]; auto.
         destruct v; try discriminate. rewrite (PS S), S. destruct output; auto. }
       destruct output.
       - unfold mbind at 1. rewrite OC. reflexivity.
       - destruct (ichan w1) eqn:I; [exfalso; apply NI; auto|].
         unfold mbind at 1. rewrite OC. unfold entered, push_chan. cbn. rewrite I. reflexivity. }
  rewrite (conv_bind (fun n => prog (eval O n) c (mk_list body) Nil)
     (fun n r => _ <- pop_chan output ;; ret r) (entered output w1) o).
  2: apply prog_monof.
  2: intros; apply const_monof.
  assert (X : forall (P P' : out atom -> Prop) Q Q' (o : out atom),
    (forall x, P x <-> P' x) ->
    (forall a w, P' (Ret a w) -> (Q a w o <-> Q' a w o)) -> (andthen P Q o <-> andthen P' Q' o)).
  { clear. intros P P' Q Q' o Y Z. unfold andthen. split; (intros [[a [w [U W]]]|[e [U W]]]; [left|right]).
    - exists a, w. apply Y in U. split; auto. apply Z; auto.
    - exists e; auto. apply Y in U. auto.
    - exists a, w. split; [apply Y; auto|]. apply Z; auto.
    - exists e; auto. split; auto. apply Y; auto. }
  apply X.
  { intro x. apply (Rprog_list O body c Nil (entered output w1) x). }
  intros r w2 H. apply body_extends in H. destruct H as [_ [I [Co _]]].
  unfold entered in I, Co; cbn [ichan ochan] in I, Co.
  assert (Z : (_ <- pop_chan output ;; ret r) w2 = Ret r (restored w1 w2)).
  { unfold mbind, pop_chan, restored. destruct output.
    - rewrite Co, I. reflexivity.
    - rewrite Co, I. reflexivity. }
  rewrite Z. apply conv_const. discriminate.
Qed.

Lemma chan_failed : forall (output : bool) c t u s t1 e rem w v w1,
  s = (if output then "out" else "in")%string -> calls c w s ->
  Runs c e w (Ret v w1) ->
  (v = Nil \/ (exists z, v = Num z) \/ (is_pair v = true /\ is_string v = true)) ->
  (output = false -> ichan w1 <> []) -> O (opens w1) output v = false ->
  forall o, Runs c (Pair t (Sym u (sy s)) (Pair t1 e rem)) w o <-> o = Ret Nil w1.
Proof.
  intros output c t u s t1 e rem w v w1 ES C R V NI OP o.
  assert (PS : is_string v = true -> proper v = true).
  { clear. induction v; cbn; auto; try discriminate. intro H. apply andb_true_iff in H. tauto. }
  assert (RC : Runs c (Pair t (Sym u (sy s)) (Pair t1 e rem)) w o <-> Rchan O output c v rem w1 o).
  { destruct output; subst s.
    - rewrite (call_rem O "out" 48%Z ChanRem Pout); auto; try reflexivity.
      rewrite (andthen_to _ v w1) by (apply runs_to; auto). unfold Rprim, run_prim. cbn [pops_two prim2]. tauto.
    - rewrite (call_rem O "in" 47%Z ChanRem Pin); auto; try reflexivity.
      rewrite (andthen_to _ v w1) by (apply runs_to; auto). unfold Rprim, run_prim. cbn [pops_two prim2]. tauto. }
  rewrite RC. clear RC. unfold Rchan.
  rewrite (conv_ext _ (fun n => Ret Nil w1) o).
  - apply conv_const. discriminate.
  - intro n. unfold with_chan. unfold mbind at 1.
    assert (OC : open_chan O output v w1 = Ret None w1).
    { unfold open_chan. rewrite OP. destruct V as [->|[[z ->]|[P S]]]; auto.
      destruct v; try discriminate. rewrite (PS S), S. destruct output; auto. }
    destruct output.
    + unfold mbind at 1. rewrite OC. reflexivity.
    + destruct (ichan w1) eqn:I; [exfalso; apply NI; auto|].
      unfold mbind at 1. rewrite OC. reflexivity.
Qed.
End Sem.
