(** * Sem4: [let], lambda, assignments, definitions, [match], arithmetic. *)
From Verif Require Import Value ValueSpec ValueProofs Tails Print Eval EvalSpec EvalProofs Sem1 Sem2 Sem3.
Open Scope nat_scope.

(** ** Order of 64-bit arithmetic *)
Lemma in_i64_spec : forall z, in_i64 z = true <-> int64 z.
Proof.
  intro z. unfold in_i64, int64. rewrite andb_true_iff, Z.leb_le, Z.ltb_lt.
  change (2 ^ 63)%Z with 9223372036854775808%Z. lia.
Qed.
Lemma small_factor : forall b y, b <> 0%Z -> (Z.abs b * Z.abs y < Z.abs b)%Z -> y = 0%Z.
Proof.
  intros b y B H. destruct (Z.eq_dec y 0); auto. exfalso.
  assert (X := Z.mul_le_mono_nonneg_l 1 (Z.abs y) (Z.abs b) ltac:(lia) ltac:(lia)). lia.
Qed.
Lemma quot_unique : forall a b q r, b <> 0%Z -> a = (b * q + r)%Z -> (Z.abs r < Z.abs b)%Z ->
  (0 <= r * a)%Z -> q = Z.quot a b /\ r = Z.rem a b.
Proof.
  intros a b q r B E A S.
  assert (E' := Z.quot_rem' a b). assert (A' := Z.rem_bound_abs a b B).
  assert (S' := Z.rem_sign_mul a b B).
  set (q' := Z.quot a b) in *. set (r' := Z.rem a b) in *. clearbody q' r'.
  assert (D : (b * (q - q') = r' - r)%Z) by lia.
  assert (K : (q - q' = 0)%Z).
  { destruct (Z.eq_dec a 0) as [Za|Za].
    - assert (Z.abs b * Z.abs q < Z.abs b)%Z.
      { rewrite <- Z.abs_mul. assert (b * q = - r)%Z by lia. rewrite H. rewrite Z.abs_opp. auto. }
      assert (Z.abs b * Z.abs q' < Z.abs b)%Z.
      { rewrite <- Z.abs_mul. assert (b * q' = - r')%Z by lia. rewrite H0. rewrite Z.abs_opp. auto. }
      apply small_factor in H; auto. apply small_factor in H0; auto. lia.
    - assert (Z.abs (r' - r) < Z.abs b)%Z.
      { destruct (Z.lt_trichotomy a 0) as [X|[X|X]]; [|lia|].
        - assert (r <= 0)%Z by nia. assert (r' <= 0)%Z by nia. lia.
        - assert (0 <= r)%Z by nia. assert (0 <= r')%Z by nia. lia. }
      rewrite <- D, Z.abs_mul in H.
      apply small_factor in H; auto. }
  assert (q = q') by lia. subst q'. split; lia.
Qed.

Lemma arith_computes : forall s p, In (s, p) [("+", Padd); ("-", Psub); ("*", Pmul); ("/", Pdiv); ("%", Pmod)]%string ->
  forall a b r, computes s a b r <-> arith p a b = Some r.
Proof.
  intros s p H a b r. cbn in H.
  repeat (destruct H as [H|H]; [injection H as <- <-|]); [| | | | |tauto]; cbn [arith]; unfold i64.
  1-3: split; [intro X; inversion X; subst;
               match goal with H : int64 _ |- _ => apply in_i64_spec in H; rewrite H end; auto
              |destruct (in_i64 _) eqn:E; [|discriminate]; intro X; injection X as <-;
               apply in_i64_spec in E; constructor; auto].
  - destruct (Z.eqb_spec b 0) as [->|B].
    + split; [|discriminate]. intro X; inversion X; subst; congruence.
    + split.
      * intro X; inversion X; subst.
        match goal with A : (Z.abs ?r < _)%Z, C : (0 <= ?r * _)%Z |- _ =>
          destruct (quot_unique (b * _ + r) b _ r B eq_refl A C) as [Y1 Y2] end.
        rewrite <- Y1. match goal with H : int64 _ |- _ => apply in_i64_spec in H; rewrite H end; auto.
      * destruct (in_i64 _) eqn:E; [|discriminate]. intro X; injection X as <-.
        apply in_i64_spec in E.
        apply (c_div a b (Z.quot a b) (Z.rem a b)); auto using Z.quot_rem', Z.rem_bound_abs, Z.rem_sign_mul.
  - destruct (Z.eqb_spec b 0) as [->|B].
    + split; [|discriminate]. intro X; inversion X; subst; congruence.
    + split.
      * intro X; inversion X; subst.
        match goal with A : (Z.abs ?r < _)%Z, C : (0 <= ?r * _)%Z |- _ =>
          destruct (quot_unique (b * _ + r) b _ r B eq_refl A C) as [Y1 Y2] end.
        rewrite <- Y1. match goal with H : int64 _ |- _ => apply in_i64_spec in H; rewrite H end. congruence.
      * destruct (in_i64 _) eqn:E; [|discriminate]. intro X; injection X as <-.
        apply in_i64_spec in E.
        apply (c_mod a b (Z.quot a b) (Z.rem a b)); auto using Z.quot_rem', Z.rem_bound_abs, Z.rem_sign_mul.
Qed.

Section Sem.
Variable O : oracle.
Notation Runs := (runs O).

(** C43 *)
Lemma arith_runs : forall s i p c t u t1 e1 t2 e2 w a w1 b w2 o,
  the s = builtin i Two -> prim_of_addr i = Some p -> pops_two p = true ->
  (forall a b w, prim2 O (eval O 0) p c (Num a) (Num b) w =
     match arith p a b with Some r => Ret (Num r) w | None => Stop UB end) ->
  (forall n a b w, prim2 O (eval O n) p c (Num a) (Num b) w = prim2 O (eval O 0) p c (Num a) (Num b) w) ->
  calls c w s -> Runs c e1 w (Ret (Num a) w1) -> Runs c e2 w1 (Ret (Num b) w2) ->
  (Runs c (Pair t (Sym u (sy s)) (Pair t1 e1 (Pair t2 e2 Nil))) w o <->
   o = match arith p a b with Some r => Ret (Num r) w2 | None => Stop UB end).
Proof.
  intros s i p c t u t1 e1 t2 e2 w a w1 b w2 o E P T K K' C R1 R2.
  rewrite (prim2_runs O s i p) by auto.
  rewrite (andthen_to _ (Num a) w1) by (apply runs_to; auto).
  rewrite (andthen_to _ (Num b) w2) by (apply runs_to; auto).
  rewrite (conv_ext _ (fun _ => match arith p a b with Some r => Ret (Num r) w2 | None => Stop UB end)).
  - apply conv_const. destruct (arith p a b); discriminate.
  - intro n. rewrite K', K. auto.
Qed.

Lemma arith_named : forall s, In s ["+"; "-"; "*"; "/"; "%"]%string ->
  exists i p, the s = builtin i Two /\ prim_of_addr i = Some p /\ pops_two p = true /\
    In (s, p) [("+", Padd); ("-", Psub); ("*", Pmul); ("/", Pdiv); ("%", Pmod)]%string /\
    (forall n c a b w, prim2 O (eval O n) p c (Num a) (Num b) w =
       match arith p a b with Some r => Ret (Num r) w | None => Stop UB end).
Proof.
  intros s H. cbn [In] in H.
  assert (K : forall p n c a b w, In p [Padd; Psub; Pmul; Pdiv; Pmod] ->
     prim2 O (eval O n) p c (Num a) (Num b) w =
       match arith p a b with Some r => Ret (Num r) w | None => Stop UB end).
  { intros p n c a b w X. assert (Y : prim2 O (eval O n) p c (Num a) (Num b) =
      (a <- opt (num_field (Num a)) ;; b <- opt (num_field (Num b)) ;; r <- opt (arith p a b) ;; ret (Num r))).
    { cbn [In] in X. repeat (destruct X as [<-|X]; [reflexivity|]). tauto. }
    rewrite Y. cbn [num_field opt]. unfold mbind, ret at 1 2. destruct (arith p a b); reflexivity. }
  repeat (destruct H as [<-|H];
   [eexists; eexists; split; [reflexivity|split; [reflexivity|split; [reflexivity|split;
      [cbn [In]; tauto|intros; apply K; cbn [In]; tauto]]]]|]).
  tauto.
Qed.

Lemma arith_exact : forall s c t u t1 e1 t2 e2 w a w1 b w2, In s ["+"; "-"; "*"; "/"; "%"]%string ->
  calls c w s -> Runs c e1 w (Ret (Num a) w1) -> Runs c e2 w1 (Ret (Num b) w2) ->
  forall o, Runs c (Pair t (Sym u (sy s)) (Pair t1 e1 (Pair t2 e2 Nil))) w o <->
    (exists r, computes s a b r /\ o = Ret (Num r) w2) \/
    ((forall r, ~ computes s a b r) /\ o = Stop UB).
Proof.
  intros s c t u t1 e1 t2 e2 w a w1 b w2 I C R1 R2 o.
  destruct (arith_named s I) as [i [p [E [P [T [J K]]]]]].
  rewrite (arith_runs s i p c t u t1 e1 t2 e2 w a w1 b w2 o); auto.
  2: { intros. rewrite !K. auto. }
  assert (X := arith_computes s p J a b). destruct (arith p a b) as [r|].
  - split.
    + intros ->. left. exists r. split; auto. apply X; auto.
    + intros [[r' [H ->]]|[H _]].
      * apply X in H. injection H as ->. auto.
      * exfalso. apply (H r). apply X; auto.
  - split.
    + intros ->. right. split; auto. intros r H. apply X in H. discriminate.
    + intros [[r [H _]]|[_ ->]]; auto. apply X in H. discriminate.
Qed.

Lemma compare_named : forall s R, relation s R ->
  exists i p, the s = builtin i Two /\ prim_of_addr i = Some p /\ pops_two p = true /\
    (forall n c a b w, prim2 O (eval O n) p c (Num a) (Num b) w = Ret (truth (compare p a b)) w) /\
    (forall a b, compare p a b = true <-> R a b).
Proof.
  intros s R H. destruct H; eexists; eexists; (split; [reflexivity|split; [reflexivity|split; [reflexivity|split]]]);
  try (intros; reflexivity); intros a b; cbn [compare].
  - apply Z.ltb_lt.
  - apply Z.leb_le.
  - rewrite (Z.ltb_lt b a). lia.
  - rewrite (Z.leb_le b a). lia.
Qed.
Lemma compare_exact : forall s R c t u t1 e1 t2 e2 w a w1 b w2, relation s R ->
  calls c w s -> Runs c e1 w (Ret (Num a) w1) -> Runs c e2 w1 (Ret (Num b) w2) ->
  forall o, Runs c (Pair t (Sym u (sy s)) (Pair t1 e1 (Pair t2 e2 Nil))) w o <->
    (R a b /\ o = Ret Tru w2) \/ (~ R a b /\ o = Ret Nil w2).
Proof.
  intros s R c t u t1 e1 t2 e2 w a w1 b w2 H C R1 R2 o.
  destruct (compare_named s R H) as [i [p [E [P [T [K X]]]]]].
  rewrite (prim2_runs O s i p) by auto.
  rewrite (andthen_to _ (Num a) w1) by (apply runs_to; auto).
  rewrite (andthen_to _ (Num b) w2) by (apply runs_to; auto).
  rewrite (conv_ext _ (fun _ => Ret (truth (compare p a b)) w2)) by (intro; apply K).
  rewrite conv_const by discriminate. specialize (X a b). destruct (compare p a b); cbn [truth].
  - assert (R a b) by (apply X; auto). split; [intros ->; auto|intros [[_ ->]|[N _]]; tauto].
  - assert (~ R a b) by (intro Y; apply X in Y; discriminate).
    split; [intros ->; auto|intros [[N _]|[_ ->]]; tauto].
Qed.

(** C37: what a lambda is *)
Lemma lambda_runs : forall c t args body w o, calls c w "\" ->
  (Runs c (Pair t (Symb (sy "\")) (Cons args (mk_list body))) w o <-> o = Ret (lam args c body) w).
Proof.
  intros. rewrite (call_rest O "\" 18%Z Plambda); auto; try reflexivity.
  unfold Rprim, run_prim. cbn [pops_two prim1 car cdr]. apply conv_ret.
Qed.

(** ** C35: let *)

Definition store (tmp : env) (arg v : atom) : option atom :=
  match arg with
  | Sym _ k =>
      if is_func v then
        match env_get tmp k with
        | Some _ => Some v
        | None =>
            match mark_body k (car v) (cdr (cdr v)) with
            | Some b => Some (match v with Pair t a (Pair t' d _) => Pair t a (Pair t' d b) | _ => v end)
            | None => None
            end
        end
      else Some v
  | _ => Some v
  end.
Lemma let_bind_step : forall ev c e t t1 arg nvl r w,
  let_bind ev c e (Pair t (Pair t1 arg nvl) r) w =
  mbind (ev (merge c e) nvl) (fun v => mbind (opt (store (merge c e) arg v))
    (fun v' => let_bind ev c (bind e arg v') r)) w.
Proof.
  intros. cbn [let_bind]. unfold mbind at 1. symmetry. unfold mbind at 1. destruct (ev (merge c e) nvl w) as [v w1|x|]; auto.
  unfold store. destruct arg; try reflexivity.
  destruct (is_func v); [|reflexivity]. destruct (env_get (merge c e) s); [reflexivity|].
  destruct (mark_body s (car v) (cdr (cdr v))); reflexivity.
Qed.
Lemma Rlet_step : forall c e t t1 arg nvl r w o,
  Rlet O c e (Pair t (Pair t1 arg nvl) r) w o <->
  andthen (Runs (merge c e) nvl w) (fun v w1 o =>
    match store (merge c e) arg v with
    | Some v' => Rlet O c (bind e arg v') r w1 o
    | None => o = Stop UB
    end) o.
Proof.
  intros. unfold Rlet. rewrite (conv_ext _ _ _ (fun n => let_bind_step (eval O n) c e t t1 arg nvl r w)).
  rewrite (conv_bind (fun n => eval O n (merge c e) nvl)
    (fun n v => mbind (opt (store (merge c e) arg v)) (fun v' => let_bind (eval O n) c (bind e arg v') r)) w o).
  - apply andthen_iff; [intro; rewrite runs_conv; tauto|]. intros v w1 o1. rewrite bind_opt. tauto.
  - apply eval_monof.
  - intros. apply bind_monof; [apply opt_monof|]. intros; apply let_monof.
Qed.
Lemma Rlet_end : forall c e w o, Rlet O c e Nil w o <-> o = Ret e w.
Proof. intros. unfold Rlet. cbn [let_bind]. apply conv_ret. Qed.
Lemma Rlet_to : forall c e l w e1 w1, Rlet O c e l w (Ret e1 w1) ->
  forall o, Rlet O c e l w o <-> o = Ret e1 w1.
Proof.
  intros c e l w e1 w1 H o. split; [|intros ->; auto]. intro X.
  apply (conv_unique _ o (Ret e1 w1) (let_monof O c e l w)); auto.
Qed.

Lemma stored_store : forall S arg v v', stored S arg v v' -> store S arg v = Some v'.
Proof.
  intros S arg v v' H. destruct H; cbn [store].
  - destruct pat; try discriminate; auto.
  - rewrite H; auto.
  - apply env_get_shows in H. rewrite H. destruct (is_func v); auto.
  - apply env_get_shows in H. rewrite H, H0. cbn [car cdr]. rewrite H1. auto.
Qed.

Lemma lets_run : forall c bs ls w ls' w', runs_bindings O c bs ls w ls' w' -> increasing c ->
  forall e, (forall k, env_get (rev e) k = lget ls k) ->
  exists e', Rlet O c e (bindings bs) w (Ret e' w') /\ forall k, env_get (rev e') k = lget ls' k.
Proof.
  intros c bs ls w ls' w' H I. induction H as [ls w|pat x bs ls w S v w1 v' b ls' w' L SC R ST LA _ IH]; intros e E.
  - exists e. split; auto. apply Rlet_end; auto.
  - assert (ES : merge c e = S).
    { apply (scope_unique (ls ++ [c])); auto. assert (X := merge1_scope c e I). apply scope_iff in X.
      apply scope_iff. destruct X as [X1 X2]. split; auto. intro k. rewrite X2, lget_app. cbn [lget].
      rewrite E. auto. }
    destruct (IH (bind e pat v')) as [e' [X Y]].
    { intro k. rewrite bind_nil_app, rev_app_distr, env_get_app, E, lget_app. cbn [lget].
      rewrite get_rev_NoDup by (apply linear_nodup; auto).
      rewrite (layer_get pat v' _ b (layer_bind pat v' L) LA). destruct (lget ls k); auto.
      destruct (env_get b k); auto. }
    exists e'. split; auto. cbn [bindings map mk_list fst snd]. fold (bindings bs). apply Rlet_step.
    rewrite ES. left. exists v, w1. split; auto. rewrite (stored_store _ _ _ _ ST). auto.
Qed.

Lemma let_runs : forall c t bs body w ls w1 S, calls c w "let" -> increasing c ->
  runs_bindings O c bs [] w ls w1 -> scope (ls ++ [c]) S ->
  forall o, Runs c (Pair t (Symb (sy "let")) (Cons (bindings bs) (mk_list body))) w o <->
            runs_body O S body Nil w1 o.
Proof.
  intros c t bs body w ls w1 S C I B SC o.
  rewrite (call_rest O "let" 20%Z Plet); auto; try reflexivity.
  unfold Rprim, run_prim. cbn [pops_two prim1 car cdr].
  rewrite (conv_bind (fun n => let_bind (eval O n) c [] (bindings bs))
    (fun n e => prog (eval O n) (merge c e) (mk_list body) Nil) w o) by
    (intros; try apply let_monof; apply prog_monof).
  destruct (lets_run c bs [] w ls w1 B I [] (fun k => eq_refl)) as [e [R E]].
  rewrite (andthen_to _ e w1) by (apply (Rlet_to c [] (bindings bs) w e w1 R)).
  assert (ES : merge c e = S).
  { apply (scope_unique (ls ++ [c])); auto. assert (X := merge1_scope c e I). apply scope_iff in X.
    apply scope_iff. destruct X as [X1 X2]. split; auto. intro k. rewrite X2, lget_app. cbn [lget].
    rewrite E. auto. }
  rewrite ES. apply Rprog_list.
Qed.

(** ** C41: setq *)
Lemma globals_cons : forall w k v w', 
  w' = mkw ((k, v) :: globals w) (outs w) (ichan w) (ochan w) (opens w) -> redefined w w' k v.
Proof.
  intros w k v w' ->. unfold redefined. cbn [globals outs ichan ochan opens].
  split; [constructor|]. split; [|auto]. intros k' r N. split; intro H.
  - inversion H; subst; auto; congruence.
  - constructor; auto.
Qed.
Lemma setq_runs : forall c t u k t1 t2 e w v w1, calls c w "setq" ->
  Runs c e w (Ret v w1) -> v <> Nil ->
  exists w2, redefined w1 w2 k v /\
    forall o, Runs c (Pair t (Symb (sy "setq")) (Pair t1 (Sym u k) (Pair t2 e Nil))) w o <-> o = Ret v w2.
Proof.
  intros c t u k t1 t2 e w v w1 C R N. eexists. split; [apply globals_cons; reflexivity|]. intro o.
  rewrite (call_rest O "setq" 26%Z Psetq); auto; try reflexivity.
  unfold Rprim, run_prim. cbn [pops_two prim1]. unfold run_setq. cbn [car cdr].
  rewrite (conv_bind (fun n => eval O n c e) (fun n r => if is_null r then ret r
     else _ <- set_global k r ;; ret r) w o).
  - rewrite (andthen_to _ v w1) by (apply (runs_to O c e w v w1 R)).
    assert (Z : is_null v = false) by (destruct v; auto; congruence). rewrite Z.
    apply (conv_const (Ret v _)). discriminate.
  - apply eval_monof.
  - intros. apply const_monof.
Qed.
Lemma setq_nil : forall c t u k t1 t2 e w w1, calls c w "setq" -> Runs c e w (Ret Nil w1) ->
  forall o, Runs c (Pair t (Symb (sy "setq")) (Pair t1 (Sym u k) (Pair t2 e Nil))) w o <-> o = Ret Nil w1.
Proof.
  intros c t u k t1 t2 e w w1 C R o.
  rewrite (call_rest O "setq" 26%Z Psetq); auto; try reflexivity.
  unfold Rprim, run_prim. cbn [pops_two prim1]. unfold run_setq. cbn [car cdr].
  rewrite (conv_bind (fun n => eval O n c e) (fun n r => if is_null r then ret r
     else _ <- set_global k r ;; ret r) w o).
  - rewrite (andthen_to _ Nil w1) by (apply (runs_to O c e w Nil w1 R)). cbn [is_null]. apply conv_ret.
  - apply eval_monof.
  - intros. apply const_monof.
Qed.

(** ** C42: <- on a global *)
Lemma set_runs : forall c t t1 es t2 ev w u k w1 v w2 old, calls c w "<-" ->
  Runs c es w (Ret (Sym u k) w1) -> Runs c ev w1 (Ret v w2) ->
  shows c k None -> shows (globals w2) k (Some old) ->
  exists w3, redefined w2 w3 k v /\
    forall o, Runs c (Pair t (Symb (sy "<-")) (Pair t1 es (Pair t2 ev Nil))) w o <->
              o = Ret (Cons (Sym u k) old) w3.
Proof.
  intros c t t1 es t2 ev w u k w1 v w2 old C R1 R2 N G. eexists. split; [apply globals_cons; reflexivity|].
  intro o. apply env_get_shows in N. apply env_get_shows in G.
  rewrite (call_rest O "<-" 25%Z Pset); auto; try reflexivity.
  unfold Rprim, run_prim. cbn [pops_two prim1]. unfold run_set. cbn [car cdr].
  set (fin := fun (s v : atom) => match s with
    | Sym _ k => match env_get c k with
      | Some _ => halt Shared
      | None => fun w => match env_get (globals w) k with
                   | Some o => (_ <- set_global k v ;; ret (Cons s o)) w
                   | None => Ret Nil w
                   end
      end
    | _ => ret Nil end).
  match goal with |- _ <-> ?R => change (conv (fun n => mbind (eval O n c es)
     (fun s => mbind (eval O n c ev) (fun v => fin s v)) w) o <-> R) end.
  rewrite (conv_bind (fun n => eval O n c es) (fun n s => mbind (eval O n c ev) (fun v => fin s v)) w o).
  - rewrite (andthen_to _ (Sym u k) w1) by (apply (runs_to O c es w _ w1 R1)).
    rewrite (conv_bind (fun n => eval O n c ev) (fun n v => fin (Sym u k) v) w1 o).
    + rewrite (andthen_to _ v w2) by (apply (runs_to O c ev w1 v w2 R2)).
      subst fin. cbv beta iota. rewrite N, G. apply (conv_const (Ret (Cons (Sym u k) old) _)). discriminate.
    + apply eval_monof.
    + intros; apply const_monof.
  - apply eval_monof.
  - intros. apply bind_monof; [apply eval_monof|]. intros; apply const_monof.
Qed.
Lemma set_unbound : forall c t t1 es t2 ev w u k w1 v w2, calls c w "<-" ->
  Runs c es w (Ret (Sym u k) w1) -> Runs c ev w1 (Ret v w2) ->
  shows c k None -> shows (globals w2) k None ->
  forall o, Runs c (Pair t (Symb (sy "<-")) (Pair t1 es (Pair t2 ev Nil))) w o <-> o = Ret Nil w2.
Proof.
  intros c t t1 es t2 ev w u k w1 v w2 C R1 R2 N G o. apply env_get_shows in N. apply env_get_shows in G.
  rewrite (call_rest O "<-" 25%Z Pset); auto; try reflexivity.
  unfold Rprim, run_prim. cbn [pops_two prim1]. unfold run_set. cbn [car cdr].
  set (fin := fun (s v : atom) => match s with
    | Sym _ k => match env_get c k with
      | Some _ => halt Shared
      | None => fun w => match env_get (globals w) k with
                   | Some o => (_ <- set_global k v ;; ret (Cons s o)) w
                   | None => Ret Nil w
                   end
      end
    | _ => ret Nil end).
  match goal with |- _ <-> ?R => change (conv (fun n => mbind (eval O n c es)
     (fun s => mbind (eval O n c ev) (fun v => fin s v)) w) o <-> R) end.
  rewrite (conv_bind (fun n => eval O n c es) (fun n s => mbind (eval O n c ev) (fun v => fin s v)) w o).
  - rewrite (andthen_to _ (Sym u k) w1) by (apply (runs_to O c es w _ w1 R1)).
    rewrite (conv_bind (fun n => eval O n c ev) (fun n v => fin (Sym u k) v) w1 o).
    + rewrite (andthen_to _ v w2) by (apply (runs_to O c ev w1 v w2 R2)).
      subst fin. cbv beta iota. rewrite N, G. apply (conv_const (Ret Nil _)). discriminate.
    + apply eval_monof.
    + intros; apply const_monof.
  - apply eval_monof.
  - intros. apply bind_monof; [apply eval_monof|]. intros; apply const_monof.
Qed.

(** ** C40: def *)
Lemma mark_body_list : forall k args body, body <> [] -> exists b, mark_body k args (mk_list body) = Some b.
Proof.
  intros k args body H. destruct body as [|x body]; [congruence|]. clear H.
  revert x. induction body as [|y body IH]; intro x.
  - eexists. reflexivity.
  - destruct (IH y) as [b E]. exists (Cons x b).
    cbn [mk_list]. change (mark_body k args (Cons x (Cons y (mk_list body)))) with
      (match mark_body k args (Cons y (mk_list body)) with Some r' => Some (Cons x r') | None => None end).
    cbn [mk_list] in E. rewrite E; auto.
Qed.
Lemma def_runs : forall c t u k args doc body w,
  calls c w "def" -> is_list args = true \/ is_symb args = true -> body <> [] ->
  (doc = [] /\ is_char (car (hd Nil body)) = false \/ exists z s, doc = [Cons (Chr z) s]) ->
  exists b w1, mark_body k args (mk_list body) = Some b /\
    redefined w w1 k (Cons args (Cons Nil b)) /\
    forall o, Runs c (Pair t (Symb (sy "def")) (Cons (Sym u k) (Cons args (mk_list (doc ++ body))))) w o <->
              o = Ret (Sym u k) w1.
Proof.
  intros c t u k args doc body w C A B D. destruct (mark_body_list k args body B) as [b E].
  exists b. eexists. split; auto. split; [apply globals_cons; reflexivity|]. intro o.
  rewrite (call_rest O "def" 7%Z Pdef); auto; try reflexivity.
  unfold Rprim, run_prim. cbn [pops_two prim1]. unfold run_def. cbn [car cdr].
  assert (AA : is_list args || is_symb args = true).
  { destruct A as [A|A]; rewrite A; auto. apply orb_true_r. }
  rewrite AA.
  assert (X : (if is_pair (car (mk_list (doc ++ body))) && is_char (car (car (mk_list (doc ++ body))))
               then cdr (mk_list (doc ++ body)) else mk_list (doc ++ body)) = mk_list body).
  { destruct D as [[-> D]|[z [s ->]]]; [|reflexivity]. cbn [app].
    destruct body as [|x body]; [congruence|]. cbn [mk_list car hd] in *. rewrite D, andb_false_r. auto. }
  rewrite X, E. apply (conv_const (Ret (Sym u k) _)). discriminate.
Qed.

(** ** C16: match *)
Lemma match_none : forall c v cl w, Forall (fun p => atom_match (fst p) v = false) cl ->
  forall o, Rmatch O c v (bindings cl) w o <-> o = Ret Nil w.
Proof.
  intros c v cl w H. induction H as [|[p e] cl H _ IH]; intro o; unfold Rmatch in *.
  - apply conv_ret.
  - cbn [bindings map mk_list fst snd match_loop] in *. rewrite H. apply IH.
Qed.
Lemma match_first : forall c v pre p e post w,
  Forall (fun p => atom_match (fst p) v = false) pre -> atom_match p v = true ->
  forall o, Rmatch O c v (bindings (pre ++ (p, e) :: post)) w o <-> Runs c e w o.
Proof.
  intros c v pre p e post w H M. induction H as [|[q x] cl H _ IH]; intro o; unfold Rmatch in *.
  - cbn [app bindings map mk_list fst snd match_loop]. rewrite M. rewrite runs_conv. tauto.
  - cbn [app bindings map mk_list fst snd match_loop] in *. rewrite H. apply IH.
Qed.
Lemma match_call : forall c t t1 e cl w o, calls c w "match" ->
  (Runs c (Pair t (Symb (sy "match")) (Pair t1 e cl)) w o <->
   andthen (Runs ((sy "ANY", Pair t1 e cl) :: c) e w) (fun v w1 => Rmatch O c v cl w1) o).
Proof.
  intros c t t1 e cl w o C.
  rewrite (call_rest O "match" 22%Z Pmatch); auto; try reflexivity.
  unfold Rprim, run_prim. cbn [pops_two prim1 car cdr].
  rewrite (conv_bind (fun n => eval O n ((sy "ANY", Pair t1 e cl) :: c) e)
     (fun n v => match_loop (eval O n) c v cl) w o).
  - apply andthen_iff; [intro; rewrite runs_conv|]; intros; unfold Rmatch; tauto.
  - apply eval_monof.
  - intros; apply match_monof.
Qed.
Lemma match_runs : forall c t e cl w v w1, calls c w "match" ->
  Runs ((sy "ANY", Cons e (bindings cl)) :: c) e w (Ret v w1) ->
  (forall pre p x post, cl = pre ++ (p, x) :: post ->
     Forall (fun q => ~ instance (fst q) v) pre -> instance p v ->
     forall o, Runs c (Pair t (Symb (sy "match")) (Cons e (bindings cl))) w o <-> Runs c x w1 o) /\
  (Forall (fun q => ~ instance (fst q) v) cl ->
     forall o, Runs c (Pair t (Symb (sy "match")) (Cons e (bindings cl))) w o <-> o = Ret Nil w1).
Proof.
  intros c t e cl w v w1 C R.
  assert (F : forall l, Forall (fun q : atom * atom => ~ instance (fst q) v) l ->
               Forall (fun p => atom_match (fst p) v = false) l).
  { intros l H. eapply Forall_impl; [|exact H]. intros p Hp. cbv beta in Hp.
    destruct (atom_match (fst p) v) eqn:E; auto. apply atom_match_instance in E. tauto. }
  split.
  - intros pre p x post E H I o. rewrite match_call by auto.
    rewrite (andthen_to _ v w1) by (apply runs_to; auto). rewrite E. apply match_first; auto.
    apply atom_match_instance; auto.
  - intros H o. rewrite match_call by auto.
    rewrite (andthen_to _ v w1) by (apply runs_to; auto). apply match_none; auto.
Qed.

(** C36 *)
Lemma let_first_wins : forall c t bs k w l1 b l2 v w1, calls c w "let" -> increasing c ->
  runs_bindings O c bs [] w (l1 ++ b :: l2) w1 -> layered l1 k None -> shows b k (Some v) ->
  forall o, Runs c (Pair t (Symb (sy "let")) (Cons (bindings bs) (mk_list [Symb k]))) w o <->
            o = Ret v w1.
Proof.
  intros c t bs k w l1 b l2 v w1 C I B N H o.
  destruct (scope_exists ((l1 ++ b :: l2) ++ [c])) as [S SC].
  rewrite (let_runs c t bs [Symb k] w _ w1 S C I B SC).
  assert (M : means S w1 k v).
  { apply means_local. apply scope_iff in SC. destruct SC as [_ G]. apply env_get_shows. rewrite G.
    rewrite !lget_app. apply layered_lget in N. rewrite N. cbn [lget]. apply env_get_shows in H. rewrite H. auto. }
  split.
  - intro R. inversion R as [|x l r w0 v0 w2 o0 R1 R2|x l r w0 e R1]; subst.
    + apply (runs_means O _ _ _ _ _ _ M) in R1. inversion R1; subst. inversion R2; auto.
    + apply (runs_means O _ _ _ _ _ _ M) in R1. discriminate.
  - intros ->. eapply body_step; [|constructor]. apply (runs_means O _ _ _ _ _ _ M); auto.
Qed.

End Sem.
