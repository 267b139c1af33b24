(** * LibDerived: the functions defined with folds. *)
From Verif Require Import Base Value ValueSpec ValueProofs Tails Print Eval EvalSpec EvalProofs
  Sem1 Sem2 Sem3 Sem4 Sem5 TailsProofs TailsSem BuiltinSpec Sem6 Cases Lib LibSpec LibBase LibProofs.
Open Scope nat_scope.

Notation body_of_zip := (| sym "map2"; sym "cons"; sym "lst1"; sym "lst2" |).
Lemma lib_zip : lib "zip" = lam (pars ["lst1"; "lst2"]%string) [] [body_of_zip].
Proof. vm_compute. reflexivity. Qed.
Notation rev_fun := (| sym "cons"; sym "e"; sym "acc" |).
Notation body_of_rev :=
  (| sym "foldl"; Cons (sym "\") (Cons (pars ["acc"; "e"]%string) (mk_list [rev_fun])); Nil; sym "lst" |).
Lemma lib_rev : lib "rev" = lam (pars ["lst"]%string) [] [body_of_rev].
Proof. vm_compute. reflexivity. Qed.
Notation filter_fun := (| sym "if"; (| sym "fun"; sym "e" |); sym "acc"; (| sym "cons"; sym "e"; sym "acc" |) |).
Notation body_of_filter :=
  (| sym "foldr"; Cons (sym "\") (Cons (pars ["e"; "acc"]%string) (mk_list [filter_fun])); sym "lst"; Nil |).
Lemma lib_filter : lib "filter" = lam (pars ["fun"; "lst"]%string) [] [body_of_filter].
Proof. vm_compute. reflexivity. Qed.
Notation has_fun := (| sym "or"; (| sym "="; sym "e"; sym "X" |); sym "acc" |).
Notation body_of_has :=
  (| sym "foldl"; Cons (sym "\") (Cons (pars ["acc"; "e"]%string) (mk_list [has_fun])); Nil; sym "LST" |).
Lemma lib_has : lib "has" = lam (pars ["LST"; "X"]%string) [] [body_of_has].
Proof. vm_compute. reflexivity. Qed.

Ltac cap := eapply f_sym; eapply inside_cap; [eassumption|reflexivity|].

Section Derived.
Variable O : oracle.
Notation Runs := (runs O).

(** A builtin of two arguments under any name. *)
Lemma apply_two : forall s i p S v1 v2 w o, the s = builtin i Two -> prim_of_addr i = Some p -> pops_two p = true ->
  conv (fun n => prim2 O (eval O n) p S v1 v2 w) o -> applied O S (the s) [v1; v2] w o.
Proof.
  intros s i p S v1 v2 w o E P T C h t es w0 M L.
  assert (LE := runs_list_len O _ _ _ _ _ L). destruct es as [|e1 [|e2 [|e3 es]]]; try discriminate.
  inversion L as [|x1 l1 w1 y1 w2 ys w3 L1 L2|?|?]; subst. inversion L2 as [|x2 l2 w4 y2 w5 zs w6 L3 L4|?|?]; subst.
  inversion L4; subst.
  rewrite E in M. cbn [mk_list]. rewrite (runs_head O _ _ _ _ _ _ _ _ M (builtin_func i Two)).
  rewrite (builtin_call O _ _ _ _ p) by auto. cbn [args_of may_apply is_null].
  left. exists ([(sy "Y", v2); (sy "X", v1)], Nil), w. split.
  - apply Rargs_pair. left. exists v1, w2. split; auto. apply Rargs_pair. left. exists v2, w. split; auto.
    apply Rargs_nil. reflexivity.
  - cbn [fst snd is_null app]. unfold Rprim, run_prim. rewrite T. exact C.
Qed.
Lemma apply_cons : forall S v1 v2 w, applied O S (the "cons") [v1; v2] w (Ret (Cons v1 v2) w).
Proof.
  intros. eapply (apply_two "cons" 6%Z Pcons); try reflexivity. cbn [prim2]. apply conv_ret. reflexivity.
Qed.

(** A function with definition scope [d], used where the scope is [c] up to [hid]. *)
Lemma acts_fun : forall c d hid hs body (F : behaviour), NoDup (map fst d) -> body <> [] ->
  clear_of hid (used ++ given) = true -> clear_of hs (used ++ given) = true ->
  (forall vs w b w', F vs w b w' -> length vs = length hs /\ is_tail_call b = false /\ (ready c w -> ready c w')) ->
  (forall w, ready c w -> ready d w) ->
  (forall S S' vs w b w', increasing S -> apart hid c S -> inside hs vs d S S' -> ready c w -> ready S' w ->
     F vs w b w' -> runs_body O S' body Nil w (Ret b w')) ->
  acts O c hid (lam (pars hs) d body) F.
Proof.
  intros c d hid hs body F N B C1 C2 H1 HD H2. split.
  - intros S vs w b w' I AP R HF. destruct (H1 _ _ _ _ HF) as [L [Q K]].
    apply apply_fun; auto. intros S' IN. eapply H2; eauto. eapply inside_ready; eauto. eapply ready_apart; eauto.
  - intros vs w b w' HF. destruct (H1 _ _ _ _ HF) as [L [Q K]]. auto.
Qed.

(** A library function called by its name. *)
Ltac lib_call s := eapply (fun H : applied O _ (lib s) _ _ _ => H (sy s) false);
  [|apply ready_means; [assumption|cbn; tauto]|].

Lemma call_foldl : forall S f F l z w r w' t es w0, acts O S ["fun"; "acc"; "lst"]%string f F ->
  folds_left F l z w r w' -> is_tail_call z = false -> increasing S -> ready S w -> ready S w0 ->
  runs_list O S es w0 (Ret [f; z; mk_list l] w) -> Runs S (Pair t (sym "foldl") (mk_list es)) w0 (Ret r w').
Proof.
  intros S f F l z w r w' t es w0 A H Q I R R0 L.
  eapply (foldl_ok O S f F); eauto; [apply apart_refl|apply ready_means; [auto|cbn; tauto]].
Qed.
Lemma call_foldr : forall S f F l z w r w' t es w0, acts O S ["fun"; "lst"; "acc"]%string f F ->
  folds_right F z l w r w' -> is_tail_call z = false -> increasing S -> ready S w -> ready S w0 ->
  runs_list O S es w0 (Ret [f; mk_list l; z] w) -> Runs S (Pair t (sym "foldr") (mk_list es)) w0 (Ret r w').
Proof.
  intros S f F l z w r w' t es w0 A H Q I R R0 L.
  eapply (foldr_ok O S f F); eauto; [apply apart_refl|apply ready_means; [auto|cbn; tauto]].
Qed.

(** ** zip *)
Fixpoint pairs (a b : list atom) : list atom :=
  match a, b with x :: a', y :: b' => Cons x y :: pairs a' b' | _, _ => [] end.
Definition consing : behaviour := pure (fun vs b => exists x y, vs = [x; y] /\ b = Cons x y).
Lemma cons_acts : forall c hid, acts O c hid (the "cons") consing.
Proof.
  intros c hid. split.
  - intros S vs w b w' I AP R [[x [y [-> ->]]] ->]. apply apply_cons.
  - intros vs w b w' [[x [y [-> ->]]] ->]. auto.
Qed.
Lemma zip_maps : forall a b w, maps2 consing a b w (pairs a b) w.
Proof.
  induction a as [|x a IH]; intros [|y b] w; cbn [pairs]; try constructor.
  econstructor; eauto. split; auto. eauto.
Qed.
Lemma zip_ok : forall S a b w, increasing S -> ready S w ->
  applied O S (lib "zip") [mk_list a; mk_list b] w (Ret (mk_list (pairs a b)) w).
Proof.
  intros S a b w I R. rewrite lib_zip. apply apply_fun0; [auto|auto|apply mk_quiet|]. intros S' IN.
  assert (R' : ready S' w) by (eapply inside_ready0; eauto).
  change (Runs S' (Pair false (sym "map2") (mk_list [sym "cons"; sym "lst1"; sym "lst2"])) w (Ret (mk_list (pairs a b)) w)).
  lib_call "map2"%string.
  - eapply (map2_ok O S' (the "cons") consing); [apply cons_acts|apply zip_maps|auto|apply IN|apply apart_refl].
  - apply list3 with w w; [apply f_sym; known|arg|arg].
Qed.

(** ** rev *)
Definition snoc : behaviour := pure (fun vs b => exists z a, vs = [z; a] /\ b = Cons a z).
Lemma rev_fold : forall l z w, folds_left snoc l (mk_list z) w (mk_list (rev l ++ z)) w.
Proof.
  induction l as [|a l IH]; intros z w; cbn [rev app]; [constructor|].
  rewrite <- app_assoc. econstructor; [|apply (IH (a :: z))]. split; auto. exists (mk_list z), a. auto.
Qed.
Lemma rev_acts : forall c hid, increasing c -> clear_of hid (used ++ given) = true ->
  acts O c hid (lam (pars ["acc"; "e"]%string) c [rev_fun]) snoc.
Proof.
  intros c hid I C. apply acts_fun; auto; [apply increasing_NoDup; auto|discriminate| |].
  - intros vs w b w' [[z [a [-> ->]]] ->]. auto.
  - intros S S' vs w b w' IS AP IN R R' [[z [a [-> ->]]] ->]. apply body_one.
    change (Cons a z) with (val2 "cons" a z). two "cons"%string; arg.
Qed.
Lemma rev_ok : forall S l w, increasing S -> ready S w ->
  applied O S (lib "rev") [mk_list l] w (Ret (mk_list (rev l)) w).
Proof.
  intros S l w I R. rewrite lib_rev. apply apply_fun0; [auto|auto|apply mk_quiet|]. intros S' IN.
  assert (R' : ready S' w) by (eapply inside_ready0; eauto).
  change (Runs S' (Pair false (sym "foldl") (mk_list
    [Cons (sym "\") (Cons (pars ["acc"; "e"]%string) (mk_list [rev_fun])); Nil; sym "lst"])) w (Ret (mk_list (rev l)) w)).
  eapply (call_foldl S' (lam (pars ["acc"; "e"]%string) S' [rev_fun]) snoc l Nil w);
    [apply rev_acts; [apply IN|reflexivity]| |reflexivity|apply IN|auto|auto|].
  - assert (X := rev_fold l [] w). rewrite app_nil_r in X. exact X.
  - apply list3 with w w; [apply f_lambda; auto|apply f_const; auto|arg].
Qed.

(** ** filter *)
Section Filter.
Variables (c : env) (f : atom) (F : behaviour).
Notation hid := ["fun"; "lst"; "acc"; "e"]%string.
Hypothesis A : acts O c hid f F.
Definition keeping : behaviour := fun vs w b w' =>
  exists a r v, vs = [a; r] /\ is_tail_call r = false /\ F [a] w v w' /\ b = (if is_null v then Cons a r else r).
Lemma filter_fold : forall l w r w', filters F l w r w' -> folds_right keeping Nil l w (mk_list r) w'.
Proof.
  intros l w r w' H. induction H as [w|a l w r w1 b w2 H IH HF N|a l w r w1 w2 H IH HF]; [constructor| |];
    (eapply fr_cons; [exact IH|]); exists a, (mk_list r).
  - exists b. repeat split; auto; [apply mk_quiet|]. destruct b; auto; congruence.
  - exists Nil. repeat split; auto. apply mk_quiet.
Qed.
(** The scope [S'] of [filter] called from [S]; the test is the parameter [fun]. *)
Lemma filter_acts : forall S S' l, increasing S -> apart hid c S -> inside ["fun"; "lst"]%string [f; l] [] S S' ->
  acts O S' ["fun"; "lst"; "acc"]%string (lam (pars ["e"; "acc"]%string) S' [filter_fun]) keeping.
Proof.
  intros S S' l I AP IN.
  assert (AP' : apart hid c S').
  { eapply apart_trans; [exact AP|]. apply inside_apart in IN. eapply apart_incl; [|exact IN].
    intros x; cbn; tauto. }
  assert (BACK : forall w, ready S' w -> ready c w).
  { intros w R. eapply (ready_apart hid S' c); [|reflexivity|auto].
    intros k r N. symmetry. apply AP'; auto. }
  apply acts_fun; auto; [apply increasing_NoDup, IN|discriminate| |].
  - intros vs w b w' [a [r [v [-> [Q [HF ->]]]]]]. split; [auto|]. split; [destruct (is_null v); auto|].
    intro R. eapply ready_apart; [exact AP'|reflexivity|]. eapply acts_keep; eauto.
  - intros T T' vs w b w' IT APT INT R' RT [a [r [v [-> [Q [HF ->]]]]]]. apply body_one.
    assert (APT' : apart hid c T').
    { apply apart_get. intros k N. destruct INT as [_ G]. rewrite G. cbn [lget].
      rewrite combine_none by (intros s J; apply N; cbn in *; tauto).
      rewrite apart_get in APT, AP'. rewrite AP' by auto. destruct (env_get c k) eqn:E; auto.
      rewrite APT by (intros s J; apply N; cbn in *; tauto). rewrite AP' by auto. rewrite E. auto. }
    eapply f_if with (v := v) (w1 := w'); [auto| |].
    + change (Runs T' (Pair false (sym "fun") (mk_list [sym "e"])) w (Ret v w')).
      eapply call_acts; [exact A|exact HF|apply INT|exact APT'|auto| |].
      * eapply inside_cap; [exact INT|reflexivity|]. destruct IN as [_ G]. rewrite G. reflexivity.
      * apply list1. arg.
    + assert (RT' : ready T' w').
      { eapply ready_apart; [exact APT'|reflexivity|]. eapply acts_keep; eauto. }
      destruct (is_null v); cbn [car cdr]; [|arg].
      change (Cons a r) with (val2 "cons" a r). two "cons"%string; arg.
Qed.
Lemma filter_ok : forall l w r w', filters F l w r w' -> ready c w -> forall S, increasing S -> apart hid c S ->
  applied O S (lib "filter") [f; mk_list l] w (Ret (mk_list r) w').
Proof.
  intros l w r w' H R S I AP. rewrite lib_filter. apply apply_fun0; [auto|auto|apply mk_quiet|]. intros S' IN.
  assert (RS : ready S w) by (eapply ready_apart; eauto).
  assert (R' : ready S' w) by (eapply inside_ready0; eauto).
  change (Runs S' (Pair false (sym "foldr") (mk_list
    [Cons (sym "\") (Cons (pars ["e"; "acc"]%string) (mk_list [filter_fun])); sym "lst"; Nil])) w (Ret (mk_list r) w')).
  eapply (call_foldr S' (lam (pars ["e"; "acc"]%string) S' [filter_fun]) keeping l Nil w);
    [eapply filter_acts; eauto|apply filter_fold; auto|reflexivity|apply IN|auto|auto|].
  apply list3 with w w; [apply f_lambda; auto|arg|apply f_const; auto].
Qed.
End Filter.

(** ** has *)
Definition hitting (x : atom) : behaviour := pure (fun vs b => exists z a, vs = [z; a] /\ b = truth (equ a x || negb (is_null z))).
Lemma has_fold : forall x l z w, folds_left (hitting x) l (truth z) w (truth (existsb (fun a => equ a x) l || z)) w.
Proof.
  induction l as [|a l IH]; intros z w; cbn [existsb orb]; [constructor|].
  econstructor; [split; [exists (truth z), a; split; reflexivity|reflexivity]|].
  assert (E : negb (is_null (truth z)) = z) by (destruct z; reflexivity). rewrite E.
  replace (equ a x || existsb (fun a0 => equ a0 x) l || z)%bool with (existsb (fun a0 => equ a0 x) l || (equ a x || z))%bool.
  - apply IH.
  - destruct (equ a x), (existsb (fun a0 => equ a0 x) l), z; reflexivity.
Qed.
Lemma has_ok : forall S l x w, increasing S -> ready S w ->
  exists v, answer (exists a, In a l /\ same a x) v /\ applied O S (lib "has") [mk_list l; x] w (Ret v w).
Proof.
  intros S l x w I R. exists (truth (existsb (fun a => equ a x) l)). split.
  - unfold answer. destruct (existsb (fun a => equ a x) l) eqn:E; [left|right]; split; auto.
    + apply existsb_exists in E. destruct E as [a [J E]]. exists a. split; auto. apply equ_same; auto.
    + intros [a [J E']]. apply equ_same in E'. assert (X : existsb (fun a => equ a x) l = true) by
        (apply existsb_exists; eauto). congruence.
  - rewrite lib_has. apply apply_fun0; [auto|auto|destruct (existsb (fun a => equ a x) l); reflexivity|]. intros S' IN.
    assert (R' : ready S' w) by (eapply inside_ready0; eauto).
    change (Runs S' (Pair false (sym "foldl") (mk_list
      [Cons (sym "\") (Cons (pars ["acc"; "e"]%string) (mk_list [has_fun])); Nil; sym "LST"])) w
      (Ret (truth (existsb (fun a => equ a x) l)) w)).
    eapply (call_foldl S' (lam (pars ["acc"; "e"]%string) S' [has_fun]) (hitting x) l Nil w);
      [| |reflexivity|apply IN|auto|auto|].
    + apply acts_fun; auto; [apply increasing_NoDup, IN|discriminate| |].
      * intros vs w1 b w' [[z [a [-> ->]]] ->]. split; auto. split; auto.
        destruct (equ a x || negb (is_null z))%bool; reflexivity.
      * intros T T' vs w1 b w' IT APT INT RS RT [[z [a [-> ->]]] ->]. apply body_one.
        eapply f_or; [auto| |].
        -- two "="%string; [arg|cap]. destruct IN as [_ G]. rewrite G. reflexivity.
        -- cbn [val2 String.eqb Ascii.eqb Bool.eqb]. destruct (equ a x); cbn [truth is_null orb]; auto.
           exists z. split; [arg|]. reflexivity.
    + assert (X := has_fold x l false w). rewrite Bool.orb_false_r in X. exact X.
    + apply list3 with w w; [apply f_lambda; auto|apply f_const; auto|arg].
Qed.
End Derived.
