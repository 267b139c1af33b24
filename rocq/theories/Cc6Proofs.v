(** * Cc6Proofs: cps:getrefs. *)
From Verif Require Import Base Value ValueSpec ValueProofs Tails Print Eval EvalSpec EvalProofs
  Sem1 Sem2 Sem3 Sem4 Sem5 TailsProofs TailsSem BuiltinSpec Sem6 Cases Lib LibSpec LibBase LibProofs LibDerived LibMore LibAssoc LibNum
  LibSort Lib2Proofs Install CcSpec CcProofs Cc2Proofs Cc3Proofs Cc4Proofs Cc6Spec.
Open Scope nat_scope.

(** ** The definition, as stored *)
Notation let_of bs body :=
  (Cons (sym "let") (Cons (bindings (map (fun p => (sym (fst p), snd p)) bs)) (mk_list body))).
Notation op_pat := (Cons (sym "op") Wild).
Notation inc_e := (| sym "if"; (| sym "="; sym "e"; sym "kvar" |); Num 0; Num 1 |).
Notation refs_in := (| sym "if"; sym "cur"; (| sym "replc"; sym "e"; (| sym "+"; sym "cur"; sym "inc" |); sym "acc" |);
   (| sym "cons"; (| sym "cons"; sym "e"; sym "inc" |); sym "acc" |) |).
Notation refs_fun := (| sym "if"; (| sym "sym?"; sym "e" |);
   let_of [("cur"%string, (| sym "assoc"; sym "e"; sym "acc" |)); ("inc"%string, inc_e)] [refs_in]; sym "acc" |).
Notation params_e := (| sym "if"; (| sym "has"; sym "ARGS"; sym "op" |); sym "expr"; (| sym "cdr"; sym "expr" |) |).
Notation refs_fold := (| sym "foldl"; Cons (sym "\") (Cons (pars ["acc"; "e"]%string) (mk_list [refs_fun])); sym "acc"; sym "params" |).
Notation refs_body :=
  (Cons (sym "let") (Cons (bindings ((op_pat, sym "expr") :: map (fun p => (sym (fst p), snd p)) [("params"%string, params_e)])) (mk_list [refs_fold]))).
Lemma lib5_refs : lib5 "cps:getrefs" = lam (pars ["ARGS"; "kvar"; "acc"; "expr"]%string) [] [refs_body].
Proof. vm_compute. reflexivity. Qed.

(** ** One operand *)
Definition inc (kv k : symbol) : Z := if equ (Symb k) (Symb kv) then 0%Z else 1%Z.
(** One turn of the loop (proof only). *)
Inductive steps (kv : symbol) (l : list (atom * atom)) : atom -> list (atom * atom) -> Prop :=
| steps_other : forall e, is_symb e = false -> steps kv l e l
| steps_new : forall k, finds (Symb k) l Nil -> steps kv l (Symb k) ((Symb k, Num (inc kv k)) :: l)
| steps_more : forall k a r, finds (Symb k) l (Num a) -> int64 a -> int64 (a + inc kv k) ->
    replaced (Symb k) (Num (a + inc kv k)) l r -> steps kv l (Symb k) r.
Definition quiet_list (l : list (atom * atom)) : Prop :=
  Forall (fun p : atom * atom => is_tail_call (fst p) = false /\ is_tail_call (snd p) = false) l.
Definition counting (kv : symbol) (w0 : world) : behaviour := fun vs w b w' => w = w0 /\ w' = w0 /\
  exists l e r, vs = [alist l; e] /\ b = alist r /\ quiet_list l /\ steps kv l e r.

Section Cc6.
Variable O : oracle.
Notation Runs := (runs O).

Lemma refs_let : forall kv l k v r T w, increasing T -> ready5 T w ->
  env_get T (sy "e") = Some (Symb k) -> env_get T (sy "acc") = Some (alist l) -> env_get T (sy "kvar") = Some (Symb kv) -> quiet_list l ->
  finds (Symb k) l v ->
  (v = Nil /\ r = (Symb k, Num (inc kv k)) :: l \/
   exists a, v = Num a /\ int64 a /\ int64 (a + inc kv k) /\ replaced (Symb k) (Num (a + inc kv k)) l r) ->
  Runs T (let_of [("cur"%string, (| sym "assoc"; sym "e"; sym "acc" |)); ("inc"%string, inc_e)] [refs_in]) w (Ret (alist r) w).
Proof.
  intros kv l k v r T w I R5 GE GA GK Q F C. assert (R' := proj1 R5).
  apply (f_let O T false [("cur", (| sym "assoc"; sym "e"; sym "acc" |)); ("inc", inc_e)]%string [refs_in] w [v; Num (inc kv k)] w); [exact I|exact R'| |].
  - apply lets_cons with (w1 := w).
    + intros S2 IN2. assert (R2 : ready5 S2 w) by (eapply inside_ready5; [exact IN2|reflexivity|exact R5]).
      change (Runs S2 (Pair false (sym "assoc") (mk_list [sym "e"; sym "acc"])) w (Ret v w)).
      apply (assoc_ok O (Symb k) l v F Q S2 w (proj1 IN2) (proj1 R2)); [apply ready_means; [apply R2|cbn; tauto]|].
      apply list2 with w; apply f_sym; (eapply inside_out; [exact IN2|reflexivity|]); assumption.
    + left. destruct C as [[-> _]|[a [-> _]]]; reflexivity.
    + cbn [app]. apply lets_cons with (w1 := w); [|left; reflexivity|constructor].
      intros S2 IN2. assert (R2 : ready5 S2 w) by (eapply inside_ready5; [exact IN2|reflexivity|exact R5]). assert (R2' := proj1 R2).
      eapply f_if with (w1 := w); [auto|two "="%string; apply f_sym; (eapply inside_out; [exact IN2|reflexivity|]); eassumption|].
      change (val2 "=" (Symb k) (Symb kv)) with (truth (equ (Symb k) (Symb kv))). unfold inc.
      destruct (equ (Symb k) (Symb kv)); cbn [truth is_null car cdr]; apply f_const; reflexivity.
  - intros S2 IN2. assert (R2 : ready5 S2 w) by (eapply inside_ready5; [exact IN2|reflexivity|exact R5]). assert (R2' := proj1 R2).
    apply body_one.
    assert (T0 : Runs S2 (sym "cur") w (Ret v w)) by arg. assert (T1 : Runs S2 (sym "inc") w (Ret (Num (inc kv k)) w)) by arg.
    assert (T2 : Runs S2 (sym "e") w (Ret (Symb k) w)) by (apply f_sym; (eapply inside_out; [exact IN2|reflexivity|]); exact GE).
    assert (T3 : Runs S2 (sym "acc") w (Ret (alist l) w)) by (apply f_sym; (eapply inside_out; [exact IN2|reflexivity|]); exact GA).
    eapply f_if with (v := v) (w1 := w); [auto|exact T0|]. destruct C as [[-> ->]|[a [-> [B1 [B2 C]]]]]; cbn [is_null car cdr].
    + change (alist ((Symb k, Num (inc kv k)) :: l)) with (val2 "cons" (val2 "cons" (Symb k) (Num (inc kv k))) (alist l)).
      two "cons"%string; [two "cons"%string; [exact T2|exact T1]|exact T3].
    + change (Runs S2 (Pair false (sym "replc") (mk_list [sym "e"; (| sym "+"; sym "cur"; sym "inc" |); sym "acc"])) w (Ret (alist r) w)).
      apply (replc_ok O (Symb k) (Num (a + inc kv k)) l r C S2 w (proj1 IN2) R2'); [apply ready_means; [auto|cbn; tauto]|].
      apply list3 with w w; [exact T2| |exact T3].
      eapply (f_arith O "+"%string S2) with (a := a) (b := inc kv k); [cbn; tauto|auto|exact T0|exact T1|auto|auto|constructor; auto].
Qed.
Lemma counting_acts : forall kv c w0, increasing c -> ready5 c w0 -> env_get c (sy "kvar") = Some (Symb kv) ->
  acts O c ["fun"; "acc"; "lst"]%string (lam (pars ["acc"; "e"]%string) c [refs_fun]) (counting kv w0).
Proof.
  intros kv c w0 I R5 KV. split.
  2: { intros vs w b w' [-> [-> [l [e [r [-> [-> _]]]]]]]. split; [apply alist_quiet|auto]. }
  intros T vs w b w' IT AP _ [-> [-> [l [e [r [-> [-> [Q ST]]]]]]]].
  apply apply_fun; [exact IT|apply increasing_NoDup; exact I|discriminate|reflexivity|apply alist_quiet|]. intros T' INT. apply body_one.
  assert (RT : ready5 T w0) by (eapply ready5_apart; [exact AP|reflexivity|exact R5]).
  assert (RT' : ready5 T' w0) by (eapply inside_ready5d; [exact INT|reflexivity|exact R5|exact RT]). assert (RT1 := proj1 RT').
  eapply f_if with (w1 := w0); [auto|apply f_is_sym; [apply ready5_calls; [auto|cbn; tauto]|arg]|].
  assert (GA : env_get T' (sy "acc") = Some (alist l)) by (eapply inside_get; [exact INT|reflexivity]).
  assert (GE : env_get T' (sy "e") = Some e) by (eapply inside_get; [exact INT|reflexivity]).
  assert (GK : env_get T' (sy "kvar") = Some (Symb kv)).
  { destruct INT as [_ G]. rewrite G. cbn [lget]. rewrite combine_none by (apply none_of; reflexivity). rewrite KV. reflexivity. }
  destruct ST as [e N|k F|k a r F B1 B2 RP].
  - rewrite N. cbn [truth is_null car cdr]. arg.
  - replace (is_null (truth (is_symb (Symb k)))) with false by reflexivity. cbn [car].
    apply (refs_let kv l k Nil); auto. apply INT.
  - replace (is_null (truth (is_symb (Symb k)))) with false by reflexivity. cbn [car].
    apply (refs_let kv l k (Num a)); auto; [apply INT|]. right. exists a. auto.
Qed.

(** ** [let] with the head first *)
Lemma op_linear : linear op_pat.
Proof.
  intros k [|[|] [|? p]] [|[|] [|? q]] H1 H2; cbn in H1, H2; auto; try tauto; try (destruct H1; discriminate);
    try (destruct H2; discriminate).
Qed.
Lemma let_op : forall S t e k e2 body w x v w1 u w2 o, increasing S -> ready S w -> Runs S e w (Ret (Cons x v) w1) -> k <> "op"%string ->
  (forall S', inside ["op"]%string [x] [] S S' -> Runs S' e2 w1 (Ret u w2)) -> kept k u ->
  (forall S', inside ["op"; k]%string [x; u] [] S S' -> runs_body O S' body Nil w2 o) ->
  Runs S (Pair t (sym "let") (Cons (bindings ((op_pat, e) :: map (fun p => (sym (fst p), snd p)) [(k, e2)])) (mk_list body))) w o.
Proof.
  intros S t e k e2 body w x v w1 u w2 o I R E NK E2 K B.
  assert (OP : bind [] op_pat (Cons x v) = [(sy "op", x)]) by reflexivity.
  destruct (slices_inside ["op"]%string [x] S I) as [S1 [SC1 IN1]]. destruct (slices_inside ["op"; k]%string [x; u] S I) as [S2 [SC2 IN2]].
  eapply (let_runs O S t) with (ls := slices ["op"; k]%string [x; u]); [apply ready_calls; [exact R|cbn; tauto]|auto| |exact SC2|apply B; exact IN2].
  eapply bindings_step with (S := S) (v := Cons x v) (v' := Cons x v) (b := bind [] op_pat (Cons x v));
    [apply op_linear| |exact E|apply stored_pattern; reflexivity|apply layer_bind, op_linear|].
  - apply scope_iff. split; auto. intro j. cbn [app lget]. destruct (env_get S j); auto.
  - rewrite OP. cbn [map fst snd].
    eapply bindings_step with (S := S1) (v := u) (v' := u) (b := [(sy k, u)]);
      [apply linear_sym|exact SC1|apply E2; exact IN1|apply kept_stored; exact K|apply (layer_bind (sym k)), linear_sym|].
    constructor.
Qed.

(** ** The whole *)
Inductive loops (kv : symbol) : list (atom * atom) -> list atom -> list (atom * atom) -> Prop :=
| loops_nil : forall l, loops kv l [] l
| loops_cons : forall l e es m r, quiet_list l -> steps kv l e m -> loops kv m es r -> loops kv l (e :: es) r.
Lemma loops_fold : forall kv l es r w, loops kv l es r -> folds_left (counting kv w) es (alist l) w (alist r) w.
Proof.
  intros kv l es r w H. induction H as [l|l e es m r Q ST H IH]; [constructor|]. eapply fl_cons; [|exact IH].
  split; [reflexivity|]. split; [reflexivity|]. exists l, e, m. auto.
Qed.
Lemma refs_ok : forall kv args op es ps l r, refers args op es ps -> kept "params" (mk_list ps) -> loops kv l ps r ->
  forall S w, increasing S -> ready5 S w ->
  applied O S (lib5 "cps:getrefs") [mk_list args; Symb kv; alist l; Cons op (mk_list es)] w (Ret (alist r) w).
Proof.
  intros kv args op es ps l r RF K L S w I R. rewrite lib5_refs. apply apply_fun0; [auto|auto|apply alist_quiet|]. intros S1 IN.
  assert (R1 : ready5 S1 w) by (eapply inside_ready5; [exact IN|reflexivity|exact R]). assert (R' := proj1 R1).
  apply (let_op S1 false (sym "expr") "params" params_e [refs_fold] w op (mk_list es) w (mk_list ps) w); [apply IN|exact R'|arg|discriminate| |exact K|].
  - intros S2 IN2. assert (R2 : ready5 S2 w) by (eapply inside_ready5; [exact IN2|reflexivity|exact R1]). assert (R2' := proj1 R2).
    destruct (has_ok O S2 args op w (proj1 IN2) R2') as [a [AN AP]].
    assert (EX : Runs S2 (sym "expr") w (Ret (Cons op (mk_list es)) w)).
    { apply f_sym. eapply inside_out; [exact IN2|reflexivity|]. eapply inside_get; [exact IN|reflexivity]. }
    eapply f_if with (v := a) (w1 := w); [auto| |].
    + change (Runs S2 (Pair false (sym "has") (mk_list [sym "ARGS"; sym "op"])) w (Ret a w)).
      apply AP; [apply ready_means; [auto|cbn; tauto]|]. apply list2 with w; [|arg].
      apply f_sym. eapply inside_out; [exact IN2|reflexivity|]. eapply inside_get; [exact IN|reflexivity].
    + destruct AN as [[Y ->]|[Y ->]]; cbn [is_null car cdr]; destruct RF as [Z|Z]; try contradiction.
      * exact EX.
      * change (mk_list es) with (val1 "cdr" (Cons op (mk_list es))). one "cdr"%string. exact EX.
  - intros S2 IN2. assert (R2 : ready5 S2 w) by (eapply inside_ready5; [exact IN2|reflexivity|exact R1]). assert (R2' := proj1 R2).
    assert (GK : env_get S1 (sy "kvar") = Some (Symb kv)) by (eapply inside_get; [exact IN|reflexivity]).
    assert (GK2 : env_get S2 (sy "kvar") = Some (Symb kv)).
    { destruct IN2 as [_ G]. rewrite G. cbn [lget]. rewrite combine_none by (apply none_of; reflexivity). cbn [env_get]. rewrite GK. reflexivity. }
    apply body_one.
    change (Runs S2 (Pair false (sym "foldl") (mk_list
      [Cons (sym "\") (Cons (pars ["acc"; "e"]%string) (mk_list [refs_fun])); sym "acc"; sym "params"])) w (Ret (alist r) w)).
    eapply (call_foldl O S2 (lam (pars ["acc"; "e"]%string) S2 [refs_fun]) (counting kv w) ps (alist l) w);
      [apply counting_acts; [apply IN2|exact R2|exact GK2]|apply loops_fold; exact L|apply alist_quiet|apply IN2|auto|auto|].
    apply list3 with w w; [apply f_lambda; auto| |arg].
    apply f_sym. eapply inside_out; [exact IN2|reflexivity|]. eapply inside_get; [exact IN|reflexivity].
Qed.
End Cc6.
