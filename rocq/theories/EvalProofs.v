(** * Proofs about the evaluator: budget monotonicity and the big-step rules. *)
From Verif Require Import Value ValueSpec ValueProofs Tails Print Eval EvalSpec.
Open Scope nat_scope.

(** ** Monotonicity *)

Definition le {A} (a b : out A) : Prop := a = NoFuel \/ a = b.

Lemma le_refl {A} (a : out A) : le a a. Proof. right; auto. Qed.
Lemma le_dry {A} (b : out A) : le NoFuel b. Proof. left; auto. Qed.
#[export] Hint Resolve le_refl le_dry : mono.

Definition lem {A} (m m' : M A) : Prop := forall w, le (m w) (m' w).

Lemma lem_refl {A} (m : M A) : lem m m. Proof. intro; apply le_refl. Qed.
Lemma lem_bind {A B} (m m' : M A) (k k' : A -> M B) :
  lem m m' -> (forall a, lem (k a) (k' a)) -> lem (mbind m k) (mbind m' k').
Proof.
  intros H K w. unfold mbind. destruct (H w) as [E|E].
  - rewrite E. left; auto.
  - rewrite E. destruct (m' w); [apply K|right; auto|left; auto].
Qed.
#[export] Hint Resolve lem_refl : mono.

Ltac mono1 :=
  match goal with
  | |- lem (mbind _ _) (mbind _ _) => apply lem_bind; [|intro]
  | |- lem ?x ?x => apply lem_refl
  | |- lem dry _ => intro; left; reflexivity
  | |- lem (if ?b then _ else _) (if ?b then _ else _) => destruct b
  | |- lem (match ?x with _ => _ end) (match ?x with _ => _ end) => destruct x
  | |- lem (let (_, _) := ?p in _) (let (_, _) := ?p in _) => destruct p
  | H : forall c x, lem (?f c x) (?g c x) |- lem (?f _ _) (?g _ _) => apply H
  end.
Ltac mono := repeat mono1; auto.

Section Mono.
Variables (O : oracle) (ev ev' : env -> atom -> M atom).
Hypothesis EV : forall c x, lem (ev c x) (ev' c x).

Lemma eval_args_mono : forall args c acc vals,
  lem (eval_args ev c acc args vals) (eval_args ev' c acc args vals).
Proof.
  induction args as [ | | | | | |t a IHa d IHd]; intros; cbn [eval_args]; mono.
Qed.
Lemma prog_mono : forall cell c r, lem (prog ev c cell r) (prog ev' c cell r).
Proof. induction cell; intros; cbn [prog]; mono. Qed.
Lemma tail_loop_mono : forall n n' c s b e, n <= n' ->
  lem (tail_loop ev n c s b e) (tail_loop ev' n' c s b e).
Proof.
  induction n as [|n IH]; intros n' c s b e L; cbn [tail_loop]. { mono. }
  destruct n' as [|n']; [lia|]. cbn [tail_loop].
  apply lem_bind; [apply prog_mono|]. intro. mono. apply IH; lia.
Qed.
Lemma cond_mono : forall l c x, lem (cond_loop ev c x l) (cond_loop ev' c x l).
Proof. induction l as [ | | | | | |t a _ d IH]; intros; cbn [cond_loop]; mono. Qed.
Lemma match_mono : forall l c x, lem (match_loop ev c x l) (match_loop ev' c x l).
Proof. induction l as [ | | | | | |t a _ d IH]; intros; cbn [match_loop]; mono. Qed.
Lemma list_mono : forall l c, lem (list_loop ev c l) (list_loop ev' c l).
Proof. induction l as [ | | | | | |t a _ d IH]; intros; cbn [list_loop]; mono. Qed.
Lemma let_mono : forall l c e, lem (let_bind ev c e l) (let_bind ev' c e l).
Proof. induction l as [ | | | | | |t a _ d IH]; intros; cbn [let_bind]; mono. Qed.
Lemma stream_mono : forall l c x, lem (stream_loop ev c l x) (stream_loop ev' c l x).
Proof. induction l as [ | | | | | |t a _ d IH]; intros; cbn [stream_loop]; mono. Qed.
Lemma while_mono : forall n n' c x p r, n <= n' ->
  lem (while_loop ev n c x p r) (while_loop ev' n' c x p r).
Proof.
  induction n as [|n IH]; intros n' c x p r L; cbn [while_loop]. { mono. }
  destruct n' as [|n']; [lia|]. cbn [while_loop]. mono. apply prog_mono. apply IH; lia.
Qed.
Lemma prin_mono : forall l b c r, lem (prin_all ev b c l r) (prin_all ev' b c l r).
Proof. induction l as [ | | | | | |t a _ d IH]; intros; cbn [prin_all]; mono. Qed.
Lemma chan_mono : forall b c x r, lem (with_chan O ev b c x r) (with_chan O ev' b c x r).
Proof. intros; unfold with_chan; mono. apply prog_mono. Qed.
Lemma setq_mono : forall c x, lem (run_setq ev c x) (run_setq ev' c x).
Proof. intros; unfold run_setq; mono. Qed.
Lemma set_mono : forall c x, lem (run_set ev c x) (run_set ev' c x).
Proof. intros; unfold run_set; mono. Qed.
Lemma or_mono : forall c x, lem (run_or ev c x) (run_or ev' c x).
Proof. intros; unfold run_or; mono. Qed.

Lemma run_prim_mono : forall p n n' full, n <= n' ->
  lem (run_prim O ev n p full) (run_prim O ev' n' p full).
Proof.
  intros p n n' full L. unfold run_prim.
  destruct p; cbn [pops_two]; do 2 (try (destruct full as [|[? ?] full]; [apply lem_refl|]));
  cbn [prim1 prim2]; mono;
  auto using cond_mono, let_mono, list_mono, match_mono, prog_mono, stream_mono, while_mono,
    prin_mono, chan_mono, setq_mono, set_mono, or_mono.
Qed.

Lemma eval_func_mono : forall n n' c s f v, n <= n' ->
  lem (eval_func O ev n c s f v) (eval_func O ev' n' c s f v).
Proof.
  intros n n' c s f v L. unfold eval_func. cbv zeta.
  destruct (may_apply (car f) v); cbn [negb]; [|apply lem_refl].
  apply lem_bind; [apply eval_args_mono|]. intros [b na].
  destruct (is_null na); [|apply lem_refl].
  destruct (cdr (cdr f)); try (mono; auto using run_prim_mono, tail_loop_mono).
Qed.

Lemma eval_pair_mono : forall n n' c a d, n <= n' ->
  lem (eval_pair O ev n c a d) (eval_pair O ev' n' c a d).
Proof.
  intros. unfold eval_pair. apply lem_bind; [apply EV|]. intro x.
  destruct (is_func x); [apply eval_func_mono; auto|]. mono.
Qed.
End Mono.

Lemma eval_mono : forall O n n', n <= n' -> forall c x, lem (eval O n c x) (eval O n' c x).
Proof.
  intros O n. induction n as [|n IH]; intros n' L c x; cbn [eval]. { mono. }
  destruct n' as [|n']; [lia|]. cbn [eval]. destruct x; try apply lem_refl.
  apply eval_pair_mono; [|lia]. apply IH. lia.
Qed.

(** C29 *)
Lemma more_budget : forall O n m c x w, n <= m -> eval O n c x w <> NoFuel ->
  eval O m c x w = eval O n c x w.
Proof.
  intros O n m c x w L H. destruct (eval_mono O n m L c x w) as [E|E]; congruence.
Qed.
Lemma runs_unique : forall O c x w o1 o2, runs O c x w o1 -> runs O c x w o2 -> o1 = o2.
Proof.
  intros O c x w o1 o2 [H1 [n E1]] [H2 [m E2]].
  destruct (Nat.le_ge_cases n m) as [L|L].
  - rewrite <- E1, <- E2. symmetry. apply more_budget; congruence.
  - rewrite <- E1, <- E2. apply more_budget; congruence.
Qed.

(** ** Limits *)

Definition conv {A} (f : nat -> out A) (o : out A) : Prop := o <> NoFuel /\ exists n, f n = o.
Definition monof {A} (f : nat -> out A) : Prop := forall n m, n <= m -> le (f n) (f m).

Lemma conv_at {A} (f : nat -> out A) o n : monof f -> f n = o -> o <> NoFuel ->
  forall m, n <= m -> f m = o.
Proof. intros M E H m L. destruct (M n m L); congruence. Qed.

Lemma conv_const {A} (x : out A) o : x <> NoFuel -> (conv (fun _ => x) o <-> o = x).
Proof.
  intro H. split.
  - intros [_ [_ E]]; auto.
  - intros ->. split; auto. exists 0; auto.
Qed.
Lemma conv_ret {A} (a : A) w o : conv (fun _ => ret a w) o <-> o = Ret a w.
Proof. apply conv_const. discriminate. Qed.
Lemma conv_halt {A} e w o : conv (fun _ => @halt A e w) o <-> o = Stop e.
Proof. apply conv_const. discriminate. Qed.
Lemma conv_ext {A} (f g : nat -> out A) o : (forall n, f n = g n) -> (conv f o <-> conv g o).
Proof. intro E. split; intros [H [n X]]; (split; [auto|exists n; congruence]). Qed.
Lemma conv_shift {A} (f g : nat -> out A) o :
  f 0 = NoFuel -> (forall n, f (S n) = g n) -> (conv f o <-> conv g o).
Proof.
  intros Z E. split; intros [H [n X]]; (split; [auto|]).
  - destruct n; [congruence|]. exists n. congruence.
  - exists (S n). congruence.
Qed.
Lemma conv_unique {A} (f : nat -> out A) o1 o2 : monof f -> conv f o1 -> conv f o2 -> o1 = o2.
Proof.
  intros M [H1 [n E1]] [H2 [m E2]]. destruct (Nat.le_ge_cases n m) as [L|L].
  - rewrite <- E2. symmetry. eapply conv_at; eauto.
  - rewrite <- E1. eapply conv_at; eauto.
Qed.

Lemma conv_bind {A B} (m : nat -> M A) (k : nat -> A -> M B) w o :
  monof (fun n => m n w) -> (forall a w1, monof (fun n => k n a w1)) ->
  (conv (fun n => mbind (m n) (k n) w) o <->
   andthen (conv (fun n => m n w)) (fun a w1 => conv (fun n => k n a w1)) o).
Proof.
  intros Mm Mk. split.
  - intros [H [n E]]. unfold mbind in E. destruct (m n w) as [a w1|e|] eqn:X.
    + left. exists a, w1. split; (split; [congruence|exists n; auto]).
    + right. exists e. split; auto. split; [discriminate|exists n; auto].
    + congruence.
  - intros [[a [w1 [[_ [n E]] [H [p E']]]]]|[e [[_ [n E]] ->]]].
    + split; auto. exists (Nat.max n p). unfold mbind.
      rewrite (conv_at _ _ n Mm E) by (try discriminate; lia).
      apply (conv_at _ _ p (Mk a w1) E'); auto; lia.
    + split; [discriminate|]. exists n. unfold mbind. rewrite E; auto.
Qed.

Lemma andthen_iff {A B} (P P' : out A -> Prop) (Q Q' : A -> world -> out B -> Prop) o :
  (forall x, P x <-> P' x) -> (forall a w o, Q a w o <-> Q' a w o) ->
  (andthen P Q o <-> andthen P' Q' o).
Proof.
  intros HP HQ. unfold andthen. split; (intros [[a [w [X Y]]]|[e [X Y]]]; [left|right]).
  - exists a, w. split; [apply HP|apply HQ]; auto.
  - exists e. split; auto. apply HP; auto.
  - exists a, w. split; [apply HP|apply HQ]; auto.
  - exists e. split; auto. apply HP; auto.
Qed.
Lemma andthen_ret {A B} (a : A) w (Q : A -> world -> out B -> Prop) o :
  andthen (fun x => x = Ret a w) Q o <-> Q a w o.
Proof.
  split.
  - intros [[a' [w' [E H]]]|[e [E _]]]; congruence.
  - intro H. left. exists a, w. auto.
Qed.
Lemma andthen_stop {A B} e (Q : A -> world -> out B -> Prop) o :
  andthen (fun x => x = Stop e) Q o <-> o = Stop e.
Proof.
  split.
  - intros [[a' [w' [E H]]]|[e' [E H]]]; congruence.
  - intros ->. right. exists e. auto.
Qed.
Lemma andthen_assoc {A B C} (P : out A -> Prop) (Q : A -> world -> out B -> Prop)
  (R : B -> world -> out C -> Prop) o :
  andthen (andthen P Q) R o <-> andthen P (fun a w => andthen (Q a w) R) o.
Proof.
  split.
  - intros [[b [w [[[a [w1 [HP HQ]]]|[e [HP E]]] HR]]]|[e [[[a [w1 [HP HQ]]]|[e' [HP E]]] E']]].
    + left. exists a, w1. split; auto. left. exists b, w; auto.
    + discriminate.
    + left. exists a, w1. split; auto. right. exists e; auto.
    + right. exists e'. split; auto. congruence.
  - intros [[a [w1 [HP [[b [w [HQ HR]]]|[e [HQ E]]]]]]|[e [HP E]]].
    + left. exists b, w. split; auto. left. exists a, w1; auto.
    + right. exists e. split; auto. left. exists a, w1; auto.
    + right. exists e. split; auto. right. exists e; auto.
Qed.

Section Big.
Variable O : oracle.

Notation evN := (eval O).

Lemma eval_monof : forall c x w, monof (fun n => evN n c x w).
Proof. intros c x w n m L. apply eval_mono; auto. Qed.

(** Monotonicity of the families obtained by giving [eval n] to the helpers. *)
Lemma args_monof : forall c a args vals w, monof (fun n => eval_args (evN n) c a args vals w).
Proof. intros c a args vals w n m L. apply eval_args_mono. apply eval_mono; auto. Qed.
Lemma prog_monof : forall c x r w, monof (fun n => prog (evN n) c x r w).
Proof. intros c x r w n m L. apply prog_mono. apply eval_mono; auto. Qed.
Lemma loop_monof : forall c s b e w, monof (fun n => tail_loop (evN n) n c s b e w).
Proof. intros c s b e w n m L. apply tail_loop_mono; auto. apply eval_mono; auto. Qed.
Lemma cond_monof : forall c x l w, monof (fun n => cond_loop (evN n) c x l w).
Proof. intros c x l w n m L. apply cond_mono. apply eval_mono; auto. Qed.
Lemma match_monof : forall c x l w, monof (fun n => match_loop (evN n) c x l w).
Proof. intros c x l w n m L. apply match_mono. apply eval_mono; auto. Qed.
Lemma list_monof : forall c l w, monof (fun n => list_loop (evN n) c l w).
Proof. intros c l w n m L. apply list_mono. apply eval_mono; auto. Qed.
Lemma let_monof : forall c e l w, monof (fun n => let_bind (evN n) c e l w).
Proof. intros c e l w n m L. apply let_mono. apply eval_mono; auto. Qed.
Lemma stream_monof : forall c l x w, monof (fun n => stream_loop (evN n) c l x w).
Proof. intros c l x w n m L. apply stream_mono. apply eval_mono; auto. Qed.
Lemma while_monof : forall c x p r w, monof (fun n => while_loop (evN n) n c x p r w).
Proof. intros c x p r w n m L. apply while_mono; auto. apply eval_mono; auto. Qed.
Lemma prin_monof : forall b c l r w, monof (fun n => prin_all (evN n) b c l r w).
Proof. intros b c l r w n m L. apply prin_mono. apply eval_mono; auto. Qed.
Lemma chan_monof : forall b c x r w, monof (fun n => with_chan O (evN n) b c x r w).
Proof. intros b c x r w n m L. apply chan_mono. apply eval_mono; auto. Qed.
Lemma setq_monof : forall c x w, monof (fun n => run_setq (evN n) c x w).
Proof. intros c x w n m L. apply setq_mono. apply eval_mono; auto. Qed.
Lemma set_monof : forall c x w, monof (fun n => run_set (evN n) c x w).
Proof. intros c x w n m L. apply set_mono. apply eval_mono; auto. Qed.
Lemma or_monof : forall c x w, monof (fun n => run_or (evN n) c x w).
Proof. intros c x w n m L. apply or_mono. apply eval_mono; auto. Qed.
Lemma prim_monof : forall p full w, monof (fun n => run_prim O (evN n) n p full w).
Proof. intros p full w n m L. apply run_prim_mono; auto. apply eval_mono; auto. Qed.
Lemma func_monof : forall c s f v w, monof (fun n => eval_func O (evN n) n c s f v w).
Proof. intros c s f v w n m L. apply eval_func_mono; auto. apply eval_mono; auto. Qed.
Lemma const_monof {A} (x : out A) : monof (fun _ => x).
Proof. intros n m _. apply le_refl. Qed.
Lemma bind_monof {A B} (m : nat -> M A) (k : nat -> A -> M B) w :
  monof (fun n => m n w) -> (forall a w1, monof (fun n => k n a w1)) ->
  monof (fun n => mbind (m n) (k n) w).
Proof.
  intros Mm Mk n p L. unfold mbind. destruct (Mm n p L) as [E|E]; rewrite E.
  - left; auto.
  - destruct (m p w); [apply Mk; auto|right; auto|left; auto].
Qed.

(** Relational readings. *)
Definition Rargs c acc args vals w := conv (fun n => eval_args (evN n) c acc args vals w).
Definition Rprog c x r w := conv (fun n => prog (evN n) c x r w).
Definition Rloop c s b e w := conv (fun n => tail_loop (evN n) n c s b e w).
Definition Rcond c x l w := conv (fun n => cond_loop (evN n) c x l w).
Definition Rmatch c x l w := conv (fun n => match_loop (evN n) c x l w).
Definition Rlist c l w := conv (fun n => list_loop (evN n) c l w).
Definition Rlet c e l w := conv (fun n => let_bind (evN n) c e l w).
Definition Rstream c l x w := conv (fun n => stream_loop (evN n) c l x w).
Definition Rwhile c x p r w := conv (fun n => while_loop (evN n) n c x p r w).
Definition Rprin b c l r w := conv (fun n => prin_all (evN n) b c l r w).
Definition Rchan b c x r w := conv (fun n => with_chan O (evN n) b c x r w).
Definition Rprim p full w := conv (fun n => run_prim O (evN n) n p full w).
Definition Rfunc c s f v w := conv (fun n => eval_func O (evN n) n c s f v w).

Notation Runs := (runs O).

Lemma runs_conv : forall c x w o, Runs c x w o <-> conv (fun n => evN n c x w) o.
Proof. intros; unfold runs, conv; tauto. Qed.

Lemma runs_const : forall c x w o, is_pair x = false -> is_symb x = false ->
  (Runs c x w o <-> o = Ret x w).
Proof.
  intros c x w o P S. split.
  - intros [H [n E]]. destruct n; cbn in E; [exfalso; apply H; rewrite <- E; reflexivity|].
    destruct x; try discriminate; auto; inversion E; auto.
  - intros ->. split; [discriminate|]. exists 1. destruct x; try discriminate; reflexivity.
Qed.

Lemma runs_sym : forall c t k w o, Runs c (Sym t k) w o <-> o = lookup c k w.
Proof.
  intros c t k w o. split.
  - intros [H [n E]]. destruct n; cbn in E; [exfalso; apply H; rewrite <- E; reflexivity|]; auto.
  - intros ->. split; [discriminate|]. exists 1. reflexivity.
Qed.

Lemma means_lookup : forall c w k v, means c w k v <-> lookup c k w = Ret v w.
Proof.
  intros c w k v. unfold lookup. split.
  - intros [v' H|v' H1 H2|H1 H2]; repeat match goal with H : shows _ _ _ |- _ =>
      apply env_get_shows in H; rewrite H end; auto.
  - destruct (env_get c k) eqn:E1; [|destruct (env_get (globals w) k) eqn:E2];
      intro H; inversion H; subst; [constructor 1|constructor 2|constructor 3];
      apply env_get_shows; auto.
Qed.
Lemma runs_means : forall c t k w v o, means c w k v -> (Runs c (Sym t k) w o <-> o = Ret v w).
Proof. intros c t k w v o H. rewrite runs_sym. apply means_lookup in H. rewrite H. tauto. Qed.

Lemma runs_pair : forall c t a d w o, Runs c (Pair t a d) w o <->
  andthen (Runs c a w) (fun v w1 o =>
    if is_func v then Rfunc c a v d w1 o
    else if equ a v then o = Ret (Cons v d) w1
    else if is_symb v || is_pair v then Runs c (Cons v d) w1 o
    else o = Ret (Cons v d) w1) o.
Proof.
  intros. rewrite runs_conv.
  rewrite (conv_shift _ (fun n => eval_pair O (evN n) n c a d w)); auto.
  unfold eval_pair. rewrite conv_bind.
  - apply andthen_iff. { intro; rewrite runs_conv; tauto. }
    intros v w1 o1. destruct (is_func v); [tauto|].
    destruct (equ a v); [apply conv_ret|]. destruct (is_symb v || is_pair v).
    + rewrite runs_conv. tauto.
    + apply conv_ret.
  - apply eval_monof.
  - intros v w1. destruct (is_func v); [apply func_monof|].
    destruct (equ a v); [apply const_monof|].
    destruct (is_symb v || is_pair v); [apply eval_monof|apply const_monof].
Qed.

Lemma Rprog_pair : forall c t a d r w o,
  Rprog c (Pair t a d) r w o <-> andthen (Runs c a w) (fun v w1 => Rprog c d v w1) o.
Proof.
  intros. unfold Rprog. cbn [prog]. rewrite conv_bind.
  - apply andthen_iff; [intro; rewrite runs_conv|]; tauto.
  - apply eval_monof.
  - intros; apply prog_monof.
Qed.
Lemma Rprog_end : forall c x r w o, is_pair x = false -> (Rprog c x r w o <-> o = Ret r w).
Proof. intros c x r w o H. unfold Rprog. destruct x; try discriminate; cbn [prog]; apply conv_ret. Qed.

Lemma Rargs_nil : forall c acc vals w o, Rargs c acc Nil vals w o <-> o = Ret (acc, Nil) w.
Proof. intros. unfold Rargs. cbn [eval_args]. apply conv_ret. Qed.
Lemma Rargs_sym : forall c acc t k vals w o,
  Rargs c acc (Sym t k) vals w o <-> o = Ret ((k, vals) :: acc, Nil) w.
Proof. intros. unfold Rargs. cbn [eval_args]. apply conv_ret. Qed.
Lemma Rargs_out : forall c acc args w o, is_symb args = false ->
  (Rargs c acc args Nil w o <-> o = Ret (acc, args) w).
Proof.
  intros c acc args w o H. unfold Rargs. destruct args; try discriminate; cbn [eval_args]; apply conv_ret.
Qed.
Lemma Rargs_pair : forall c acc t arg oth u x y w o,
  Rargs c acc (Pair t arg oth) (Pair u x y) w o <->
  andthen (Runs c x w) (fun v w1 => Rargs c (bind acc arg v) oth y w1) o.
Proof.
  intros. unfold Rargs. cbn [eval_args car cdr]. rewrite conv_bind.
  - apply andthen_iff; [intro; rewrite runs_conv|]; tauto.
  - apply eval_monof.
  - intros; apply args_monof.
Qed.

Lemma opt_monof {A} (x : option A) w : monof (fun _ => opt x w).
Proof. apply const_monof. Qed.
Lemma conv_opt {A} (x : option A) w o :
  conv (fun _ => opt x w) o <-> o = match x with Some a => Ret a w | None => Stop UB end.
Proof. destruct x; [apply conv_ret|apply conv_halt]. Qed.
Lemma bind_opt {A B} (x : option A) (k : nat -> A -> M B) w o :
  conv (fun n => mbind (opt x) (k n) w) o <->
  match x with Some a => conv (fun n => k n a w) o | None => o = Stop UB end.
Proof.
  destruct x; cbn [opt].
  - apply conv_ext. reflexivity.
  - apply (conv_const (@Stop B UB)). discriminate.
Qed.

(** A call, once the function is known. *)
Lemma Rfunc_eq : forall c s f v w o, Rfunc c s f v w o <->
  if may_apply (car f) v then
    andthen (Rargs c [] (car f) v w) (fun r w1 o =>
      if is_null (snd r) then
        match cdr (cdr f) with
        | Num a =>
            match env_of_atom (car (cdr f)) with
            | None => o = Stop UB
            | Some d =>
                match prim_of_addr a with
                | None => o = Stop UB
                | Some p => Rprim p (fst r ++ d ++ c) w1 o
                end
            end
        | _ =>
            if is_tail_call s then o = Ret (Pair true s (atom_of_env (fst r))) w1
            else match env_of_atom (car (cdr f)) with
                 | None => o = Stop UB
                 | Some d => Rloop (merge c d) s (cdr (cdr f)) (fst r) w1 o
                 end
        end
      else match env_of_atom (car (cdr f)) with
           | None => o = Stop UB
           | Some d => o = Ret (Cons (snd r) (Cons (atom_of_env (fst r ++ d)) (cdr (cdr f)))) w1
           end) o
  else o = Ret Nil w.
Proof.
  intros. unfold Rfunc, eval_func. cbv zeta.
  destruct (may_apply (car f) v); cbn [negb]; [|apply conv_ret].
  set (k := fun (n : nat) (r : env * atom) => let (bscl, narg) := r in
      if is_null narg then
        match cdr (cdr f) with
        | Num a =>
            d <- opt (env_of_atom (car (cdr f))) ;;
            p <- opt (prim_of_addr a) ;;
            run_prim O (evN n) n p (bscl ++ d ++ c)
        | _ =>
            if is_tail_call s then ret (Pair true s (atom_of_env bscl))
            else
              d <- opt (env_of_atom (car (cdr f))) ;;
              tail_loop (evN n) n (merge c d) s (cdr (cdr f)) bscl
        end
      else
        d <- opt (env_of_atom (car (cdr f))) ;;
        ret (Cons narg (Cons (atom_of_env (bscl ++ d)) (cdr (cdr f))))).
  match goal with |- _ <-> ?R =>
    change (conv (fun n => mbind (eval_args (evN n) c [] (car f) v) (k n) w) o <-> R) end.
  rewrite (conv_bind (fun n => eval_args (evN n) c [] (car f) v) k w o).
  - apply andthen_iff; [intro; unfold Rargs; tauto|].
    intros [b na] w1 o1. subst k. cbn [fst snd]. destruct (is_null na).
    + destruct (cdr (cdr f)).
      5: { rewrite bind_opt. destruct (env_of_atom (car (cdr f))); [|tauto].
           rewrite bind_opt. destruct (prim_of_addr z); tauto. }
      all: destruct (is_tail_call s); [apply conv_ret|];
           rewrite bind_opt; destruct (env_of_atom (car (cdr f))); tauto.
    + rewrite bind_opt. destruct (env_of_atom (car (cdr f))); [apply conv_ret|tauto].
  - apply args_monof.
  - intros [b na] w1. subst k. cbv beta iota. destruct (is_null na).
    + destruct (cdr (cdr f)).
      5: { apply bind_monof; [apply opt_monof|]. intros. apply bind_monof; [apply opt_monof|].
           intros. apply prim_monof. }
      all: destruct (is_tail_call s); [apply const_monof|];
           apply bind_monof; [apply opt_monof|]; intros; apply loop_monof.
    + apply bind_monof; [apply opt_monof|]. intros; apply const_monof.
Qed.

(** One turn of the tail-call loop. *)
Lemma Rloop_eq : forall c s b e w o, Rloop c s b e w o <->
  andthen (Rprog (merge c e) b Nil w) (fun r w1 o =>
    match self_call s r with
    | None => o = Stop UB
    | Some None => o = Ret r w1
    | Some (Some x) =>
        match env_of_atom x with None => o = Stop UB | Some e' => Rloop c s b e' w1 o end
    end) o.
Proof.
  intros. unfold Rloop.
  (* the body runs with budget n+1 and the rest of the loop with n: both converge *)
  split.
  - intros [H [n E]]. destruct n; [exfalso; apply H; rewrite <- E; reflexivity|]. cbn [tail_loop] in E.
    unfold mbind in E at 1. destruct (prog (evN (S n)) (merge c e) b Nil w) as [r w1|x|] eqn:P.
    + left. exists r, w1. split. { split; [discriminate|exists (S n); auto]. }
      unfold mbind at 1, opt in E. destruct (self_call s r) as [[x|]|]; unfold ret, halt in E; cbv beta iota in E.
      * unfold mbind, opt in E. destruct (env_of_atom x) as [e'|]; unfold ret, halt in E; cbv beta iota in E; [|congruence].
        split; auto. exists (S n).
        assert (L := tail_loop_mono (evN (S n)) (evN (S n)) (fun c x => lem_refl _) n (S n) c s b e' (Nat.le_succ_diag_r n) w1).
        destruct L as [L|L]; [congruence|]. congruence.
      * auto.
      * auto.
    + right. exists x. split; [|congruence]. split; [discriminate|exists (S n); auto].
    + congruence.
  - intros [[r [w1 [P Q]]]|[x [P ->]]].
    + destruct P as [_ [n P]].
      assert (Pm : forall m, n <= m -> prog (evN m) (merge c e) b Nil w = Ret r w1).
      { intros m L. apply (conv_at _ _ n (prog_monof (merge c e) b Nil w) P); auto. discriminate. }
      destruct (self_call s r) as [[x|]|] eqn:SC.
      * destruct (env_of_atom x) as [e'|] eqn:EX.
        -- destruct Q as [H [p E]]. split; auto. exists (S (Nat.max n p)). cbn [tail_loop].
           unfold mbind at 1. rewrite Pm by lia. unfold mbind at 1, opt at 1. rewrite SC. unfold ret; cbv beta iota.
           unfold mbind, opt. rewrite EX. unfold ret; cbv beta iota.
           assert (L := tail_loop_mono (evN p) (evN (S (Nat.max n p)))
                          (fun c x => eval_mono O p (S (Nat.max n p)) ltac:(lia) c x)
                          p (Nat.max n p) c s b e' ltac:(lia) w1).
           destruct L as [L|L]; congruence.
        -- subst o. split; [discriminate|]. exists (S n). cbn [tail_loop].
           unfold mbind at 1. rewrite Pm by lia. unfold mbind at 1, opt at 1. rewrite SC. unfold ret; cbv beta iota.
           unfold mbind, opt. rewrite EX. auto.
      * subst o. split; [discriminate|]. exists (S n). cbn [tail_loop].
        unfold mbind at 1. rewrite Pm by lia. unfold mbind, opt. rewrite SC. auto.
      * subst o. split; [discriminate|]. exists (S n). cbn [tail_loop].
        unfold mbind at 1. rewrite Pm by lia. unfold mbind, opt. rewrite SC. auto.
    + destruct P as [_ [n P]]. split; [discriminate|]. exists (S n). cbn [tail_loop].
      unfold mbind at 1.
      rewrite (conv_at _ _ n (prog_monof (merge c e) b Nil w) P) by (try discriminate; lia). auto.
Qed.

End Big.
