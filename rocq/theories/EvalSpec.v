(** * EvalSpec: what the evaluator properties are stated with. *)
From Verif Require Import Value ValueSpec Eval.

(** [runs O c x w o]: evaluating expression [x] in local scope [c] from state [w]
    ends with outcome [o] (a result and a state, or a stop), for some budget.
    [O] is the behaviour of the outside world when a channel is opened. *)
Definition oracle := N -> bool -> atom -> bool.
Definition runs (O : oracle) (c : env) (x : atom) (w : world) (o : out atom) : Prop :=
  o <> NoFuel /\ exists n, eval O n c x w = o.

(** The same for a body: expressions evaluated in order, the last value kept. *)
Inductive runs_body (O : oracle) (c : env) : list atom -> atom -> world -> out atom -> Prop :=
| body_end : forall r w, runs_body O c [] r w (Ret r w)
| body_step : forall x l r w v w1 o, runs O c x w (Ret v w1) -> runs_body O c l v w1 o ->
    runs_body O c (x :: l) r w o
| body_stop : forall x l r w e, runs O c x w (Stop e) -> runs_body O c (x :: l) r w (Stop e).

(** Sequencing of outcomes: the first part gives a value and a state with which
    the second continues, or stops the whole. *)
Definition andthen {A B} (P : out A -> Prop) (Q : A -> world -> out B -> Prop) (o : out B) : Prop :=
  (exists a w, P (Ret a w) /\ Q a w o) \/ (exists e, P (Stop e) /\ o = Stop e).

(** The value a name has in a scope and a state: innermost local binding, else
    global, else NIL. *)
Inductive means (c : env) (w : world) (k : symbol) : atom -> Prop :=
| means_local : forall v, shows c k (Some v) -> means c w k v
| means_global : forall v, shows c k None -> shows (globals w) k (Some v) -> means c w k v
| means_nothing : shows c k None -> shows (globals w) k None -> means c w k Nil.

(** The builtin of a given name. *)
Definition the (s : string) : atom :=
  match env_get builtins (sy s) with Some v => v | None => Nil end.

(** [calls c w s]: in scope [c] and state [w] the name [s] still denotes the
    builtin of that name. *)
Definition calls (c : env) (w : world) (s : string) : Prop := means c w (sy s) (the s).

(** Expressions evaluated in order, all values kept. *)
Inductive runs_list (O : oracle) (c : env) : list atom -> world -> out (list atom) -> Prop :=
| list_end : forall w, runs_list O c [] w (Ret [] w)
| list_step : forall x l w v w1 vs w2, runs O c x w (Ret v w1) -> runs_list O c l w1 (Ret vs w2) ->
    runs_list O c (x :: l) w (Ret (v :: vs) w2)
| list_stop1 : forall x l w e, runs O c x w (Stop e) -> runs_list O c (x :: l) w (Stop e)
| list_stop2 : forall x l w v w1 e, runs O c x w (Ret v w1) -> runs_list O c l w1 (Stop e) ->
    runs_list O c (x :: l) w (Stop e).

(** Scopes layered one over the other: the first layer that has the name. *)
Fixpoint layered (ls : list env) (k : symbol) (r : option atom) : Prop :=
  match ls with
  | [] => r = None
  | e :: rest => (exists v, shows e k (Some v) /\ r = Some v) \/ (shows e k None /\ layered rest k r)
  end.
Definition scope (ls : list env) (s : env) : Prop :=
  increasing s /\ forall k r, shows s k r <-> layered ls k r.

(** An ordinary outcome: not the interpreter-internal marked result. *)
Definition quiet (o : out atom) : Prop :=
  match o with Ret r _ => is_tail_call r = false | _ => True end.

(** A user function: argument list, definition scope, body. *)
Definition lam (args : atom) (d : env) (body : list atom) : atom :=
  Cons args (Cons (atom_of_env d) (mk_list body)).
(** Named parameters. *)
Definition names (ks : list symbol) : list atom := map (fun k => Symb k) ks.

(** A parameter is a pattern; in a linear one no name occurs twice.  [layer pat v b]:
    the scope [b] binds exactly the names of the pattern, each to the part of [v]
    at the same position. *)
Definition linear (pat : atom) : Prop :=
  forall k p q, occurs pat p k -> occurs pat q k -> p = q.
Definition layer (pat v : atom) (b : env) : Prop :=
  forall k r, shows b k r <->
    (exists p, occurs pat p k /\ r = Some (part v p)) \/ ((forall p, ~ occurs pat p k) /\ r = None).
(** One layer per parameter. *)
Inductive layers : list atom -> list atom -> list env -> Prop :=
| layers_nil : layers [] [] []
| layers_cons : forall p ps v vs b ls, layer p v b -> layers ps vs ls ->
    layers (p :: ps) (v :: vs) (b :: ls).
(** The end of the argument list: nothing, or a name for the expressions left,
    which are not evaluated. *)
Inductive rest_layer : atom -> atom -> list env -> Prop :=
| rest_none : rest_layer Nil Nil []
| rest_some : forall t k r, rest_layer (Sym t k) r [[(k, r)]].

(** ** [let] *)

(** A binding list as written. *)
Definition bindings (bs : list (atom * atom)) : atom :=
  mk_list (map (fun b => Cons (fst b) (snd b)) bs).
(** What [let] stores for a value: the value itself, except that a function bound
    to a name that is not bound yet has the self-calls of its body marked. *)
Inductive stored (S : env) : atom -> atom -> atom -> Prop :=
| stored_pattern : forall pat v, is_symb pat = false -> stored S pat v v
| stored_value : forall t k v, is_func v = false -> stored S (Sym t k) v v
| stored_shadow : forall t k v u, shows S k (Some u) -> stored S (Sym t k) v v
| stored_marked : forall t k t1 a t2 d b b', shows S k None ->
    is_func (Pair t1 a (Pair t2 d b)) = true -> mark_body k a b = Some b' ->
    stored S (Sym t k) (Pair t1 a (Pair t2 d b)) (Pair t1 a (Pair t2 d b')).
(** Bindings evaluated in order: each in the scope made of the ones before it over
    the enclosing scope. *)
Inductive runs_bindings (O : oracle) (c : env) :
  list (atom * atom) -> list env -> world -> list env -> world -> Prop :=
| bindings_end : forall ls w, runs_bindings O c [] ls w ls w
| bindings_step : forall pat e bs ls w S v w1 v' b ls' w',
    linear pat -> scope (ls ++ [c]) S -> runs O S e w (Ret v w1) -> stored S pat v v' ->
    layer pat v' b -> runs_bindings O c bs (ls ++ [b]) w1 ls' w' ->
    runs_bindings O c ((pat, e) :: bs) ls w ls' w'.

(** ** Arithmetic *)

(** The 64-bit signed range, and the integer operation of each name (quotient
    truncated towards zero, remainder with the sign of the dividend). *)
Definition int64 (z : Z) : Prop := (- 9223372036854775808 <= z <= 9223372036854775807)%Z.
Inductive computes : string -> Z -> Z -> Z -> Prop :=
| c_add : forall a b, int64 (a + b) -> computes "+" a b (a + b)
| c_sub : forall a b, int64 (a - b) -> computes "-" a b (a - b)
| c_mul : forall a b, int64 (a * b) -> computes "*" a b (a * b)
| c_div : forall a b q r, b <> 0%Z -> a = (b * q + r)%Z -> (Z.abs r < Z.abs b)%Z ->
    (0 <= r * a)%Z -> int64 q -> computes "/" a b q
| c_mod : forall a b q r, b <> 0%Z -> a = (b * q + r)%Z -> (Z.abs r < Z.abs b)%Z ->
    (0 <= r * a)%Z -> int64 q -> computes "%" a b r.
Inductive relation : string -> (Z -> Z -> Prop) -> Prop :=
| r_lt : relation "<" Z.lt
| r_le : relation "<=" Z.le
| r_gt : relation ">" Z.gt
| r_ge : relation ">=" Z.ge.

(** ** Globals and output *)

(** The globals differ at most at [k], which now has value [v]. *)
Definition redefined (w w' : world) (k : symbol) (v : atom) : Prop :=
  shows (globals w') k (Some v) /\
  (forall k' r, k' <> k -> (shows (globals w') k' r <-> shows (globals w) k' r)) /\
  outs w' = outs w /\ ichan w' = ichan w /\ ochan w' = ochan w /\ opens w' = opens w.

(** What an evaluation may do to the state: definitions and output are only
    added, the channel stacks are as before, and every piece of output went to the
    channel that was current at the start or to one opened since. *)
Definition extends (w w' : world) : Prop :=
  (exists g, globals w' = g ++ globals w) /\
  ichan w' = ichan w /\ ochan w' = ochan w /\ (opens w <= opens w')%N /\
  exists l, outs w' = l ++ outs w /\
    forall h b, In (h, b) l ->
      hd_error (ochan w) = Some h \/ (opens w <= h < opens w')%N.

(** The state with a channel opened and made current. *)
Definition entered (output : bool) (w : world) : world :=
  mkw (globals w) (outs w)
      (if output then ichan w else opens w :: ichan w)
      (if output then opens w :: ochan w else ochan w) (opens w + 1).
(** The state [w'] with the channel stacks of [w]. *)
Definition restored (w w' : world) : world :=
  mkw (globals w') (outs w') (ichan w) (ochan w) (opens w').

(** ** Tail positions *)

(** The names the marking of tail calls looks into. *)
Definition keywords : list string := (["if"; "cond"; "match"; "prog"; "|>"; "when"; "unless"])%string.
(** Source text carries no mark. *)
Fixpoint unmarked (x : atom) : bool :=
  match x with
  | Sym t _ => negb t
  | Pair t a d => negb t && unmarked a && unmarked d
  | _ => true
  end.

(** [clause_of l a e p]: the clause list [l] has the clause [(a . e)], with [e] at
    position [p]. *)
Inductive clause_of : atom -> atom -> atom -> path -> Prop :=
| clause_here : forall t u a e r, clause_of (Pair t (Pair u a e) r) a e [false; true]
| clause_next : forall t x r a e p, clause_of r a e p -> clause_of (Pair t x r) a e (true :: p).
(** The last expression of a non-empty body and its position. *)
Inductive last_expr : atom -> atom -> path -> Prop :=
| last_here : forall t x d, is_pair d = false -> last_expr (Pair t x d) x [false]
| last_next : forall t y d x p, last_expr d x p -> last_expr (Pair t y d) x (true :: p).

(** [tail_at x p]: position [p] of [x] is a tail position: branches of [if],
    right-hand sides of [cond] and [match], and the last expression of [prog],
    [when] and [unless].  When the six keywords have their builtin meaning and
    control reaches that position, its value is the value of [x]. *)
Inductive tail_at : atom -> path -> Prop :=
| tail_self : forall x, tail_at x []
| tail_then : forall t u t1 c t2 th r p, tail_at th p ->
    tail_at (Pair t (Sym u (sy "if")) (Pair t1 c (Pair t2 th r))) (true :: true :: false :: p)
| tail_else : forall t u t1 c t2 th t3 el r p, tail_at el p ->
    tail_at (Pair t (Sym u (sy "if")) (Pair t1 c (Pair t2 th (Pair t3 el r))))
            (true :: true :: true :: false :: p)
| tail_clause : forall t u k t1 c l a e q p, In k ["cond"; "match"]%string ->
    clause_of l a e q -> tail_at e p ->
    tail_at (Pair t (Sym u (sy k)) (Pair t1 c l)) (true :: true :: q ++ p)
| tail_prog : forall t u l x q p, last_expr l x q -> tail_at x p ->
    tail_at (Pair t (Sym u (sy "prog")) l) (true :: q ++ p)
| tail_when : forall t u k t1 c l x q p, In k ["when"; "unless"]%string ->
    last_expr l x q -> tail_at x p ->
    tail_at (Pair t (Sym u (sy k)) (Pair t1 c l)) (true :: true :: q ++ p).

(** The forms for which the selection of tail calls is right: no [|>], and [when]
    and [unless] with a single expression. *)
Inductive simple_tails : atom -> Prop :=
| simple_atom : forall x, is_pair x = false -> simple_tails x
| simple_head : forall t h d, is_symb h = false -> simple_tails (Pair t h d)
| simple_if : forall t u d, (forall t1 c t2 th r, d = Pair t1 c (Pair t2 th r) -> simple_tails th) ->
    (forall t1 c t2 th t3 el r, d = Pair t1 c (Pair t2 th (Pair t3 el r)) -> simple_tails el) ->
    simple_tails (Pair t (Sym u (sy "if")) d)
| simple_clauses : forall t u k d, In k ["cond"; "match"]%string ->
    (forall t1 c l a e q, d = Pair t1 c l -> clause_of l a e q -> simple_tails e) ->
    simple_tails (Pair t (Sym u (sy k)) d)
| simple_prog : forall t u d, (forall x q, last_expr d x q -> simple_tails x) ->
    simple_tails (Pair t (Sym u (sy "prog")) d)
| simple_when : forall t u k d, In k ["when"; "unless"]%string ->
    (forall t1 c t2 e r, d = Pair t1 c (Pair t2 e r) -> is_pair r = false /\ simple_tails e) ->
    simple_tails (Pair t (Sym u (sy k)) d)
| simple_call : forall t u s d,
    (forall k, In k ["if"; "cond"; "match"; "prog"; "|>"; "when"; "unless"]%string -> s <> sy k) ->
    simple_tails (Pair t (Sym u s) d).

(** ** Activations of a self-recursive function *)

(** [tails O c x w l w']: evaluating [x] in scope [c] from state [w] comes down to
    evaluating [l] from [w'], [l] being in tail position: the conditions, clauses
    and expressions before it have been evaluated.  When no branch or clause
    applies, [l] is NIL.  Only [match] on a name is considered. *)
Definition compound (x : atom) : bool :=
  match x with
  | Pair _ (Sym _ s) d =>
      match d with
      | Pair _ _ r =>
          (named s "if" && is_pair r) || named s "cond" || named s "match" || named s "prog" ||
          ((named s "when" || named s "unless") && is_pair r)
      | _ => false
      end
  | _ => false
  end.
Inductive tails (O : oracle) (c : env) : atom -> world -> atom -> world -> Prop :=
| tails_self : forall x w, compound x = false -> tails O c x w x w
| tails_if : forall t u t1 e t2 th r w v w1 l w', runs O c e w (Ret v w1) ->
    tails O c (if is_null v then car r else th) w1 l w' ->
    tails O c (Pair t (Sym u (sy "if")) (Pair t1 e (Pair t2 th r))) w l w'
| tails_cond : forall t u t1 e cl w l w', tails_clauses O c e cl w l w' ->
    tails O c (Pair t (Sym u (sy "cond")) (Pair t1 e cl)) w l w'
| tails_match : forall t u t1 t2 k cl w v l w', k <> sy "ANY" -> means c w k v ->
    tails_match_in O c v cl w l w' ->
    tails O c (Pair t (Sym u (sy "match")) (Pair t1 (Sym t2 k) cl)) w l w'
| tails_prog : forall t u t1 e d w l w', tails_body O c e d w l w' ->
    tails O c (Pair t (Sym u (sy "prog")) (Pair t1 e d)) w l w'
| tails_when : forall t u t1 e t2 x r w v w1 l w', runs O c e w (Ret v w1) -> is_pair r = false ->
    tails O c (if is_null v then Nil else x) w1 l w' ->
    tails O c (Pair t (Sym u (sy "when")) (Pair t1 e (Pair t2 x r))) w l w'
| tails_unless : forall t u t1 e t2 x r w v w1 l w', runs O c e w (Ret v w1) -> is_pair r = false ->
    tails O c (if is_null v then x else Nil) w1 l w' ->
    tails O c (Pair t (Sym u (sy "unless")) (Pair t1 e (Pair t2 x r))) w l w'
with tails_clauses (O : oracle) (c : env) : atom -> atom -> world -> atom -> world -> Prop :=
| clauses_wild : forall e t t1 x r w l w', tails O c x w l w' ->
    tails_clauses O c e (Pair t (Pair t1 Wild x) r) w l w'
| clauses_yes : forall e t t1 a x r w w1 l w', a <> Wild ->
    runs O c (Cons a (Cons e Nil)) w (Ret Tru w1) -> tails O c x w1 l w' ->
    tails_clauses O c e (Pair t (Pair t1 a x) r) w l w'
| clauses_no : forall e t t1 a x r w v w1 l w', a <> Wild ->
    runs O c (Cons a (Cons e Nil)) w (Ret v w1) -> v <> Tru -> tails_clauses O c e r w1 l w' ->
    tails_clauses O c e (Pair t (Pair t1 a x) r) w l w'
| clauses_end : forall e cl w, (forall t t1 a x r, cl <> Pair t (Pair t1 a x) r) ->
    tails_clauses O c e cl w Nil w
with tails_match_in (O : oracle) (c : env) : atom -> atom -> world -> atom -> world -> Prop :=
| match_yes : forall v t t1 a x r w l w', instance a v -> tails O c x w l w' ->
    tails_match_in O c v (Pair t (Pair t1 a x) r) w l w'
| match_no : forall v t t1 a x r w l w', ~ instance a v -> tails_match_in O c v r w l w' ->
    tails_match_in O c v (Pair t (Pair t1 a x) r) w l w'
| match_end : forall v cl w, (forall t t1 a x r, cl <> Pair t (Pair t1 a x) r) ->
    tails_match_in O c v cl w Nil w
with tails_body (O : oracle) (c : env) : atom -> atom -> world -> atom -> world -> Prop :=
| tbody_last : forall x d w l w', is_pair d = false -> tails O c x w l w' -> tails_body O c x d w l w'
| tbody_next : forall x t y d w v w1 l w', runs O c x w (Ret v w1) -> tails_body O c y d w1 l w' ->
    tails_body O c x (Pair t y d) w l w'.

(** [k] keeps its meaning in scope [S] from [w] to [w']: it is bound locally, or no
    global definition of it was added. *)
Definition held (S : env) (w w' : world) (k : symbol) : Prop :=
  (exists v, shows S k (Some v)) \/
  (exists g, globals w' = g ++ globals w /\ ~ In k (map fst g)).
(** The six keywords denote the builtins from [w] to [w']. *)
Definition steady (S : env) (w w' : world) : Prop :=
  forall k, In k ["if"; "cond"; "match"; "prog"; "when"; "unless"]%string ->
    calls S w k /\ held S w w' (sy k).
(** Every [match] in tail position examines a name other than [ANY] (the name the
    interpreter itself binds). *)
Definition plain_match (x : atom) : Prop :=
  forall p t u t1 e cl, tail_at x p -> part x p = Pair t (Sym u (sy "match")) (Pair t1 e cl) ->
    exists t2 k, e = Sym t2 k /\ k <> sy "ANY".

(** [activation O c d f ps tail before x S w S' w']: an activation of the function
    [f] with scope [S] starting in state [w] comes, by zero or more self-calls in
    tail position of the last expression [x], to an activation with scope [S']
    starting in [w'].  [before] are the expressions of the body before the last, [c]
    the scope of the caller, [d] the definition scope. *)
Inductive activation (O : oracle) (c d : env) (f : symbol) (ps : list atom) (tail : atom)
  (before : list atom) (x : atom) (S : env) (w : world) : env -> world -> Prop :=
| act_here : activation O c d f ps tail before x S w S w
| act_next : forall S1 w1 v w2 t u es rest w3 vs w4 ls rl S2,
    activation O c d f ps tail before x S w S1 w1 ->
    runs_body O S1 before Nil w1 (Ret v w2) ->
    tails O S1 x w2 (Pair t (Sym u f) (arg_list es rest)) w3 ->
    length es = length ps -> runs_list O S1 es w3 (Ret vs w4) ->
    layers ps vs ls -> rest_layer tail rest rl -> scope (ls ++ rl ++ [d; c]) S2 ->
    activation O c d f ps tail before x S w S2 w4.
