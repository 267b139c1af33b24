(** * BuiltinSpec: what the properties of the remaining builtins are stated with. *)
From Verif Require Import Value ValueSpec Eval EvalSpec PrintSpec.

(** ** Values *)

(** A string: a list of characters ended by NIL. *)
Inductive text_value : atom -> Prop :=
| text_end : text_value Nil
| text_char : forall t c d, text_value d -> text_value (Pair t (Chr c) d).

(** The predicates of the language and what each one holds of. *)
Inductive predicate : string -> (atom -> Prop) -> Prop :=
| p_nil : predicate "nil?" (fun v => v = Nil)
| p_not : predicate "not" (fun v => v = Nil)
| p_tru : predicate "tru?" (fun v => v = Tru)
| p_chr : predicate "chr?" (fun v => exists c, v = Chr c)
| p_num : predicate "num?" (fun v => exists z, v = Num z)
| p_sym : predicate "sym?" (fun v => exists t k, v = Sym t k)
| p_lst : predicate "lst?" (fun v => v = Nil \/ exists t a d, v = Pair t a d)
| p_atm : predicate "atm?" (fun v => v <> Nil /\ forall t a d, v <> Pair t a d)
| p_str : predicate "str?" text_value.

(** The answer of a predicate. *)
Definition answer (P : Prop) (v : atom) : Prop := (P /\ v = Tru) \/ (~ P /\ v = Nil).

(** Head and tail of a value; NIL when it is not a pair. *)
Inductive half : string -> atom -> atom -> Prop :=
| half_car : forall t a d, half "car" (Pair t a d) a
| half_cdr : forall t a d, half "cdr" (Pair t a d) d
| half_none : forall s v, (forall t a d, v <> Pair t a d) -> half s v Nil.

(** The number of elements of a list, dotted or not; NIL for what is not a list. *)
Inductive spine : atom -> nat -> Prop :=
| spine_end : forall v, (forall t a d, v <> Pair t a d) -> spine v 0
| spine_pair : forall t a d n, spine d n -> spine (Pair t a d) (S n).
Inductive length_of : atom -> atom -> Prop :=
| length_list : forall v n, v = Nil \/ (exists t a d, v = Pair t a d) -> spine v n ->
    length_of v (Num (Z.of_nat n))
| length_atom : forall v, v <> Nil -> (forall t a d, v <> Pair t a d) -> length_of v Nil.

(** The 8-bit signed value of a number. *)
Definition as_char (z c : Z) : Prop := (-128 <= c <= 127)%Z /\ exists k, z = (c + 256 * k)%Z.

(** ** Control *)

(** [cond]: the clauses in order.  The predicate of a clause is applied to the
    subject expression, which is thus evaluated again for each clause. *)
Definition clauses (l : list (atom * atom)) : atom :=
  mk_list (map (fun b => Cons (fst b) (snd b)) l).
Inductive cond_runs (O : oracle) (c : env) (e : atom) :
  list (atom * atom) -> world -> out atom -> Prop :=
| cond_none : forall w, cond_runs O c e [] w (Ret Nil w)
| cond_default : forall x l w o, runs O c x w o -> cond_runs O c e ((Wild, x) :: l) w o
| cond_yes : forall p x l w w1 o, p <> Wild -> runs O c (mk_list [p; e]) w (Ret Tru w1) ->
    runs O c x w1 o -> cond_runs O c e ((p, x) :: l) w o
| cond_no : forall p x l w v w1 o, p <> Wild -> runs O c (mk_list [p; e]) w (Ret v w1) ->
    v <> Tru -> cond_runs O c e l w1 o -> cond_runs O c e ((p, x) :: l) w o
| cond_stop : forall p x l w s, p <> Wild -> runs O c (mk_list [p; e]) w (Stop s) ->
    cond_runs O c e ((p, x) :: l) w (Stop s).

(** [match]: the expression of the first clause whose template the value is an
    instance of; NIL if there is none. *)
Inductive chosen (v : atom) : list (atom * atom) -> atom -> Prop :=
| chosen_none : chosen v [] Nil
| chosen_here : forall p x l, instance p v -> chosen v ((p, x) :: l) x
| chosen_next : forall p x l y, ~ instance p v -> chosen v l y -> chosen v ((p, x) :: l) y.

(** [while]: the body as long as the condition is not NIL; the value is that of
    the last turn, [r] if there is none. *)
Inductive while_runs (O : oracle) (c : env) (e : atom) (body : list atom) :
  atom -> world -> out atom -> Prop :=
| while_end : forall r w w1, runs O c e w (Ret Nil w1) -> while_runs O c e body r w (Ret r w1)
| while_turn : forall r w v w1 r1 w2 o, runs O c e w (Ret v w1) -> v <> Nil ->
    runs_body O c body Nil w1 (Ret r1 w2) -> while_runs O c e body r1 w2 o ->
    while_runs O c e body r w o
| while_stop1 : forall r w s, runs O c e w (Stop s) -> while_runs O c e body r w (Stop s)
| while_stop2 : forall r w v w1 s, runs O c e w (Ret v w1) -> v <> Nil ->
    runs_body O c body Nil w1 (Stop s) -> while_runs O c e body r w (Stop s).

(** [|>]: the value of each stage is passed, quoted, to the next. *)
Inductive pipe_runs (O : oracle) (c : env) : atom -> list atom -> world -> out atom -> Prop :=
| pipe_last : forall x w o, runs O c x w o -> pipe_runs O c x [] w o
| pipe_next : forall x f l w v w1 o, runs O c x w (Ret v w1) ->
    pipe_runs O c (mk_list [f; Cons (Symb (sy "quote")) v]) l w1 o -> pipe_runs O c x (f :: l) w o
| pipe_stop : forall x f l w s, runs O c x w (Stop s) -> pipe_runs O c x (f :: l) w (Stop s).

(** ** Printing *)

(** The text reaches the current output channel and nothing else changes. *)
Definition sent (text : bytes) (w w' : world) : Prop :=
  exists h, hd_error (ochan w) = Some h /\ outs w' = (h, text) :: outs w /\
    globals w' = globals w /\ ichan w' = ichan w /\ ochan w' = ochan w /\ opens w' = opens w.
(** [writes O c text sep es r w v w']: the expressions evaluated in order, each value
    written as soon as it is known, in the form [text], with [sep] after every
    value but the last; [v] is the last value, [r] if there is none. *)
Inductive writes (O : oracle) (c : env) (text : atom -> bytes -> Prop) (sep : option bytes) :
  list atom -> atom -> world -> atom -> world -> Prop :=
| writes_end : forall r w, writes O c text sep [] r w r w
| writes_last : forall x r w v w1 t w2, runs O c x w (Ret v w1) -> text v t -> sent t w1 w2 ->
    writes O c text sep [x] r w v w2
| writes_next : forall x y l r w v w1 t w2 w3 v' w', runs O c x w (Ret v w1) -> text v t ->
    sent t w1 w2 -> match sep with Some s => sent s w2 w3 | None => w3 = w2 end ->
    writes O c text sep (y :: l) v w3 v' w' -> writes O c text sep (x :: y :: l) r w v' w'.
(** The two forms: [prin] writes the leaves, [print] the literal form.  Restricted
    to the values for which the printer is right (C23, C25). *)
Definition leaf_text (v : atom) (t : bytes) : Prop := c_value v /\ no_nil_element v /\ leaves v t.
Definition literal_text (v : atom) (t : bytes) : Prop := c_value v /\ literal v t.
Inductive printer : string -> (atom -> bytes -> Prop) -> option bytes -> bool -> Prop :=
| pr_prin : printer "prin" leaf_text None false
| pr_prinl : printer "prinl" leaf_text None true
| pr_print : printer "print" literal_text (Some (bs " ")) false
| pr_printl : printer "printl" literal_text (Some (bs " ")) true.
