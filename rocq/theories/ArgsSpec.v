(** * ArgsSpec: the arguments of a call of a builtin. *)
From Verif Require Import Base Value Eval.

Section Passing.
(** The evaluator. *)
Variable ev : env -> atom -> M atom.
Variable c : env.

(** Expressions evaluated one after the other. *)
Inductive evaluated : list atom -> world -> list atom -> world -> Prop :=
| ev_nil : forall w, evaluated [] w [] w
| ev_cons : forall e es w v w1 vs w2, ev c e w = Ret v w1 -> evaluated es w1 vs w2 ->
    evaluated (e :: es) w (v :: vs) w2.

(** What a builtin declared with these names is to receive from operands [es]: the
    values of the operands; with REM, the value of the first and the others as they
    are; with ANY alone, all as they are. *)
Inductive receives : list string -> list atom -> world -> list atom -> world -> Prop :=
| rec_any : forall x es w, receives [x] es w [mk_list es] w
| rec_rem : forall x e es w v w1, ev c e w = Ret v w1 ->
    receives [x; "REM"%string] (e :: es) w [v; mk_list es] w1
| rec_all : forall xs es w vs w', xs <> [] -> length es = length xs -> evaluated es w vs w' ->
    receives (xs ++ ["NIL"%string]) es w vs w'.
End Passing.
