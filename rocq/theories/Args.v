(** * Args: how a builtin gets its arguments (include/mnml/module.h).

    Definitions only; proofs are in [ArgsProofs.v]. *)
From Verif Require Import Base Value Eval.

(** include/mnml/module.h:36-96 LISP_CONS (S_1 to S_5): the argument list made from the
    names given to LISP_MODULE_SETUP.  One name is a symbol; a last name NIL ends a
    list, a last name REM is its tail.  Without names the preprocessor passes one empty
    name. *)
Fixpoint declare (l : list string) : atom :=
  match l with
  | [] => Symb (sy "")
  | [x] => Symb (sy x)
  | [x; y] => if String.eqb y "NIL" then Cons (Symb (sy x)) Nil
              else Cons (Symb (sy x)) (Symb (sy y))
  | x :: r => Cons (Symb (sy x)) (declare r)
  end.

(** include/mnml/module.h:153-181 LISP_ARGS (A_1 to A_4) without LISP_ENABLE_DEBUG: the
    last name gets the value at the head of the closure, the name before it the next
    one, and so on; the values in the order of the names, and the rest of the closure.
    [None]: the closure is too short. *)
Fixpoint take (names : list string) (closure : env) : option (list atom * env) :=
  match names with
  | [] => Some ([], closure)
  | _ :: r =>
      match take r closure with
      | Some (vs, (_, v) :: c) => Some (v :: vs, c)
      | _ => None
      end
  end.

(** For each builtin of lib/mnml: its name, the names after it in LISP_MODULE_SETUP, and
    the names in LISP_ARGS (or in the generator macros of module.h:187-214). *)
Definition builtin_args : list (string * list string * list string) :=
  [ ("in", ["CHAN"; "REM"], ["CHAN"; "REM"]); ("out", ["CHAN"; "REM"], ["CHAN"; "REM"]);
    ("prin", ["ANY"], ["ANY"]); ("prinl", ["ANY"], ["ANY"]); ("print", ["ANY"], ["ANY"]);
    ("printl", ["ANY"], ["ANY"]); ("read", [], []); ("readline", [], []);
    ("and", ["X"; "Y"; "NIL"], ["X"; "Y"]); ("=", ["X"; "Y"; "NIL"], ["X"; "Y"]);
    ("<>", ["X"; "Y"; "NIL"], ["X"; "Y"]); ("not", ["X"; "NIL"], ["X"]); ("or", ["ANY"], ["ANY"]);
    ("+", ["X"; "Y"; "NIL"], ["X"; "Y"]); ("/", ["X"; "Y"; "NIL"], ["X"; "Y"]);
    (">=", ["X"; "Y"; "NIL"], ["X"; "Y"]); (">", ["X"; "Y"; "NIL"], ["X"; "Y"]);
    ("<=", ["X"; "Y"; "NIL"], ["X"; "Y"]); ("<", ["X"; "Y"; "NIL"], ["X"; "Y"]);
    ("%", ["X"; "Y"; "NIL"], ["X"; "Y"]); ("*", ["X"; "Y"; "NIL"], ["X"; "Y"]);
    ("-", ["X"; "Y"; "NIL"], ["X"; "Y"]); ("car", ["X"; "NIL"], ["X"]); ("cdr", ["X"; "NIL"], ["X"]);
    ("chr", ["X"; "NIL"], ["X"]); ("conc", ["X"; "Y"; "NIL"], ["X"; "Y"]); ("cond", ["ANY"], ["ANY"]);
    ("cons", ["X"; "Y"; "NIL"], ["X"; "Y"]); ("def", ["ANY"], ["ANY"]); ("eval", ["X"; "NIL"], ["X"]);
    ("if", ["COND"; "REM"], ["COND"; "REM"]); ("atm?", ["X"; "NIL"], ["X"]);
    ("chr?", ["X"; "NIL"], ["X"]); ("lst?", ["X"; "NIL"], ["X"]); ("nil?", ["X"; "NIL"], ["X"]);
    ("num?", ["X"; "NIL"], ["X"]); ("str?", ["X"; "NIL"], ["X"]); ("sym?", ["X"; "NIL"], ["X"]);
    ("tru?", ["X"; "NIL"], ["X"]); ("\", ["ANY"], ["ANY"]); ("len", ["X"; "NIL"], ["X"]);
    ("let", ["ANY"], ["ANY"]); ("list", ["ANY"], ["ANY"]); ("load", ["ANY"], ["ANY"]);
    ("match", ["ANY"], ["ANY"]); ("prog", ["ANY"], ["ANY"]); ("quit", [], []);
    ("quote", ["ANY"], ["ANY"]); ("<-", ["ANY"], ["ANY"]); ("setq", ["ANY"], ["ANY"]);
    ("str", ["X"; "NIL"], ["X"]); ("|>", ["ANY"], ["ANY"]); ("sym", ["X"; "NIL"], ["X"]);
    ("unless", ["COND"; "REM"], ["COND"; "REM"]); ("when", ["COND"; "REM"], ["COND"; "REM"]);
    ("while", ["ANY"], ["ANY"]); ("slabinfo", [], []); ("time", ["ANY"], ["ANY"]);
    ("accept", ["FD"; "NIL"], ["FD"]); ("close", ["ANY"], ["ANY"]);
    ("connect", ["ADDRESS"; "PORT"; "NIL"], ["ADDRESS"; "PORT"]); ("dup", ["ANY"], ["ANY"]);
    ("exec", ["PATH"; "ARGS"; "ENVP"; "NIL"], ["PATH"; "ARGS"; "ENVP"]); ("fork", [], []);
    ("listen", ["PORT"; "NIL"], ["PORT"]); ("pipe", [], []);
    ("select", ["FDS"; "ON_READ"; "ON_ERROR"; "NIL"], ["FDS"]); ("unlink", ["NAME"; "NIL"], ["NAME"]);
    ("wait", ["X"; "NIL"], ["X"]) ]%string.
