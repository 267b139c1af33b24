(** * Lib: the bundled library (share/mnml), loaded by the model of the interpreter. *)
From Verif Require Import Base Value Tails Parser Eval LibText.
Open Scope nat_scope.

(** Read-time evaluation for the reader (parser.y:66-71, 83-88), no channel opened. *)
Definition at_read (n : nat) (x : atom) (w : world) : option (atom * world) :=
  match eval (fun _ _ _ => false) n [] x w with Ret v w' => Some (v, w') | _ => None end.

(** lib/core/utils.c:692-703 lisp_load_file, the loop: values are read from the
    file and evaluated at top level until the end of the file.  [n] bounds the
    number of values, the lines of one value and the depth of the evaluations;
    [None] when it is not enough or something stops.  The path, the input channel
    and the value returned are left out. *)
Fixpoint load_text (n budget : nat) (vals : list atom) (stream : bytes) (w : world) : option world :=
  match n with
  | O => None
  | S n' =>
      match lisp_read world (at_read budget) budget vals stream w with
      | Value _ x more rest w1 =>
          match eval (fun _ _ _ => false) budget [] x w1 with
          | Ret _ w2 => load_text n' budget more rest w2
          | _ => None
          end
      | Eof _ w1 => Some w1
      | _ => None
      end
  end.

(** Files loaded one after the other from program start.  The builtin [load]
    (lib/mnml/std/load.c) is not modelled: its name is unbound and the [load] forms
    at the head of the files have no effect; the files are given in an order in
    which each comes after the ones it loads, and every builtin is there from the
    start. *)
Fixpoint load_all (texts : list string) (w : world) : option world :=
  match texts with
  | [] => Some w
  | t :: r => match load_text 30 60 [] (bs t) w with Some w' => load_all r w' | None => None end
  end.
Definition texts : list string :=
  [iterators_l; rev_l; filter_l; append_l; has_l; manips_l; last_l; erase_l; replc_l;
   aton_l; ntoa_l; isort_l; insert_l; orelse_l; strlt_l; truncr_l].
Definition library : world := match load_all texts world0 with Some w => w | None => world0 end.

(** The value of a name once the library is loaded. *)
Definition lib (s : string) : atom :=
  match env_get (globals library) (sy s) with Some v => v | None => Nil end.
