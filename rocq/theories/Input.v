(** * Input: reading from the input channels.

    Definitions only; properties are in [Properties17.v]. *)
From Verif Require Import Base Value Lexer Parser.
From Verif Require Unix.

Section Input.
(** Evaluation at read time (backquotes and splices), and what it acts on. *)
Variable W : Type.
Variable ev : atom -> W -> option (atom * W).

(** include/mnml/utils.h:135-142: an entry of lisp->ichan is a handle, a directory and
    the values read and not yet handed out.  Here: these values, and the bytes the
    handle still has (the handle is taken to be at the place the stream library is at;
    the directory is left out). *)
Record chan := mkchan { pend : list atom; rest : bytes }.

(** lib/mnml/io/read.c:5-10 lisp_function_read on the first channel of lisp->ichan
    (lib/core/read.c:45-47): NIL when lisp_read has nothing.  [None]: the reader does not return
    or meets a lexical error (Parser.v).  fgets returns NULL only at the end of the
    stream, so nothing is left then.  The bound on the turns of lisp_read is one more
    than the bytes left: every turn takes one. *)
Definition read (c : chan) (w : W) : option (atom * chan * W) :=
  match lisp_read W ev (S (length (rest c))) (pend c) (rest c) w with
  | Value _ x more r w' => Some (x, mkchan more r, w')
  | Eof _ w' => Some (Nil, mkchan [] [], w')
  | _ => None
  end.
(** lib/mnml/io/readline.c:7-33 on the same channel: its values are not looked at. *)
Definition readline (c : chan) : atom * chan :=
  let (v, r) := Unix.readline (rest c) in (v, mkchan (pend c) r).

(** Calls of io/read.c and io/readline.c:7-33 one after the other. *)
Inductive call := Read | Readline.
Fixpoint calls (l : list call) (c : chan) (w : W) : option (list atom * chan * W) :=
  match l with
  | [] => Some ([], c, w)
  | Read :: l' =>
      match read c w with
      | Some (v, c', w') => match calls l' c' w' with Some (vs, c2, w2) => Some (v :: vs, c2, w2) | None => None end
      | None => None
      end
  | Readline :: l' =>
      let (v, c') := readline c in
      match calls l' c' w with Some (vs, c2, w2) => Some (v :: vs, c2, w2) | None => None end
  end.

(** The evaluation of an expression of a script: [(read)] reads from the first channel.
    Simplification: only as a whole expression; the others are evaluated by [run]. *)
Variable run : atom -> W -> option (atom * W).
Definition expression (x : atom) (chans : list chan) (w : W) : option (atom * list chan * W) :=
  match x, chans with
  | Pair _ (Sym _ k) Nil, c :: r =>
      if list_eq_dec N.eq_dec k (sy "read") then
        match read c w with Some (v, c', w') => Some (v, c' :: r, w') | None => None end
      else match run x w with Some (v, w') => Some (v, chans, w') | None => None end
  | _, _ => match run x w with Some (v, w') => Some (v, chans, w') | None => None end
  end.
(** lib/core/utils.c:685-709 in lisp_load_file: the script is the first channel while
    its expressions are read and evaluated; then the channel is removed.  The values of
    the expressions, in order. *)
Fixpoint script_loop (k : nat) (chans : list chan) (w : W) : option (list atom * list chan * W) :=
  match k, chans with
  | S k', c :: r =>
      match lisp_read W ev (S (length (rest c))) (pend c) (rest c) w with
      | Value _ x more t w1 =>
          match expression x (mkchan more t :: r) w1 with
          | Some (v, chans', w2) =>
              match script_loop k' chans' w2 with Some (vs, c2, w3) => Some (v :: vs, c2, w3) | None => None end
          | None => None
          end
      | Eof _ w1 => Some ([], r, w1)
      | _ => None
      end
  | _, _ => None
  end.
Definition script (text : bytes) (chans : list chan) (w : W) : option (list atom * list chan * W) :=
  script_loop (S (length text)) (mkchan [] text :: chans) w.
End Input.
Arguments mkchan pend rest : assert.
