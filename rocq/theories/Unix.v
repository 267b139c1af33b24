(** * Unix: the builtins of lib/mnml/unix, lib/mnml/sys/time.c and
    lib/mnml/io/readline.c, as programs that call the operating system.

    Definitions only; proofs are in [UnixProofs.v].  Arguments that the evaluator
    binds before the call (lib/core/eval.c:81-139) are given as values; a builtin
    that evaluates expressions itself is given the evaluator as a parameter. *)
From Verif Require Import Base Value CString Path.
Open Scope Z_scope.

(** ** Calls to the operating system *)

(** The calls made by the builtins (lib/mnml/unix/*.c), with the arguments that vary.  Descriptors,
    process numbers and the address list made by getaddrinfo are numbers. *)
Inductive call :=
| Socket                                (* socket(AF_INET, SOCK_STREAM, 0) *)
| NoDelay (fd : Z)                      (* setsockopt(fd, SOL_TCP, TCP_NODELAY, 1) *)
| ReusePort (fd : Z)                    (* setsockopt(fd, SOL_SOCKET, SO_REUSEPORT, 1) *)
| Bind (fd port : Z)                    (* bind(fd, INADDR_ANY:port) *)
| Listen (fd backlog : Z)
| Accept (fd : Z)
| Resolve (node service : bytes)        (* getaddrinfo *)
| FreeAddr (ai : Z)                     (* freeaddrinfo *)
| Connect (fd ai : Z)                   (* connect, first entry of the list *)
| Close (fd : Z)
| Dup (fd : Z)
| Dup2 (fd target : Z)
| Fork
| WaitPid (pid : Z)                     (* waitpid(pid, &state, 0) *)
| MakePipe                              (* pipe *)
| Unlink (name : bytes)
| Exec (path : bytes) (argv : list bytes) (envp : option (list bytes))
                                        (* execve; [None]: the variable environ *)
| Select (n : Z) (rset eset : list Z)   (* select(n, rset, NULL, eset, NULL) *)
| Clock.                                (* clock_gettime, in nanoseconds *)

(** What a call answers: the returned value, errno, and what it stores through its
    pointer arguments: two numbers (getaddrinfo: the list; accept: family and port;
    waitpid: WIFEXITED and WEXITSTATUS of the state; pipe: the two descriptors), a
    text (accept: the address as inet_ntop writes it), two sets (select). *)
Record reply := mkreply {
  rv : Z; er : Z; out1 : Z; out2 : Z; txt : bytes; rd : list Z; ex : list Z
}.

(** A program: finished, waiting for a call, undefined behaviour, or exited. *)
Inductive prog (A : Type) : Type :=
| Fin (a : A)
| Ask (c : call) (k : reply -> prog A)
| Undef
| Exit (status : Z).
Arguments Fin {A}. Arguments Ask {A}. Arguments Undef {A}. Arguments Exit {A}.

(** Sequence, and a step that is undefined when [None]; no C code of their own. *)
Fixpoint pbind {A B} (p : prog A) (f : A -> prog B) : prog B :=
  match p with
  | Fin a => f a
  | Ask c k => Ask c (fun r => pbind (k r) f)
  | Undef => Undef
  | Exit z => Exit z
  end.
Notation "x <-- m ;; k" := (pbind m (fun x => k)) (at level 61, m at next level, right associativity).
Definition need {A} (o : option A) : prog A := match o with Some a => Fin a | None => Undef end.

(** How a run ends.  [Waits c]: [c] has not returned (yet). *)
Inductive ending (A : Type) : Type :=
| Returns (a : A) | Undefined | Exits (status : Z) | Waits (c : call).
Arguments Returns {A}. Arguments Undefined {A}. Arguments Exits {A}. Arguments Waits {A}.

(** The runs of a program: the calls with their answers, oldest first.  Every
    answer is possible. *)
Definition trace := list (call * reply).
Inductive plays {A} : prog A -> trace -> ending A -> Prop :=
| plays_fin : forall a, plays (Fin a) [] (Returns a)
| plays_undef : plays Undef [] Undefined
| plays_exit : forall z, plays (Exit z) [] (Exits z)
| plays_wait : forall c k, plays (Ask c k) [] (Waits c)
| plays_ask : forall c k r t e, plays (k r) t e -> plays (Ask c k) ((c, r) :: t) e.

(** ** C conversions *)

(** [(int)x] on the supported targets (no C code of its own). *)
Definition to_int (z : Z) : Z :=
  let m := z mod 2 ^ 32 in if m <? 2 ^ 31 then m else m - 2 ^ 32.

(** lib/core/utils.c lisp_make_cstring(v, buffer, len, 0) ([CString.v]) with [char buffer[size]], then the text up to
    its terminator; with the count it returns.  [None]: undefined behaviour. *)
Definition c_text (size len : nat) (v : atom) : option (bytes * nat) :=
  match make_cstring size v (fun _ => 0%N) 0 len 0 with
  | Some (m, n) => Some (cstr (map m (seq 0 n)), n)
  | None => None
  end.

(** ** Sockets *)

(** lib/mnml/unix/connect.c:16-91; [char address[1024]], [char service[1024]]. *)
Definition HOST_MAX : nat := N.to_nat 1024.
Definition connect (address port : atom) : prog atom :=
  if negb (is_string address && is_string port) then Fin Nil
  else
    a <-- need (c_text HOST_MAX HOST_MAX address) ;;
    if Nat.eqb (snd a) 0 then Fin Nil
    else
      s <-- need (c_text HOST_MAX HOST_MAX port) ;;
      if Nat.eqb (snd s) 0 then Fin Nil
      else
        Ask Socket (fun r =>
        if rv r <? 0 then Fin Nil
        else
          let fd := rv r in
          Ask (NoDelay fd) (fun r =>
          if rv r <? 0 then Ask (Close fd) (fun _ => Fin Nil)
          else
            Ask (Resolve (fst a) (fst s)) (fun r =>
            if negb (rv r =? 0) then Ask (Close fd) (fun _ => Fin Nil)
            else
              let ai := out1 r in
              Ask (Connect fd ai) (fun r =>
              Ask (FreeAddr ai) (fun _ =>
              if negb (rv r =? 0) then Ask (Close fd) (fun _ => Fin Nil)
              else Fin (Num fd)))))).

(** lib/mnml/unix/listen.c:15-79.  UINT16_MAX = 65535. *)
Definition listen (port : atom) : prog atom :=
  match port with
  | Num p =>
      if (p <? 0) || (p >=? 65535) then Fin Nil
      else
        Ask Socket (fun r =>
        if rv r <? 0 then Fin Nil
        else
          let fd := rv r in
          Ask (NoDelay fd) (fun r =>
          if rv r <? 0 then Ask (Close fd) (fun _ => Fin Nil)
          else
            Ask (ReusePort fd) (fun r =>
            if rv r <? 0 then Ask (Close fd) (fun _ => Fin Nil)
            else
              Ask (Bind fd p) (fun r =>
              if rv r <? 0 then Ask (Close fd) (fun _ => Fin Nil)
              else
                Ask (Listen fd 5) (fun r =>
                if rv r <? 0 then Ask (Close fd) (fun _ => Fin Nil)
                else Fin (Num fd))))))
  | _ => Fin Nil
  end.

(** lib/mnml/unix/accept.c:9-34 convert; AF_INET = 2. *)
Definition peer (r : reply) : atom :=
  if negb (out1 r =? 2) then Nil else Cons (make_string (txt r)) (Num (out2 r)).
(** lib/mnml/unix/accept.c:36-62; UINT32_MAX = 2^32 - 1. *)
Definition accept (fd : atom) : prog atom :=
  match fd with
  | Num n =>
      if (n <? 0) || (n >=? 2 ^ 32 - 1) then Fin Nil
      else
        Ask (Accept (to_int n)) (fun r =>
        if rv r <? 0 then Fin Nil else Fin (Cons (Num (rv r)) (peer r)))
  | _ => Fin Nil
  end.

(** ** Descriptors *)

Section Eval.
(** lisp_eval in the scope the builtin runs in (the closure without its arguments). *)
Variable ev : atom -> prog atom.

(** lib/mnml/unix/close.c:6-21 lisp_close.  A tail that is neither NIL nor a pair has
    NIL for head and tail (lisp.h:296-312). *)
Fixpoint close_loop (cell : atom) (res : bool) : prog bool :=
  match cell with
  | Nil => Fin res
  | Pair _ a d =>
      v <-- ev a ;; n <-- need (num_field v) ;;
      Ask (Close (to_int n)) (fun r => close_loop d (res && (rv r =? 0)))
  | _ =>
      v <-- ev Nil ;; n <-- need (num_field v) ;;
      Ask (Close (to_int n)) (fun r => Fin (res && (rv r =? 0)))
  end.
(** lib/mnml/unix/close.c:23-29. *)
Definition close (any : atom) : prog atom :=
  b <-- close_loop any true ;; Fin (if b : bool then Tru else Nil).

(** lib/mnml/unix/dup.c:8-33. *)
Definition dup (any : atom) : prog atom :=
  a <-- ev (car any) ;;
  t <-- ev (car (cdr any)) ;;
  n <-- need (num_field a) ;;
  if is_null t then
    Ask (Dup (to_int n)) (fun r => Fin (Num (if rv r <? 0 then er r else rv r)))
  else
    m <-- need (num_field t) ;;
    Ask (Dup2 (to_int n) (to_int m)) (fun r => Fin (Num (if rv r <? 0 then er r else rv r))).

(** lib/mnml/sys/time.c:6-21; the difference is taken modulo 2^64. *)
Definition time (any : atom) : prog atom :=
  Ask Clock (fun r1 =>
  if is_null any then Fin (Num (to_i64 (rv r1)))
  else
    _ <-- ev (car any) ;;
    Ask Clock (fun r2 => Fin (Num (to_i64 (rv r2 - rv r1))))).

(** lib/mnml/unix/pipe.c:7-17. *)
Definition pipe : prog atom :=
  Ask MakePipe (fun r =>
  if negb (rv r =? 0) then Fin Nil else Fin (Cons (Num (out1 r)) (Num (out2 r)))).

(** lib/mnml/unix/select.c:8-32 convert: the sets (the same list for both), and the
    greatest descriptor.  FD_SETSIZE = 1024: a greater one is stored outside the set.
    [cur] is an [int]. *)
Fixpoint watch (fds : atom) (set : list Z) : option (list Z * Z) :=
  match fds with
  | Pair _ a d =>
      match
        match a with
        | Num n => if (n >=? 0) && (n <? 2 ^ 32 - 1)
                   then if n <? 1024 then Some (set ++ [n], n) else None
                   else Some (set, 0)
        | _ => Some (set, 0)
        end
      with
      | None => None
      | Some (set', cur) =>
          match watch d set' with
          | None => None
          | Some (set'', nxt) => Some (set'', if cur >? nxt then cur else nxt)
          end
      end
  | _ => Some (set, -1)
  end.

(** FD_ISSET; [None]: outside the set. *)
Definition isset (n : Z) (set : list Z) : option bool :=
  if (0 <=? n) && (n <? 1024) then Some (existsb (Z.eqb n) set) else None.

(** lib/mnml/unix/select.c:34-97 process_r.  [cb] is a symbol, never NIL
    (select.c:99-108). *)
Fixpoint process (cb fds : atom) (set : list Z) : prog atom :=
  match fds with
  | Pair _ a d =>
      act <-- match a with
              | Num n =>
                  b <-- need (isset n set) ;;
                  if b : bool then ev (Cons cb (Cons a Nil)) else Fin Tru
              | _ => Fin Nil
              end ;;
      match act with
      | Num z =>
          nxt <-- process cb d set ;;
          n <-- need (num_field a) ;;
          if n =? z then Fin (Cons a nxt) else Fin (Cons act (Cons a nxt))
      | Nil =>
          n <-- need (num_field a) ;;
          Ask (Close (to_int n)) (fun _ => process cb d set)
      | _ => nxt <-- process cb d set ;; Fin (Cons a nxt)
      end
  | _ => Fin Nil
  end.

(** lib/mnml/unix/select.c:110-153, once FDS has been taken from the closure. *)
Definition select (fds : atom) : prog atom :=
  if negb (is_list fds) then Fin Nil
  else
    w <-- need (watch fds []) ;;
    Ask (Select (snd w + 1) (fst w) (fst w)) (fun r =>
    if rv r <? 0 then Fin Nil
    else
      rres <-- process (Symb (sy "ON_READ")) fds (rd r) ;;
      eres <-- process (Symb (sy "ON_ERROR")) fds (ex r) ;;
      Fin (Cons rres (Cons eres Nil))).
End Eval.

(** select.c:117 LISP_ARGS(closure, C, FDS), module.h:155-160 A_1: the value at the
    head of the closure is taken, the rest is the scope of the evaluations. *)
Definition select_builtin (ev : env -> atom -> prog atom) (closure : env) : prog atom :=
  match closure with
  | (_, v) :: c => select (ev c) v
  | [] => Undef
  end.

(** ** Processes and files *)

(** lib/mnml/unix/fork.c:7-12. *)
Definition fork : prog atom :=
  Ask Fork (fun r => Fin (Num (if rv r <? 0 then er r else rv r))).

(** lib/mnml/unix/wait.c:7-28. *)
Definition wait (x : atom) : prog atom :=
  n <-- need (num_field x) ;;
  Ask (WaitPid (to_int n)) (fun r =>
  if rv r <? 0 then Fin (Num (er r))
  else if out1 r =? 0 then Fin Nil else Fin (Num (out2 r))).

(** lib/mnml/unix/unlink.c:7-26; [char name_buf[PATH_MAX]]. *)
Definition unlink (name : atom) : prog atom :=
  if negb (is_string name) then Fin Nil
  else
    n <-- need (c_text PATH_MAX PATH_MAX name) ;;
    Ask (Unlink (fst n)) (fun r => Fin (if rv r =? 0 then Tru else Nil)).

(** lib/mnml/unix/exec.c:17-37 MAX_ARGS, lisp_exec_make_strings: the strings stored
    from [idx] on in an array of [size] pointers, a null pointer after them.  strdup
    copies up to the terminator; its failure is not modelled.  [None]: undefined
    behaviour (a store outside the array, an element that is not a string). *)
Definition MAX_ARGS : nat := 128.
Fixpoint make_strings (size : nat) (cell : atom) (len idx : nat) : option (list bytes) :=
  if negb (Nat.ltb idx size) then None
  else if Nat.eqb idx len then Some []
  else
    match cell with
    | Nil => Some []
    | Pair _ a d =>
        match c_text (S PATH_MAX) PATH_MAX a with
        | Some (s, _) => match make_strings size d len (S idx) with
                         | Some l => Some (s :: l)
                         | None => None
                         end
        | None => None
        end
    | _ => if Nat.ltb (S idx) size then Some [[]] else None
    end.

(** lib/mnml/unix/exec.c:39-69; the message printed when execve fails is omitted. *)
Definition exec (path args envp : atom) : prog atom :=
  p <-- need (c_text (S PATH_MAX) PATH_MAX path) ;;
  a <-- need (make_strings (S MAX_ARGS) args (MAX_ARGS - 1) 1) ;;
  e <-- need (make_strings (S MAX_ARGS) envp MAX_ARGS 0) ;;
  Ask (Exec (fst p) (fst p :: a) (match e with [] => None | _ => Some e end))
      (fun r => Exit (er r)).

(** ** Lines *)

(** getline (lib/mnml/io/readline.c:16): the bytes up to and with the next newline, or what is left; [None] at
    the end of the stream. *)
Fixpoint take_line (s : bytes) : bytes * bytes :=
  match s with
  | [] => ([], [])
  | b :: r => if N.eqb b 10 then ([b], r) else let (l, r') := take_line r in (b :: l, r')
  end.
Definition getline (s : bytes) : option (bytes * bytes) :=
  match s with [] => None | _ => Some (take_line s) end.

(** lib/mnml/io/readline.c:7-33, on the bytes the current input channel still has:
    the value and the bytes left. *)
Definition readline (s : bytes) : atom * bytes :=
  match getline s with
  | None => (Symb (sy "EOF"), s)
  | Some (line, r) =>
      let line' := if N.eqb (last line 0%N) 0 then line else removelast line in
      (make_string line', r)
  end.

(** [n] calls of lib/mnml/io/readline.c:7-33 one after the other. *)
Fixpoint readlines (n : nat) (s : bytes) : list atom * bytes :=
  match n with
  | O => ([], s)
  | S n' => let (v, r) := readline s in let (vs, r') := readlines n' r in (v :: vs, r')
  end.
