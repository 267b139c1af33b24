(** * Load: modules, scripts, the builtin [load], and the main program. *)
From Verif Require Import Base Value Tails Parser Eval Path.
Open Scope nat_scope.

(** ** Modules *)

(** A module entry: the name and the value its load function stores
    (include/mnml/module.h:18-26, 111-130). *)
Definition entry : Type := bytes * atom.

(** Module files (lib/core/module.c:110-145, 190-215): the names in a directory ([None]: it cannot be opened), and what
    [dlopen] finds in a file: the module name and its entries ([None]: not a module). *)
Record disk := mkdisk {
  listing : bytes -> option (list bytes);
  binary : bytes -> option (bytes * list entry);
  module_path : option bytes;
  content : bytes -> option bytes
}.

(** strcmp(3) as an equality test (lib/core/module.c:132, 207, 277). *)
Fixpoint beq (a b : bytes) : bool :=
  match a, b with
  | [], [] => true
  | x :: a', y :: b' => N.eqb x y && beq a' b'
  | _, _ => false
  end.

(** ** State *)

(** struct lisp with the parts the evaluator leaves out: for each input channel the
    directory in its entry (the strings of PUSH_IO_CONTEXT), the modules opened
    (name and entries, standing for the handle), and whether SIGQUIT was received
    (bin/mnml.c:15-27). *)
Record st := mkst { wd : world; dirs : list atom; mods : list (symbol * list entry); quits : bool }.
Definition with_w (s : st) (w : world) : st := mkst w (dirs s) (mods s) (quits s).

(** Outcome: a result, a memory fault, an evaluation or a text outside the model
    (undefined behaviour of a builtin, input error), budget exhausted. *)
Inductive res (A : Type) := Got (a : A) (s : st) | Fault (f : fault) | Stuck | Short.
Arguments Got {A}. Arguments Fault {A}. Arguments Stuck {A}. Arguments Short {A}.
Definition andthen_ {A B} (r : res A) (k : A -> st -> res B) : res B :=
  match r with Got a s => k a s | Fault f => Fault f | Stuck => Stuck | Short => Short end.

Section Disk.
Variable H : host.
Variable D : disk.

(** lib/core/module.c:62, the size of the buffer of the search path. *)
Definition PATHS_MAX : nat := N.to_nat 8192.
(** lib/core/module.c:56-86 module_paths, its text. *)
Definition paths_text (h : bytes) : bytes :=
  install H ++ bs "/lib/mnml" ++ bs ":" ++ h ++ bs "/.mnml" ++
  match module_path D with Some e => bs ":" ++ e | None => [] end.
(** lib/core/module.c:26-86 lisp_library_prefix, lisp_usercache_prefix, module_paths, with
    their buffers.  [Null]: HOME is not set ([strcpy] from a null pointer).  (The static
    flags that keep the text for the next call are left out: the environment does not
    change.) *)
Definition module_paths : bytes + fault :=
  match fits (install H ++ bs "/lib/mnml") with
  | None => inr Past
  | Some _ =>
      match home H with
      | None => inr Null
      | Some h =>
          match fits (h ++ bs "/.mnml") with
          | None => inr Past
          | Some _ => if Nat.ltb (length (paths_text h)) PATHS_MAX then inl (paths_text h) else inr Past
          end
      end
  end.

(** module.c:92-157 module_find_at_path: the path of the module file (that it fits the
    buffer of the caller is checked in [module_load]). *)
Definition find_at (dir name : bytes) : option bytes :=
  match listing D dir with
  | None => None
  | Some l => if existsb (beq (bs "lib" ++ name ++ bs ".so")) l
              then Some (dir ++ bs "/" ++ bs "lib" ++ name ++ bs ".so") else None
  end.
(** module.c:159-176 module_find. *)
Fixpoint find_in (dirs : list bytes) (name : bytes) : option bytes :=
  match dirs with
  | [] => None
  | d :: r => match find_at d name with Some p => Some p | None => find_in r name end
  end.

(** module.c:182-216 module_load_at_path: the entries, if the file is the module asked
    for.  (The handle is not closed when it is not a module; not modelled.) *)
Definition open_at (path name : bytes) : option (list entry) :=
  match binary D path with
  | Some (n, es) => if beq n name then Some es else None
  | None => None
  end.

(** module.h:117-130, the load function of an entry; lisp_setq. *)
Definition bind_entry (e : entry) (w : world) : world :=
  mkw ((mk_symbol (fst e), snd e) :: globals w) (outs w) (ichan w) (ochan w) (opens w).
Definition named (e : entry) : atom := Symb (mk_symbol (fst e)).

(** module.c:242-291 module_load_symbols_list: the rest of the list first. *)
Fixpoint load_list (es : list entry) (cell : atom) (w : world) : atom * world :=
  match cell with
  | Pair _ a d =>
      let (nxt, w1) := load_list es d w in
      match a with
      | Sym _ s =>
          match find (fun e => beq (fst e) (sym_text s)) es with
          | Some e => (Cons (named e) nxt, bind_entry e w1)
          | None => (nxt, w1)
          end
      | _ => (nxt, w1)
      end
  | _ => (Nil, w)
  end.
(** module.c:293-344 module_load_symbols; T: every entry, from the last to the first. *)
Definition load_symbols (es : list entry) (cell : atom) (w : world) : atom * world :=
  match cell with
  | Tru => fold_right (fun e r => (Cons (named e) (fst r), bind_entry e (snd r))) (Nil, w) es
  | _ => load_list es cell w
  end.

(** module.c:218-240 module_find_from_cache, 346-406 module_load_binary.  (A file without
    lisp_module_entries counts as not a module.) *)
Definition load_binary (path : bytes) (name : symbol) (symbols : atom) (s : st) : atom * st :=
  let go es add :=
    let (syms, w') := load_symbols es symbols (wd s) in
    match syms with
    | Nil => (Nil, with_w s w')
    | _ => (syms, mkst w' (dirs s) (if add : bool then (name, es) :: mods s else mods s) (quits s))
    end in
  match find (fun m => sym_match (fst m) name) (mods s) with
  | Some (_, es) => go es false
  | None =>
      match open_at path (sym_text name) with
      | None => (Nil, s)
      | Some es => go es true
      end
  end.
(** module.c:471-511 module_load; the path goes into a buffer of PATH_MAX bytes. *)
Definition module_load (cell : atom) (s : st) : res atom :=
  match car cell with
  | Sym _ name =>
      match module_paths with
      | inr f => Fault f
      | inl paths =>
          match find_in (Path.tokens paths) (sym_text name) with
          | None => Got Nil s
          | Some path =>
              match fits path with
              | None => Fault Past
              | Some _ => let (v, s') := load_binary path name (cdr cell) s in Got v s'
              end
          end
      end
  | _ => Got Nil s
  end.

(** ** Scripts *)

(** The outside world of the evaluator: which channels can be opened. *)
Variable opened : N -> bool -> atom -> bool.

(** Evaluation at top level (bin/mnml.c:46, lib/core/utils.c:701), and while reading
    (lib/grammar/parser.y:61-80). *)
Definition eval_top (n : nat) (x : atom) (s : st) : res atom :=
  match eval opened n [] x (wd s) with
  | Ret v w => Got v (with_w s w)
  | Stop _ => Stuck
  | NoFuel => Short
  end.
Definition at_read (n : nat) (x : atom) (w : world) : option (atom * world) :=
  match eval opened n [] x w with Ret v w' => Some (v, w') | _ => None end.

(** PUSH_IO_CONTEXT and POP_IO_CONTEXT (include/mnml/utils.h:135-149) on the input
    channel; the directory goes through lisp_make_string, which processes escapes. *)
Definition push_dir (dir : bytes) (s : st) : st :=
  let w := wd s in
  mkst (mkw (globals w) (outs w) (opens w :: ichan w) (ochan w) (opens w + 1)%N)
       (make_string dir :: dirs s) (mods s) (quits s).
Definition pop_dir (s : st) : st :=
  let w := wd s in
  mkst (mkw (globals w) (outs w) (tl (ichan w)) (ochan w) (opens w)) (tl (dirs s)) (mods s) (quits s).

(** Addresses of builtins that the evaluator does not have. *)
Definition load_adr : Z := 101.
Definition quit_adr : Z := 102.
Definition outer (args : atom) (adr : Z) : atom := Cons args (Cons Nil (Num adr)).
(** lib/mnml/std/load.c:84, quit.c:13 (no argument name: the macro makes the empty
    symbol, module.h:38-45, 90-96). *)
Definition load_value : atom := outer (Symb (sy "ANY")) load_adr.
Definition quit_value : atom := outer (Symb (sy "")) quit_adr.

(** What a top-level expression calls (lib/mnml/std/load.c, quit.c:6-11): [load] with its arguments, [quit], or anything
    else.  Simplification: [load] and [quit] are modelled at top level only; inside
    another expression they stop the evaluation ([Stuck]). *)
Inductive top := Loads (args : atom) | Quits | Plain.
Definition calls (x : atom) (w : world) : top :=
  match x with
  | Pair _ (Sym _ k) args =>
      match env_get (globals w) k with
      | Some (Pair _ _ (Pair _ Nil (Num z))) =>
          if Z.eqb z load_adr then Loads args else if Z.eqb z quit_adr then Quits else Plain
      | _ => Plain
      end
  | _ => Plain
  end.

Section Rec.
(** Evaluation of a top-level expression, with a smaller budget. *)
Variable run : atom -> st -> res atom.
Variable n : nat.

(** lib/core/utils.c:698-702, the loop of lisp_load_file: [vals] are the values
    already read.  The bounds on the turns (here and in lisp_read) are one more than
    the length of the text: every value and every turn takes a byte. *)
Fixpoint load_loop (k : nat) (vals : list atom) (stream : bytes) (last : atom) (s : st) : res atom :=
  match k with
  | O => Short
  | S k' =>
      match lisp_read world (at_read n) (S (length stream)) vals stream (wd s) with
      | Value _ x more rest w1 => andthen_ (run x (with_w s w1)) (fun v s2 => load_loop k' more rest v s2)
      | Eof _ w1 => Got last (with_w s w1)
      | Trouble _ => Stuck
      | Diverges _ => Short
      | Again _ => Short
      end
  end.

(** lib/core/utils.c:642-710 lisp_load_file.  ([getcwd] is taken to succeed.) *)
Definition load_file (name : bytes) (s : st) : res atom :=
  match (match dirs s with [] => pwd H | d :: _ => Some (cstr (cstring_bytes PATH_MAX d)) end) with
  | None => Fault Null
  | Some cwd =>
      match fits cwd with
      | None => Fault Past
      | Some cwd =>
          match get_fullpath H (match dirs s with [] => false | _ => true end) cwd name with
          | Bad f => Fault f
          | NoFull => Got Nil s
          | Full p =>
              match content D p with
              | None => Got Nil s
              | Some text =>
                  andthen_ (load_loop (S (length text)) [] text Nil (push_dir (dirname p) s)) (fun v s' => Got v (pop_dir s'))
              end
          end
      end
  end.

(** lib/mnml/std/load.c:21-55: one evaluated argument. *)
Definition load_one (v : atom) (s : st) : res atom :=
  match v with
  | Sym _ _ => module_load (Cons v Tru) s
  | Pair _ _ _ => if is_string v then load_file (cstr (cstring_bytes PATH_MAX v)) s else module_load v s
  | _ => Got Nil s
  end.
(** lib/mnml/std/load.c:8-73 lisp_load. *)
Fixpoint load_args (args : atom) (s : st) : res atom :=
  match args with
  | Pair _ a d =>
      andthen_ (eval_top n a s) (fun v s1 =>
      andthen_ (load_one v s1) (fun r s2 =>
      match d with Nil => Got r s2 | _ => load_args d s2 end))
  | _ => Got Nil s
  end.
End Rec.

(** A top-level expression (bin/mnml.c:40-50, lib/core/utils.c:692-703). *)
Fixpoint form (n : nat) (x : atom) (s : st) : res atom :=
  match n with
  | O => Short
  | S n' =>
      match calls x (wd s) with
      | Loads args => load_args (form n') n' args s
      | Quits => Got Tru (mkst (wd s) (dirs s) (mods s) true)
      | Plain => eval_top n' x s
      end
  end.

(** ** The main program *)

(** bin/mnml.c:106-128 lisp_build_argv, 130-184 lisp_build_config (the texts are
    parameters), 186-215 lisp_build_env: the names and values of the environment. *)
Definition set_name (k : string) (v : atom) (s : st) : st :=
  let w := wd s in with_w s (mkw ((sy k, v) :: globals w) (outs w) (ichan w) (ochan w) (opens w)).
Definition build_argv (argv : list bytes) (s : st) : st :=
  match argv with [] => s | _ => set_name "ARGV" (mk_list (map make_string argv)) s end.
Definition build_config (l : list (string * bytes)) (s : st) : st :=
  set_name "CONFIG" (mk_list (rev (map (fun p => Cons (Symb (sy (fst p))) (make_string (snd p))) l))) s.
Fixpoint split_eq (acc p : bytes) : option (bytes * bytes) :=
  match p with
  | [] => None
  | c :: r => if N.eqb c 61 then Some (rev acc, r) else split_eq (c :: acc) r
  end.
Definition env_entry (p : bytes) : list atom :=
  match split_eq [] p with
  | Some (_, []) => []
  | Some (k, v) => [Cons (make_string k) (make_string v)]
  | None => []
  end.
Definition build_env (environ : list bytes) (s : st) : st :=
  match flat_map env_entry environ with [] => s | l => set_name "ENV" (mk_list l) s end.

(** module.c:517-534 module_load_defaults. *)
Definition defaults (s : st) : res atom :=
  module_load (mk_list (map (fun k => Symb (sy k)) ["std"; "def"; "quote"; "load"]%string)) s.

(** lib/core/lisp.c:14-28 lisp_new, module_init (module.c:412-450, taken to succeed): nothing bound. *)
Definition fresh : st := mkst (mkw [] [] [] [] 2%N) [] [] false.
(** bin/mnml.c:319-327, without -b. *)
Definition boot (argv environ : list bytes) (config : list (string * bytes)) : res unit :=
  andthen_ (defaults fresh) (fun _ s => Got tt (build_env environ (build_config config (build_argv argv s)))).

(** PUSH_IO_CONTEXT on the output channel (standard output is handle 1). *)
Definition push_out (s : st) : st :=
  let w := wd s in with_w s (mkw (globals w) (outs w) (ichan w) (1%N :: ochan w) (opens w)).
(** The input channel of standard input (handle 0). *)
Definition push_in (cwd : bytes) (s : st) : st :=
  let w := wd s in
  mkst (mkw (globals w) (outs w) (0%N :: ichan w) (ochan w) (opens w)) (make_string cwd :: dirs s) (mods s) (quits s).

(** bin/mnml.c:379-383, a file: the result (the pop of the output channel is left out). *)
Definition main_file (n : nat) (name : bytes) (s : st) : res atom := load_file (form n) n name (push_out s).

(** bin/mnml.c:338-379, option -e: the whole text is parsed first, then the values are
    evaluated one after the other; the loop ends at a value that is NIL, which
    lisp_pop also returns when there is none left. *)
Fixpoint expr_loop (n : nat) (l : list atom) (result : atom) (s : st) : res atom :=
  if quits s then Got result s
  else
    match l with
    | [] | Nil :: _ => Got result s
    | x :: r => andthen_ (form n x s) (fun v s' => expr_loop n r v s')
    end.
Definition main_expr (n : nat) (cwd text : bytes) (s : st) : res atom :=
  match lexer_parse world (at_read n) text (mkl world 0 [] [] (wd s)) with
  | None => Short
  | Some (_, LPurged) => Stuck
  | Some (l, _) => expr_loop n (got world l) Nil (push_out (push_in cwd (with_w s (env_w world l))))
  end.

(** bin/mnml.c:33-51 run, with the stages of the interactive loop (62-78): a prompt
    when nothing is left on the line, the result after each evaluation.  Both go to
    standard output. *)
Definition say (t : bytes) (s : st) : st :=
  let w := wd s in with_w s (mkw (globals w) ((1%N, t) :: outs w) (ichan w) (ochan w) (opens w)).
Definition show (v : atom) (s : st) : res unit :=
  match print_atom v true (wd s) with
  | Ret _ w => Got tt (with_w s w)
  | Stop _ => Stuck
  | NoFuel => Short
  end.
Fixpoint repl (n k : nat) (vals : list atom) (stream : bytes) (result : atom) (s : st) : res atom :=
  match k with
  | O => Short
  | S k' =>
      if quits s then Got result s
      else
        let s0 := match vals with [] => say (bs ": ") s | _ => s end in
        match lisp_read world (at_read n) (S (length stream)) vals stream (wd s0) with
        | Value _ x more rest w1 =>
            andthen_ (form n x (with_w s0 w1)) (fun v s2 =>
            andthen_ (show v (say (bs "> ") s2)) (fun _ s3 =>
            repl n k' more rest v (say [10%N] s3)))
        | Eof _ w1 => Got Nil (with_w s0 w1)
        | Trouble _ => Stuck
        | Diverges _ => Short
        | Again _ => Short
        end
  end.
Definition main_repl (n : nat) (cwd input : bytes) (s : st) : res atom :=
  repl n (S (length input)) [] input Nil (push_out (push_in cwd s)).

(** bin/mnml.c:384-388: the status, without -d of the process (-1 is 255 for the caller). *)
Definition status (result : atom) : Z := if is_null result then (-1)%Z else 0%Z.

End Disk.

(** ** The modules of lib/mnml *)

(** Entries by name, from the values of [Eval.builtins]. *)
Definition value_of (k : string) : atom :=
  match env_get builtins (sy k) with
  | Some v => v
  | None =>
      (if String.eqb k "load" then load_value else if String.eqb k "quit" then quit_value
      (* read, readline, fork, pipe, slabinfo take no argument name; the rest of sys and
         unix are listed with the names of their LISP_MODULE_SETUP lines *)
      else if String.eqb k "read" then outer (Symb (sy "")) 103
      else if String.eqb k "readline" then outer (Symb (sy "")) 104
      else Nil)%string
  end.
Definition entries_of (l : list string) : list entry := map (fun k => (bs k, value_of k)) l.
(** lib/mnml/std/lib.c:38-71, with the names of the LISP_MODULE_SETUP lines. *)
Definition std_entries : list entry := entries_of
  ["car"; "cdr"; "chr"; "conc"; "cond"; "cons"; "def"; "eval"; "if"; "atm?"; "chr?"; "lst?"; "nil?"; "num?"; "str?";
   "sym?"; "tru?"; "\"; "len"; "let"; "list"; "load"; "match"; "prog"; "quit"; "quote"; "<-"; "setq"; "str"; "|>";
   "sym"; "unless"; "when"; "while"]%string.
(** lib/mnml/logic/lib.c:10-12. *)
Definition logic_entries : list entry := entries_of ["and"; "="; "<>"; "not"; "or"]%string.
(** lib/mnml/math/lib.c:14-18. *)
Definition math_entries : list entry := entries_of ["+"; "/"; ">="; ">"; "<="; "<"; "%"; "*"; "-"]%string.
(** lib/mnml/io/lib.c:12-19. *)
Definition io_entries : list entry :=
  entries_of ["in"; "out"; "prin"; "prinl"; "print"; "printl"; "read"; "readline"]%string.
(** lib/mnml/{std,logic,math,io}/lib.c, lisp_module_name. *)
Definition std_modules : list (string * list entry) :=
  [("std", std_entries); ("logic", logic_entries); ("math", math_entries); ("io", io_entries)]%string.
