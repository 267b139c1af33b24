(** * Main: the command line of bin/mnml.c. *)
From Verif Require Import Base Value Parser Eval Path Load.
Open Scope nat_scope.
Open Scope list_scope.

(** bin/mnml.c:252-253: the variables load_defaults (negated), check_slab, expr. *)
Record settings := mkset { bare : bool; check : bool; expr : option bytes }.
(** What the loop over the options ends with: bin/mnml.c:279-282 the words left, 265-267
    help, 268-270 the version, 271-273 a word that is no option. *)
Inductive parsed := Settings (o : settings) (operands : list bytes) | Helped | Versioned | Refused.

(** bin/mnml.c:237-275 with getopt of the C library, options "+hvbde:": the letters of
    one word.  The argument of [e] is the rest of the word, or the next word. *)
Inductive letters_end := Next (o : settings) | Wants (o : settings) | Ends (p : parsed).
Fixpoint letters (cs : bytes) (o : settings) : letters_end :=
  match cs with
  | [] => Next o
  | c :: r =>
      if N.eqb c 98 then letters r (mkset true (check o) (expr o))
      else if N.eqb c 100 then letters r (mkset (bare o) true (expr o))
      else if N.eqb c 101 then
        match r with [] => Wants o | _ => Next (mkset (bare o) (check o) (Some r)) end
      else if N.eqb c 104 then Ends Helped
      else if N.eqb c 118 then Ends Versioned
      else Ends Refused
  end.
(** The words: the first that does not begin with a dash, or is one dash, ends the
    options, and so does "--", which is skipped. *)
Fixpoint options (args : list bytes) (o : settings) : parsed :=
  match args with
  | [] => Settings o []
  | a :: rest =>
      match a with
      | 45%N :: ((_ :: _) as l) =>
          if beq a (bs "--") then Settings o rest
          else
            match letters l o with
            | Next o' => options rest o'
            | Wants o' =>
                match rest with
                | [] => Refused
                | t :: rest' => options rest' (mkset (bare o') (check o') (Some t))
                end
            | Ends p => p
            end
      | _ => Settings o args
      end
  end.

Section Main.
Variable H : host.
Variable D : disk.
Variable O : N -> bool -> atom -> bool.
(** Whether every cell was given back (slab->n_alloc = slab->n_free) after the state
    was deleted: bin/mnml.c:400-402; the value model has no cells. *)
Variable balanced : st -> bool.

(** bin/mnml.c:322-327. *)
Definition start (o : settings) (operands environ : list bytes) (config : list (string * bytes)) : res unit :=
  if bare o then Got tt fresh else boot H D operands environ config.
(** bin/mnml.c:331-383. *)
Definition mode (n : nat) (o : settings) (operands : list bytes) (cwd input : bytes) (s : st) : res atom :=
  match operands, expr o with
  | [], None => main_repl H D O n cwd input s
  | [], Some text => main_expr H D O n cwd text s
  | file :: _, _ => main_file H D O n file s
  end.
(** bin/mnml.c:245-407, from the words after the program name; the value returned by
    main.  getcwd and module_init are taken to succeed. *)
Definition mnml (n : nat) (args environ : list bytes) (config : list (string * bytes)) (cwd input : bytes) : res Z :=
  match options args (mkset false false None) with
  | Helped | Versioned => Got 0%Z fresh
  | Refused => Got 273%Z fresh
  | Settings o operands =>
      andthen_ (start o operands environ config) (fun _ s =>
      andthen_ (mode n o operands cwd input s) (fun v s' =>
      Got (if check o && negb (balanced s') then (-2)%Z else status v) s'))
  end.
(** exit(3): the parent sees the low eight bits. *)
Definition seen (z : Z) : Z := (z mod 256)%Z.
End Main.
