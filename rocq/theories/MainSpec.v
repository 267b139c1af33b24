(** * MainSpec: what the words of a command line ask for. *)
From Verif Require Import Base Value Parser EvalSpec ReadSpec LexerSpec Lexer Path Load HostSpec Main.
From Verif Require Eval.
Open Scope nat_scope.
Open Scope list_scope.

(** The letters that take no argument. *)
Definition letter (s : string) : byte := hd 0%N (bs s).
Definition flags (fl : bytes) : Prop := Forall (fun c => c = letter "b" \/ c = letter "d") fl.
Definition has (c : byte) (fl : bytes) : bool := existsb (N.eqb c) fl.
Definition dash : byte := letter "-".
(** What is asked for: a run; help or the version; nothing that makes sense. *)
Inductive request := Run (bare check : bool) (expr : option bytes) (operands : list bytes) | Info | Wrong.
Definition also (fl : bytes) (text : option bytes) (r : request) : request :=
  match r with
  | Run b d e ops => Run (has (letter "b") fl || b) (has (letter "d") fl || d) (match e with Some x => Some x | None => text end) ops
  | x => x
  end.
(** Options come first: words of flags, [-e] with its text in the same word or the next;
    the last [-e] counts.  They end at "--" (dropped), at a word that does not begin
    with a dash, or at "-". *)
Inductive asks : list bytes -> request -> Prop :=
| asks_nothing : asks [] (Run false false None [])
| asks_operands : forall a r, (forall x y, a <> dash :: x :: y) -> asks (a :: r) (Run false false None (a :: r))
| asks_end : forall r, asks ([dash; dash] :: r) (Run false false None r)
| asks_flags : forall fl r q, flags fl -> fl <> [] -> asks r q -> asks ((dash :: fl) :: r) (also fl None q)
| asks_attached : forall fl text r q, flags fl -> text <> [] -> asks r q ->
    asks ((dash :: fl ++ letter "e" :: text) :: r) (also fl (Some text) q)
| asks_separate : forall fl text r q, flags fl -> asks r q ->
    asks ((dash :: fl ++ [letter "e"]) :: text :: r) (also fl (Some text) q)
| asks_info : forall fl c x r, flags fl -> c = letter "h" \/ c = letter "v" -> asks ((dash :: fl ++ c :: x) :: r) Info
| asks_unknown : forall fl c x r, flags fl -> ~ In c (bs "bdehv") -> dash :: fl ++ c :: x <> [dash; dash] ->
    asks ((dash :: fl ++ c :: x) :: r) Wrong
| asks_missing : forall fl, flags fl -> asks [dash :: fl ++ [letter "e"]] Wrong.

(** What a run does, as in C71, C74 and C75: a file, an expression, a dialogue. *)
Inductive does (H : host) (D : disk) (O : oracle) (cwd input : bytes) : option bytes -> list bytes -> st -> atom -> st -> Prop :=
| does_file : forall e name ops here t p d text s s0 s1 v s2 s3, dirs s = [] -> pwd H = Some here ->
    clean_name name -> room H here name -> stands H name t -> names_file H t p -> content D p = Some text ->
    dir_of p d -> plain_path d -> with_stdout s s0 -> enters d s0 s1 -> script_acts H D O text Nil s1 v s2 -> leaves_file s2 s3 ->
    does H D O cwd input e (name :: ops) s v s3
| does_expr : forall text toks vs w s s1 v s2, plain_path cwd -> splits text toks Done ->
    program Eval.world (reads_as O) (wd s) toks vs w -> ~ In Nil vs -> with_std cwd (with_w s w) s1 ->
    until_quit (acts H D O) vs Nil s1 v s2 -> does H D O cwd input (Some text) [] s v s2
| does_dialogue : forall s s1 v s2, plain_path cwd -> with_std cwd s s1 ->
    dialogue (acts H D O) (reads_as O) input Nil s1 v s2 -> does H D O cwd input None [] s v s2.
