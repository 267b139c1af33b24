(** * Lib3Spec: what the properties of the files of [Lib3.v] are stated with. *)
From Verif Require Import Base Value ValueSpec Tails Eval EvalSpec BuiltinSpec Lib LibSpec Lib2 Lib2Spec Lib3.
Open Scope nat_scope.

(** The builtins and the functions that the functions of these files rely on, besides
    those of [ready]. *)
Definition used3 : list string := ["prog"; "cond"; "prin"; "prinl"; "printl"; "tru?"; "chr"; "len"; ">="]%string.
Definition given3 : list string :=
  ["term:esc"; "term:bold"; "term:underlined"; "term:red"; "term:green"; "term:left"; "term:right";
   "args:parse"; "args:parse_r"; "options"]%string.
Definition ready3 (c : env) (w : world) : Prop :=
  ready c w /\ forall s, In s (used3 ++ given3) -> means c w (sy s) (lib4 s).

(** ** Texts *)

(** The characters of a text, as a value. *)
Definition text (s : string) : list atom := map (fun b => Chr (schar b)) (bs s).
(** The text between the escape sequence [code] and the one that ends it. *)
Definition esc (code s : list atom) : list atom :=
  Chr 27 :: Chr 91 :: code ++ Chr 109 :: s ++ [Chr 27; Chr 91; Chr 48; Chr 109].
(** The styles and their codes. *)
Definition styles : list (string * string) :=
  [("normal", "0"); ("bold", "1"); ("italic", "3"); ("underlined", "4"); ("reversed", "7"); ("striked", "9");
   ("black", "0;30"); ("red", "0;31"); ("green", "0;32"); ("orange", "0;33"); ("blue", "0;34"); ("purple", "0;35");
   ("cyan", "0;36"); ("gray+", "0;37"); ("gray-", "1;30"); ("red+", "1;31"); ("green+", "1;32"); ("yellow", "1;33");
   ("blue+", "1;34"); ("purple+", "1;35"); ("cyan+", "1;36"); ("white", "1;37")]%string.
(** [n] elements: the beginning of [s], then spaces; or spaces, then the end of [s]. *)
Definition fit_left (n : nat) (s : list atom) : list atom := firstn n s ++ repeat (Chr 32) (n - length s).
Definition fit_right (n : nat) (s : list atom) : list atom := repeat (Chr 32) (n - length s) ++ skipn (length s - n) s.

(** ** Messages *)

(** A string as a value, and the bytes of an escaped text. *)
Definition chars (t : bytes) : list atom := map (fun b => Chr (schar b)) t.
Definition escaped (code : string) (t : bytes) : bytes := ([27; 91] ++ bs code ++ [109] ++ t ++ [27; 91; 48; 109])%N.
(** The texts, one after the other, reach the current output channel and nothing else
    changes. *)
Inductive says : list bytes -> world -> world -> Prop :=
| says_nil : forall w, says [] w w
| says_cons : forall t l w w1 w2, sent t w w1 -> says l w1 w2 -> says (t :: l) w w2.

(** ** Assertions *)

(** The expression gives this in every scope that agrees with [c] except on [hid]. *)
Definition gives (O : oracle) (c : env) (hid : list string) (x : atom) (w : world) (v : atom) (w' : world) : Prop :=
  forall S, increasing S -> apart hid c S -> runs O S x w (Ret v w').
(** The names an asserted expression does not see as its caller does. *)
Definition equal_hid : list string := ["EXPECT"; "ACTUAL"; "OP"]%string.
Definition predicate_hid : list string := ["PREDICATE"; "VALUE"; "OP"]%string.
(** [p] applied to [v] gives [b], in every scope that agrees with [c] except on the names
    of [assert:predicate]. *)
Definition judges (O : oracle) (c : env) (p v : atom) (w : world) (b : atom) (w' : world) : Prop :=
  forall S, increasing S -> apart (predicate_hid ++ ["EVAL"%string]) c S ->
    answers O S (sy "PREDICATE") p [v] w (Ret b w').
(** What a failed assertion writes: the two labels, and the two values as literals. *)
Definition complaint (l1 l2 : string) (t1 t2 : bytes) : list bytes :=
  [escaped "0;31" (bs "> FAILED "); [10%N]; bs "! "; escaped "4" (bs l1); bs ": "; t1; [10%N];
   bs "! "; escaped "4" (bs l2); bs ": "; t2; [10%N]].

(** ** Test suites *)

(** The names a test sees besides those of its suite's scope. *)
Definition harness : list string :=
  ["SUITE"; "TESTS"; "args"; "hdr"; "pad"; "exe"; "|<-"; "fun"; "acc"; "lst"; "name"; "test"]%string.
(** The line for a test: mark, name padded to [n], outcome in colour. *)
Definition report (n : nat) (mark : bytes) (name : bytes) (code word : string) : list bytes :=
  [mark; name ++ repeat 32%N (n - length name); bs ": "; escaped code (bs word); [10%N]].
Definition tick : bytes := [226; 156; 147; 32]%N.
(** The tests run in turn, each once; a line after each; [b]: all of them gave T. *)
Inductive tries (O : oracle) (c : env) (n : nat) : list (bytes * atom) -> world -> bool -> world -> Prop :=
| tries_none : forall w, tries O c n [] w true w
| tries_pass : forall name x l w w1 w2 b w3, x <> Nil -> kept "test" x -> is_tail_call x = false ->
    gives O c harness x w Tru w1 -> ready3 c w1 -> says (report n tick name "0;32" "passed") w1 w2 ->
    tries O c n l w2 b w3 -> tries O c n ((name, x) :: l) w b w3
| tries_fail : forall name x l w v w1 w2 b w3, x <> Nil -> kept "test" x -> is_tail_call x = false ->
    gives O c harness x w v w1 -> v <> Tru -> ready3 c w1 -> says (report n (bs "! ") name "0;31" "failed") w1 w2 ->
    tries O c n l w2 b w3 -> tries O c n ((name, x) :: l) w false w3
| tries_missing : forall name l w w1 b w2, says (report n (bs "! ") name "0;31" "not found") w w1 ->
    tries O c n l w1 b w2 -> tries O c n ((name, Nil) :: l) w false w2.
(** The length of the longest name. *)
Definition widest (tests : list (bytes * atom)) : nat := fold_right (fun p => Nat.max (length (fst p))) 0 tests.
(** The tests as written in the call. *)
Definition suite (tests : list (bytes * atom)) : atom := alist (map (fun p => (mk_list (chars (fst p)), snd p)) tests).
Definition header (name : bytes) : list bytes :=
  [escaped "1" (bs "["); escaped "1" name; escaped "1" (bs "]"); [10%N]].

(** ** Command lines *)

(** A call whose head is any expression that gives [f], with arguments that give [vs]. *)
Definition called (O : oracle) (S : env) (f : atom) (vs : list atom) (w : world) (o : out atom) : Prop :=
  forall t h es w0 w1, is_tail_call h = false -> runs O S h w0 (Ret f w1) -> runs_list O S es w1 (Ret vs w) ->
    runs O S (Pair t h (mk_list es)) w0 o.
(** The names a handler does not see as the caller of [args:parse] does. *)
Definition parser_hid : list string := ["SCHEMA"; "LST"; "RES"; "hd"; "tl"; "fun"; "sze"; "nxt"]%string.
(** A text as a value. *)
Definition txt (t : bytes) : atom := mk_list (chars t).
(** The expression [e] gives a function of [n] parameters, which [let] binds as it is. *)
Definition handler (O : oracle) (c : env) (e : atom) (n : nat) (w : world) (f : atom) (S : env) : Prop :=
  runs O S e w (Ret f w) /\ kept "fun" f /\ exists ps r, f = Cons (mk_list ps) r /\ length ps = n.
(** What becomes of the arguments [l] after the flags [done], the last one first: every
    flag has its handler called on as many of the next arguments as it has parameters. *)
Inductive parses (O : oracle) (c : env) (schema : list (atom * atom)) : list bytes -> list bytes -> world -> atom -> world -> Prop :=
| parses_end : forall done w, parses O c schema [] done w (mk_list (map txt done)) w
| parses_unknown : forall h l done w w1, finds (txt h) schema Nil -> says [bs "Unknown flag: "; h; [10%N]] w w1 ->
    parses O c schema (h :: l) done w Nil w1
| parses_few : forall h l done e n w w1, finds (txt h) schema e ->
    (forall S, increasing S -> apart parser_hid c S -> exists f, handler O c e n w f S) ->
    int64 (Z.of_nat n) -> length l < n ->
    says [bs "Not enough values for flag: "; h; [10%N]] w w1 ->
    parses O c schema (h :: l) done w Nil w1
| parses_flag : forall h vs l done e w b w1 r w2, finds (txt h) schema e ->
    (forall S, increasing S -> apart parser_hid c S -> exists f, handler O c e (length vs) w f S /\
       forall S', increasing S' -> apart parser_hid c S' -> called O S' f (map txt vs) w (Ret b w1)) ->
    ready2 c w1 -> ready3 c w1 -> parses O c schema l (h :: done) w1 r w2 ->
    parses O c schema (h :: vs ++ l) done w r w2.
