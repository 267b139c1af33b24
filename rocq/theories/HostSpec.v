(** * HostSpec: what file names, modules, scripts and the program's options mean,
    stated on their own. *)
From Verif Require Import Value ValueSpec Lexer LexerSpec ReadSpec Parser EvalSpec BuiltinSpec Path Load.
From Verif Require Eval.
Open Scope nat_scope.

(** ** File names *)

Definition slash : byte := 47%N.
Definition absolute (t : bytes) : Prop := exists r, t = slash :: r.
(** Nothing follows, or a '/' does. *)
Definition at_boundary (r : bytes) : Prop := r = [] \/ absolute r.
(** Where the library scripts are. *)
Definition library_dir (H : host) (d : bytes) : Prop :=
  match script H with Some s => d = s | None => d = install H ++ bs "/share/mnml" end.

(** The text a name stands for: [@lib] and [~] as first component are abbreviations. *)
Definition lib_name (name rest : bytes) : Prop := name = bs "@lib" ++ rest /\ at_boundary rest.
Definition home_name (name rest : bytes) : Prop := name = bs "~" ++ rest /\ at_boundary rest.
Inductive stands (H : host) (name : bytes) : bytes -> Prop :=
| stands_lib : forall d rest, lib_name name rest -> library_dir H d -> stands H name (d ++ rest)
| stands_home : forall d rest, home_name name rest -> home H = Some d -> stands H name (d ++ rest)
| stands_self : (forall rest, ~ lib_name name rest) -> (forall rest, home_name name rest -> home H = None) ->
    stands H name name.
(** The place: relative names start at the directory given. *)
Definition place (cwd t p : bytes) : Prop := (absolute t /\ p = t) \/ (~ absolute t /\ p = cwd ++ slash :: t).
(** The file: the one at that place, or a new one in the directory at that place. *)
Definition names_file (H : host) (p f : bytes) : Prop :=
  real H p = Some f \/
  (real H p = None /\ exists d n q, p = d ++ slash :: n /\ ~ In slash n /\ real H d = Some q /\ f = q ++ slash :: n).
Definition denotes (H : host) (cwd name f : bytes) : Prop :=
  exists t p, stands H name t /\ place cwd t p /\ names_file H p f.

(** Names in which [@lib] and [~] only occur at the beginning as whole components. *)
Definition clean_name (name : bytes) : Prop :=
  (forall rest, name = bs "@lib" ++ rest -> at_boundary rest) /\
  (forall rest, name = bs "~" ++ rest -> at_boundary rest).

(** Lengths for which every path fits its buffer. *)
Definition room (H : host) (cwd name : bytes) : Prop :=
  forall d, (library_dir H d \/ home H = Some d \/ d = []) ->
    length cwd + length d + length name + 1 < PATH_MAX /\
    (forall p q, real H p = Some q -> length q + length cwd + length d + length name + 1 < PATH_MAX).

(** ** Modules *)

(** The non-empty parts of a list of directories separated by colons. *)
Inductive colon_list : bytes -> list bytes -> Prop :=
| cl_last : forall d, ~ In 58%N d -> d <> [] -> colon_list d [d]
| cl_none : colon_list [] []
| cl_cons : forall d r l, ~ In 58%N d -> d <> [] -> colon_list r l -> colon_list (d ++ 58%N :: r) (d :: l)
| cl_skip : forall r l, colon_list r l -> colon_list (58%N :: r) l.
(** The directories searched for modules: the installed ones, the user's, then those of
    MNML_MODULE_PATH. *)
Definition search (H : host) (D : disk) (l : list bytes) : Prop :=
  exists h, home H = Some h /\
    colon_list (install H ++ bs "/lib/mnml:" ++ h ++ bs "/.mnml" ++
                match module_path D with Some e => 58%N :: e | None => [] end) l.
Definition so_name (m : symbol) : bytes := bs "lib" ++ sym_text m ++ bs ".so".
Definition has_module (D : disk) (m : symbol) (d : bytes) : Prop :=
  exists l, listing D d = Some l /\ In (so_name m) l.
(** The first directory that has it. *)
Definition found (H : host) (D : disk) (m : symbol) (p : bytes) : Prop :=
  exists l a d b, search H D l /\ l = a ++ d :: b /\ has_module D m d /\
    (forall x, In x a -> ~ has_module D m x) /\ p = d ++ slash :: so_name m.
Definition nowhere (H : host) (D : disk) (m : symbol) : Prop :=
  exists l, search H D l /\ forall x, In x l -> ~ has_module D m x.
(** Lengths for which the search path and the paths of modules fit their buffers. *)
Definition short_search (H : host) (D : disk) : Prop :=
  length (install H) + 9 < PATH_MAX /\
  (forall h, home H = Some h -> length h + 6 < PATH_MAX /\
    length (install H) + length h + 16 + match module_path D with Some e => 1 + length e | None => 0 end < 2 * PATH_MAX) /\
  (forall m p, found H D m p -> length p < PATH_MAX).

(** Entries with distinct names that fit a symbol. *)
Definition well_named (es : list entry) : Prop :=
  NoDup (map fst es) /\ Forall (fun e : entry => length (fst e) <= 16 /\ ~ In 0%N (fst e)) es.
Definition provides (es : list entry) (k : symbol) (v : atom) : Prop := exists n, In (n, v) es /\ k = mk_symbol n.
(** The elements of a list with some property, in order. *)
Inductive selected {A} (P : A -> Prop) : list A -> list A -> Prop :=
| sel_nil : selected P [] []
| sel_yes : forall x l r, P x -> selected P l r -> selected P (x :: l) (x :: r)
| sel_no : forall x l r, ~ P x -> selected P l r -> selected P (x :: l) r.
(** What is asked for: a list of names, or everything. *)
Inductive asks (es : list entry) : atom -> list symbol -> Prop :=
| asks_list : forall ks, (forall k, In k ks -> exists n, k = mk_symbol n) -> asks es (mk_list (map (Sym false) ks)) ks
| asks_all : asks es Tru (map (fun e : entry => mk_symbol (fst e)) es).

(** The globals get the entries named in [ks], and nothing else changes. *)
Definition binds_entries (es : list entry) (ks : list symbol) (s s' : st) : Prop :=
  (forall k v, In k ks -> provides es k v -> shows (Eval.globals (wd s')) k (Some v)) /\
  (forall k r, ~ (In k ks /\ exists v, provides es k v) ->
     (shows (Eval.globals (wd s')) k r <-> shows (Eval.globals (wd s)) k r)) /\
  Eval.outs (wd s') = Eval.outs (wd s) /\ Eval.ichan (wd s') = Eval.ichan (wd s) /\
  Eval.ochan (wd s') = Eval.ochan (wd s) /\ Eval.opens (wd s') = Eval.opens (wd s) /\
  dirs s' = dirs s /\ quits s' = quits s.
(** The modules kept open are those the search gives. *)
Definition coherent (H : host) (D : disk) (s : st) : Prop :=
  forall m es, In (m, es) (mods s) -> forall p, found H D m p -> binary D p = Some (sym_text m, es).

(** ** Scripts *)

(** One expression, or several on a line: a piece of text that is read in one go
    (lines that fit the buffer; no value is complete before the last line). *)
Definition piece (rd : atom -> Eval.world -> atom -> Eval.world -> Prop) (w : Eval.world) (text : bytes) (vs : list atom) (w' : Eval.world) : Prop :=
  exists lines : list (bytes * list (kind * bytes)),
    lines <> [] /\ text = flat_map (fun p => fst p ++ [10%N]) lines /\
    Forall (fun p => short_line (fst p) /\ splits (fst p ++ [10%N]) (snd p) Done) lines /\
    program Eval.world rd w (concat (map snd lines)) vs w' /\
    (forall p q, lines = p ++ q -> q <> [] ->
       Forall filler (concat (map snd p)) \/ (0 < nesting (concat (map snd p)))%Z).
(** Blank lines and comments. *)
Definition blank (text : bytes) : Prop :=
  exists lines : list (bytes * list (kind * bytes)),
    text = flat_map (fun p => fst p ++ [10%N]) lines /\
    Forall (fun p => short_line (fst p) /\ splits (fst p ++ [10%N]) (snd p) Done) lines /\
    Forall filler (concat (map snd lines)).

(** The directory part of an absolute file name. *)
Definition dir_of (p d : bytes) : Prop :=
  exists e f, p = e ++ slash :: f /\ ~ In slash f /\ ((e = [] /\ d = [slash]) \/ (e <> [] /\ d = e)).
(** A string value and its text. *)
Definition spells (v : atom) (t : bytes) : Prop := v = mk_list (map (fun b => Chr (schar b)) t).
(** Texts that fit a path buffer, without the bytes that strings and buffers treat
    specially (backslash, NUL). *)
Definition plain_path (t : bytes) : Prop :=
  Forall (fun b => (b < 256)%N) t /\ ~ In 92%N t /\ ~ In 0%N t /\ length t < PATH_MAX.
(** The directory relative names start at: that of the file being read. *)
Definition here (s : st) (cwd : bytes) : Prop :=
  exists a r, dirs s = a :: r /\ spells a cwd /\ plain_path cwd.

(** Entering a file of directory [d]: a new input channel; leaving it. *)
Definition enters (d : bytes) (s s' : st) : Prop :=
  exists a, spells a d /\ dirs s' = a :: dirs s /\ mods s' = mods s /\ quits s' = quits s /\
    Eval.globals (wd s') = Eval.globals (wd s) /\ Eval.outs (wd s') = Eval.outs (wd s) /\
    Eval.ichan (wd s') = Eval.opens (wd s) :: Eval.ichan (wd s) /\ Eval.ochan (wd s') = Eval.ochan (wd s) /\
    Eval.opens (wd s') = (Eval.opens (wd s) + 1)%N.
Definition leaves_file (s s' : st) : Prop :=
  exists h a, Eval.ichan (wd s) = h :: Eval.ichan (wd s') /\ dirs s = a :: dirs s' /\
    mods s' = mods s /\ quits s' = quits s /\
    Eval.globals (wd s') = Eval.globals (wd s) /\ Eval.outs (wd s') = Eval.outs (wd s) /\
    Eval.ochan (wd s') = Eval.ochan (wd s) /\ Eval.opens (wd s') = Eval.opens (wd s).

(** A call by name of the builtin at an address. *)
Definition calls_builtin (x : atom) (s : st) (adr : Z) (args : atom) : Prop :=
  exists t u k t1 a t2, x = Pair t (Sym u k) args /\
    shows (Eval.globals (wd s)) k (Some (Pair t1 a (Pair t2 Nil (Num adr)))).
Inductive string_value : atom -> Prop :=
| sv_end : string_value Nil
| sv_char : forall t z d, string_value d -> string_value (Pair t (Chr z) d).
(** What [load] takes for a module: a symbol, or a list that is not a string. *)
Inductive module_request : atom -> atom -> Prop :=
| mr_name : forall t k, module_request (Sym t k) (Cons (Sym t k) Tru)
| mr_list : forall t a d, ~ string_value (Pair t a d) -> module_request (Pair t a d) (Pair t a d).

Section Scripts.
(** What one expression does, and what read-time evaluation does. *)
Variable step : atom -> st -> atom -> st -> Prop.
Variable rd : atom -> Eval.world -> atom -> Eval.world -> Prop.

(** Expressions one after the other; the value is that of the last one. *)
Inductive in_order : list atom -> atom -> st -> atom -> st -> Prop :=
| io_end : forall v s, in_order [] v s v s
| io_one : forall x l v0 s v1 s1 v2 s2, step x s v1 s1 -> in_order l v1 s1 v2 s2 -> in_order (x :: l) v0 s v2 s2.

(** A script: pieces of text, each read, then evaluated. *)
Inductive runs_script : bytes -> atom -> st -> atom -> st -> Prop :=
| sc_end : forall t v s, blank t -> runs_script t v s v s
| sc_piece : forall t x l r v0 s w1 v1 s1 v2 s2,
    piece rd (wd s) t (x :: l) w1 -> in_order (x :: l) v0 (with_w s w1) v1 s1 ->
    runs_script r v1 s1 v2 s2 -> runs_script (t ++ r) v0 s v2 s2.

(** Expressions one after the other until the program is told to quit. *)
Inductive until_quit : list atom -> atom -> st -> atom -> st -> Prop :=
| uq_quit : forall l v s, quits s = true -> until_quit l v s v s
| uq_end : forall v s, quits s = false -> until_quit [] v s v s
| uq_one : forall x l v0 s v1 s1 v2 s2, quits s = false -> step x s v1 s1 -> until_quit l v1 s1 v2 s2 ->
    until_quit (x :: l) v0 s v2 s2.

(** A text written on standard output (channel 1) by the program itself. *)
Definition told (t : bytes) (s s' : st) : Prop :=
  exists w, s' = with_w s w /\ Eval.outs w = (1%N, t) :: Eval.outs (wd s) /\ Eval.globals w = Eval.globals (wd s) /\
    Eval.ichan w = Eval.ichan (wd s) /\ Eval.ochan w = Eval.ochan (wd s) /\ Eval.opens w = Eval.opens (wd s).
Definition sent_in (t : bytes) (s s' : st) : Prop := exists w, s' = with_w s w /\ sent t (wd s) w.
(** Interactive: every value is followed by its literal form. *)
Inductive answers : list atom -> atom -> st -> atom -> st -> Prop :=
| an_end : forall v s, answers [] v s v s
| an_one : forall x l v0 s v1 s1 s2 t s3 s4 v2 s5, quits s = false -> step x s v1 s1 ->
    told (bs "> ") s1 s2 -> literal_text v1 t -> sent_in t s2 s3 -> told [10%N] s3 s4 ->
    answers l v1 s4 v2 s5 -> answers (x :: l) v0 s v2 s5
| an_quit : forall l v s, quits s = true -> answers l v s v s.
(** A dialogue: prompt, piece of text, answers; it ends at the end of the input (then
    the value is NIL) or when told to quit. *)
Inductive dialogue : bytes -> atom -> st -> atom -> st -> Prop :=
| di_quit : forall t v s, quits s = true -> dialogue t v s v s
| di_end : forall t v s s1, quits s = false -> blank t -> told (bs ": ") s s1 -> dialogue t v s Nil s1
| di_piece : forall t x l r v0 s s1 w1 v1 s2 v2 s3, quits s = false -> told (bs ": ") s s1 ->
    piece rd (wd s1) t (x :: l) w1 -> answers (x :: l) v0 (with_w s1 w1) v1 s2 ->
    dialogue r v1 s2 v2 s3 -> dialogue (t ++ r) v0 s v2 s3.
End Scripts.

(** What every top-level expression preserves: channels and directories are as before,
    bindings and modules only added, output only appended, and so on. *)
Definition ext (H : host) (D : disk) (s s' : st) : Prop :=
  extends (wd s) (wd s') /\ dirs s' = dirs s /\ (exists m, mods s' = m ++ mods s) /\
  (quits s = true -> quits s' = true) /\ (coherent H D s -> coherent H D s').

(** The program's own channels: standard output; standard input and output. *)
Definition with_stdout (s s' : st) : Prop :=
  dirs s' = dirs s /\ mods s' = mods s /\ quits s' = quits s /\
  Eval.globals (wd s') = Eval.globals (wd s) /\ Eval.outs (wd s') = Eval.outs (wd s) /\
  Eval.ichan (wd s') = Eval.ichan (wd s) /\ Eval.ochan (wd s') = 1%N :: Eval.ochan (wd s) /\
  Eval.opens (wd s') = Eval.opens (wd s).
Definition with_std (cwd : bytes) (s s' : st) : Prop :=
  exists a, spells a cwd /\ dirs s' = a :: dirs s /\ mods s' = mods s /\ quits s' = quits s /\
    Eval.globals (wd s') = Eval.globals (wd s) /\ Eval.outs (wd s') = Eval.outs (wd s) /\
    Eval.ichan (wd s') = 0%N :: Eval.ichan (wd s) /\ Eval.ochan (wd s') = 1%N :: Eval.ochan (wd s) /\
    Eval.opens (wd s') = Eval.opens (wd s).

(** What ARGV and ENV are: the arguments; the variables with their values, split at
    the first equal sign. *)
Definition lists_texts (v : atom) (l : list bytes) : Prop :=
  exists vs, v = mk_list vs /\ Forall2 spells vs l.
Definition variable (p k t : bytes) : Prop := p = k ++ 61%N :: t /\ ~ In 61%N k.
Definition lists_variables (v : atom) (l : list bytes) : Prop :=
  exists vs, v = mk_list vs /\
    Forall2 (fun x p => exists k t a b, variable p k t /\ spells a k /\ spells b t /\ x = Cons a b) vs l.

Section Acts.
Variable H : host.
Variable D : disk.
Variable O : oracle.
(** Read-time evaluation, and loading a module (see [found], [binds_entries]). *)
Definition reads_as (a : atom) (w : Eval.world) (v : atom) (w' : Eval.world) : Prop :=
  runs O [] a w (Eval.Ret v w').
Definition gets_module (c : atom) (s : st) (v : atom) (s' : st) : Prop := module_load H D c s = Got v s'.

(** What a top-level expression does, with [load] and [quit]. *)
Inductive acts : atom -> st -> atom -> st -> Prop :=
| acts_plain : forall x s v w, (forall a, ~ calls_builtin x s load_adr a) -> (forall a, ~ calls_builtin x s quit_adr a) ->
    runs O [] x (wd s) (Eval.Ret v w) -> acts x s v (with_w s w)
| acts_quit : forall x s a, calls_builtin x s quit_adr a -> acts x s Tru (mkst (wd s) (dirs s) (mods s) true)
| acts_load : forall x s l v s', calls_builtin x s load_adr (mk_list l) -> loads l s v s' -> acts x s v s'
(** The arguments from left to right, each evaluated and loaded; the last result. *)
with loads : list atom -> st -> atom -> st -> Prop :=
| loads_none : forall s, loads [] s Nil s
| loads_last : forall a s u w r s', runs O [] a (wd s) (Eval.Ret u w) -> loaded u (with_w s w) r s' -> loads [a] s r s'
| loads_more : forall a b l s u w r s1 v s', runs O [] a (wd s) (Eval.Ret u w) -> loaded u (with_w s w) r s1 ->
    loads (b :: l) s1 v s' -> loads (a :: b :: l) s v s'
(** One argument. *)
with loaded : atom -> st -> atom -> st -> Prop :=
| loaded_file : forall u s name cwd p d text s1 v s2 s3,
    spells u name -> name <> [] -> plain_path name -> here s cwd -> clean_name name -> room H cwd name ->
    denotes H cwd name p -> content D p = Some text -> dir_of p d -> plain_path d ->
    enters d s s1 -> script_acts text Nil s1 v s2 -> leaves_file s2 s3 -> loaded u s v s3
| loaded_missing : forall u s name cwd,
    spells u name -> name <> [] -> plain_path name -> here s cwd -> clean_name name -> room H cwd name ->
    (forall p, denotes H cwd name p -> content D p = None) -> loaded u s Nil s
| loaded_module : forall u c s v s', module_request u c -> gets_module c s v s' -> loaded u s v s'
| loaded_other : forall u s, (forall t k, u <> Sym t k) -> (forall t a d, u <> Pair t a d) -> loaded u s Nil s
with script_acts : bytes -> atom -> st -> atom -> st -> Prop :=
| sa_end : forall t v s, blank t -> script_acts t v s v s
| sa_piece : forall t x l r v0 s w1 v1 s1 v2 s2,
    piece reads_as (wd s) t (x :: l) w1 -> all_act (x :: l) v0 (with_w s w1) v1 s1 ->
    script_acts r v1 s1 v2 s2 -> script_acts (t ++ r) v0 s v2 s2
with all_act : list atom -> atom -> st -> atom -> st -> Prop :=
| aa_end : forall v s, all_act [] v s v s
| aa_one : forall x l v0 s v1 s1 v2 s2, acts x s v1 s1 -> all_act l v1 s1 v2 s2 -> all_act (x :: l) v0 s v2 s2.
End Acts.
