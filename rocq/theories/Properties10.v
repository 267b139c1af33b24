(** * Properties C68 to C76: file names, modules, scripts, and the main program. *)
From Verif Require Import Base Value ValueSpec ValueProofs Lexer LexerSpec LexerProofs ReadSpec PrintSpec Parser EvalSpec BuiltinSpec
  Path Load HostSpec HostProofs HostRun HostMain.
From Verif Require Eval.
Open Scope nat_scope.

(** ** A host for the examples: some files, the standard modules in /usr/lib/mnml. *)
Definition nl : string := String (Ascii.ascii_of_nat 10) EmptyString.
Definition files : list (string * string) :=
  [("/d/a.l", "(load ""b.l"")" ++ nl); ("/d/b.l", "7" ++ nl); ("/d/q.l", "(quit)" ++ nl ++ "(prinl 1)" ++ nl);
   ("/w\new/a.l", "(load ""b.l"")" ++ nl); ("/w\new/b.l", "7" ++ nl)]%string.
Definition folders : list string := ["/d"; "/w\new"; "/usr/share"]%string.
Definition known (l : list string) (p : bytes) : bool := existsb (fun k => beq (bs k) p) l.
Definition real0 (p : bytes) : option bytes := if known (map fst files ++ folders) p then Some p else None.
Definition H0 : host := mkhost None (Some (bs "/root")) (Some (bs "/d")) (bs "/usr") real0.
Definition so (k : string) : bytes := bs "lib" ++ bs k ++ bs ".so".
Definition D0 : disk := mkdisk
  (fun d => if beq d (bs "/usr/lib/mnml") then Some (map (fun m => so (fst m)) std_modules) else None)
  (fun p => match find (fun m => beq p (bs "/usr/lib/mnml/" ++ so (fst m))) std_modules with
            | Some (k, e) => Some (bs k, e) | None => None end) None
  (fun p => option_map (fun f => bs (snd f)) (find (fun f => beq (bs (fst f)) p) files)).
Definition O0 : oracle := fun _ _ _ => false.
Definition value {A} (r : res A) : option A := match r with Got v _ => Some v | _ => None end.
Definition output (r : res atom) : bytes := match r with Got _ s => concat (map snd (rev (Eval.outs (wd s)))) | _ => [] end.
Definition booted : st := match boot H0 D0 [] [] [] with Got _ s => s | _ => fresh end.
Definition run_e (t : string) : res atom := main_expr H0 D0 O0 40 (bs "/d") (bs t) booted.
(** The state in which the expressions of -e run. *)
Definition std0 : st := push_out (push_in (bs "/d") booted).
Example booted_names : map fst (Eval.globals (wd booted)) = map sy ["CONFIG"; "def"; "quote"; "load"]%string.
Proof. vm_compute. reflexivity. Qed.

Lemma path_max : 200 < PATH_MAX.
Proof. apply Nat.ltb_lt. vm_compute. reflexivity. Qed.
Lemma real0_short : forall p q, real0 p = Some q -> length q <= 20.
Proof.
  intros p q E. unfold real0 in E. destruct (known _ p) eqn:K; [|discriminate]. injection E as <-.
  unfold known in K. apply existsb_exists in K. destruct K as (k & I & B). apply beq_eq in B. subst p.
  revert k I. apply Forall_forall. repeat (constructor; [apply Nat.leb_le; vm_compute; reflexivity|]). constructor.
Qed.
Lemma room0 : forall cwd name, length cwd + length name <= 60 -> room H0 cwd name.
Proof.
  intros cwd name L d Dd. pose proof path_max.
  assert (Ld : length d <= 15).
  { destruct Dd as [Dd|[Dd| ->]]; [| |cbn; lia].
    - unfold library_dir in Dd. cbn in Dd. subst d. apply Nat.leb_le; vm_compute; reflexivity.
    - injection Dd as <-. apply Nat.leb_le; vm_compute; reflexivity. }
  unfold bytes, byte in *. split; [lia|]. intros p q R. apply real0_short in R. unfold bytes, byte in *. lia.
Qed.
Lemma plain_d : forall d, Forall (fun b => (b < 256)%N) d -> forallb (fun b => negb (N.eqb b 92) && negb (N.eqb b 0)) d = true ->
  length d <= 100 -> plain_path d.
Proof.
  intros d B F L. pose proof path_max. unfold plain_path, bytes, byte in *. split; [exact B|]. rewrite forallb_forall in F.
  split; [|split; [|lia]]; intro I; apply F in I; discriminate I.
Qed.
Ltac plain_here := apply plain_d; [repeat (apply Forall_cons; [reflexivity|]); apply Forall_nil|reflexivity|apply Nat.leb_le; reflexivity].
Lemma clean0 : forall name, starts (bs "@lib") name = false -> starts (bs "~") name = false -> clean_name name.
Proof.
  intros name E1 E2. split; intros rest E; exfalso; subst name.
  - apply (proj1 (starts_false (bs "@lib") (bs "@lib" ++ rest))) with (r := rest) in E1. auto.
  - apply (proj1 (starts_false (bs "~") (bs "~" ++ rest))) with (r := rest) in E2. auto.
Qed.

(** ** C68 *)
(** File names in which [@lib] and [~] are whole components, and which fit: the path
    opened is the one denoted, and there is one whenever the name denotes something. *)
Theorem C68_names_partial : forall H cwd name f, clean_name name -> room H cwd name ->
  (get_fullpath H true cwd name = Full f <-> denotes H cwd name f).
Proof.
  intros H cwd name f C R. split; intro E.
  - eapply fullpath_denotes; eauto.
  - apply fullpath_complete; auto.
Qed.
Print Assumptions C68_names_partial.
(** [@lib] is also taken at the beginning of a longer name. *)
Theorem C68_names_refuted : exists H cwd name f, room H cwd name /\
  get_fullpath H true cwd name = Full f /\ ~ denotes H cwd name f.
Proof.
  exists H0, (bs "/d"), (bs "@library.l"), (bs "/usr/share/mnmlrary.l").
  split; [apply room0; cbn; lia|]. split; [vm_compute; reflexivity|].
  intros (t & p & St & Pl & Nf).
  assert (Et : t = bs "@library.l").
  { destruct St as [d rest (E & B) _|d rest (E & B) _|]; [|discriminate E|reflexivity].
    injection E as <-. destruct B as [B|(r & B)]; discriminate B. }
  subst t. destruct Pl as [[(r & A) _]|[_ ->]]; [discriminate A|].
  destruct Nf as [R|(_ & d & n & q & E & N & R & F)]; [vm_compute in R; discriminate R|].
  pose proof (split_last_at d n N) as S. rewrite <- E in S. vm_compute in S. injection S as <- <-.
  vm_compute in R. injection R as <-. vm_compute in F. discriminate F.
Qed.
Print Assumptions C68_names_refuted.
(** Names inside a file start at the directory of that file, if that has no backslash. *)
Theorem C68_inside_partial : forall p d s, dir_of p d -> plain_path d -> here (push_dir (dirname p) s) d.
Proof.
  intros p d s Di P. rewrite (dirname_of _ _ Di). exists (make_string d), (dirs s).
  split; [reflexivity|]. split; [apply make_spells; exact P|exact P].
Qed.
Print Assumptions C68_inside_partial.
(** With a backslash the file next to it is not found. *)
Theorem C68_inside_refuted : exists H D O s p q, content D p = Some (bs "(load ""b.l"")" ++ [10%N]) /\
  denotes H (dirname p) (bs "b.l") q /\ content D q = Some (bs "7" ++ [10%N]) /\ pwd H <> None /\
  forall n, 10 <= n -> value (main_file H D O n p s) = Some Nil.
Proof.
  exists H0, D0, O0, booted, (bs "/w\new/a.l"), (bs "/w\new/b.l").
  split; [vm_compute; reflexivity|]. split; [|split; [vm_compute; reflexivity|split; [discriminate|]]].
  - apply fullpath_denotes; [|vm_compute; reflexivity]. apply clean0; reflexivity.
  - assert (E : exists s, main_file H0 D0 O0 10 (bs "/w\new/a.l") booted = Got Nil s) by (eexists; vm_compute; reflexivity).
    destruct E as (s & E). intros n L.
    rewrite (main_file_more H0 D0 O0 10 n _ _ _ _ L E). reflexivity.
Qed.
Print Assumptions C68_inside_refuted.
Example C68_example : denotes H0 (bs "/d") (bs "a.l") (bs "/d/a.l") /\ denotes H0 (bs "/d") (bs "/d/new.l") (bs "/d/new.l") /\
  clean_name (bs "a.l") /\ room H0 (bs "/d") (bs "a.l").
Proof.
  split; [|split; [|split]].
  - apply fullpath_denotes; [apply clean0; reflexivity|vm_compute; reflexivity].
  - apply fullpath_denotes; [apply clean0; reflexivity|vm_compute; reflexivity].
  - apply clean0; reflexivity.
  - apply room0. cbn. lia.
Qed.

Lemma search0 : search H0 D0 [bs "/usr/lib/mnml"; bs "/root/.mnml"].
Proof.
  exists (bs "/root"). split; [reflexivity|]. change (colon_list (bs "/usr/lib/mnml" ++ 58%N :: bs "/root/.mnml") [bs "/usr/lib/mnml"; bs "/root/.mnml"]).
    assert (N : forall t, forallb (fun b => negb (N.eqb b 58)) t = true -> ~ In 58%N t).
    { intros t F I. rewrite forallb_forall in F. apply F in I. discriminate I. }
    apply cl_cons; [apply N; reflexivity|discriminate|]. apply cl_last; [apply N; reflexivity|discriminate].
Qed.
Lemma short0 : short_search H0 D0.
Proof.
  pose proof path_max as Pm. split; [|split].
  - apply Nat.ltb_lt. vm_compute. reflexivity.
  - intros h E. injection E as <-. split; apply Nat.ltb_lt; vm_compute; reflexivity.
  - intros m p (l & a & d & b & S & L & (y & Y & I) & _ & ->). pose proof (search_unique _ _ _ _ S search0) as E. subst l.
    assert (J : In d [bs "/usr/lib/mnml"; bs "/root/.mnml"]) by (rewrite <- E; apply in_or_app; right; left; reflexivity).
    assert (Ls : forallb (fun x : bytes => Nat.ltb (13 + length x) 200) y = true)
      by (destruct J as [<-|[<-|[]]]; vm_compute in Y; [|discriminate Y]; injection Y as <-; vm_compute; reflexivity).
    rewrite forallb_forall in Ls. specialize (Ls _ I). apply Nat.ltb_lt in Ls.
    assert (Ld : length d <= 13) by (destruct J as [<-|[<-|[]]]; vm_compute; repeat constructor).
    rewrite bytes_len. cbn [length]. unfold bytes, byte in *. lia.
Qed.
(** ** C69 *)
(** In a script or with -e, a name that fits cannot fault; nor can a module name when
    HOME is set and the search path fits. *)
Theorem C69_names_partial : forall H D O run n s cwd name f, (forall x s f, run x s <> Fault f) -> here s cwd ->
  clean_name name -> room H cwd name -> load_file H D O run n name s <> Fault f.
Proof. exact load_file_no_fault. Qed.
Print Assumptions C69_names_partial.
Theorem C69_modules_partial : forall H D c s f, home H <> None -> short_search H D -> module_load H D c s <> Fault f.
Proof. intros H D c s f N Sh. apply module_no_fault; [exact N|exact Sh]. Qed.
Print Assumptions C69_modules_partial.
(** A file name on the command line, without '/', of a file that does not exist: a store
    before the buffer. *)
Theorem C69_missing_refuted : forall H D O n name cwd s, dirs s = [] -> pwd H = Some cwd -> length cwd < PATH_MAX ->
  length name < PATH_MAX -> ~ In slash name -> clean_name name -> (forall r, ~ lib_name name r) -> (forall r, ~ home_name name r) ->
  real H name = None -> main_file H D O n name s = Fault Before.
Proof.
  intros H D O n name cwd s Ds Pw Lc Ln Ns Cn Nl Nh Re. unfold main_file, load_file. cbn [push_out with_w dirs]. rewrite Ds, Pw.
  rewrite fits_ok by exact Lc. unfold get_fullpath. destruct (expand_cases H name Cn) as (t & St & Ex & _).
  assert (Et : t = name).
  { apply (stands_unique H name t name St). apply stands_self; [exact Nl|]. intros r X. exfalso. eapply Nh; exact X. }
  subst t. rewrite Ex, fits_ok by exact Ln. rewrite andb_false_r, fits_ok by exact Ln. rewrite Re.
  rewrite (proj2 (split_last_none name) Ns). reflexivity.
Qed.
Print Assumptions C69_missing_refuted.
Example C69_missing_example : main_file H0 D0 O0 40 (bs "nosuch.l") booted = Fault Before.
Proof.
  apply C69_missing_refuted with (cwd := bs "/d"); try reflexivity; try (pose proof path_max; cbn; lia).
  - intro I. vm_compute in I. repeat (destruct I as [I|I]; [discriminate I|]). exact I.
  - apply clean0; reflexivity.
  - intros r (E & _). discriminate E.
  - intros r (E & _). discriminate E.
Qed.
(** A name that does not fit: a store past the buffer. *)
Theorem C69_long_refuted : forall H cwd name b, PATH_MAX <= length name -> ~ In slash name -> clean_name name ->
  (forall r, ~ lib_name name r) -> (forall r, ~ home_name name r) -> get_fullpath H b cwd name = Bad Past.
Proof.
  intros H cwd name b L Ns Cn Nl Nh. unfold get_fullpath. destruct (expand_cases H name Cn) as (t & St & Ex & _).
  assert (Et : t = name).
  { apply (stands_unique H name t name St). apply stands_self; [exact Nl|]. intros r X. exfalso. eapply Nh; exact X. }
  subst t. rewrite Ex. destruct (fits name) as [u|] eqn:Fi; [|reflexivity].
  apply fits_some in Fi. destruct Fi as [_ Fi]. exfalso. unfold bytes, byte in *. lia.
Qed.
Print Assumptions C69_long_refuted.
Example C69_long_example : get_fullpath H0 true (bs "/d") (repeat 97%N PATH_MAX) = Bad Past.
Proof.
  apply C69_long_refuted.
  - rewrite repeat_length. lia.
  - intro I. apply repeat_spec in I. discriminate I.
  - apply clean0; vm_compute; reflexivity.
  - intros r (E & _). vm_compute in E. discriminate E.
  - intros r (E & _). vm_compute in E. discriminate E.
Qed.
(** Without HOME the program does not start; without PWD it loads no file. *)
Theorem C69_home_refuted : forall H D argv environ config, home H = None -> length (install H) + 9 < PATH_MAX ->
  boot H D argv environ config = Fault Null.
Proof.
  intros H D argv environ config E L. unfold boot, defaults, module_load, module_paths. cbn [map mk_list car].
  rewrite fits_ok by (rewrite bytes_len; exact L). rewrite E. reflexivity.
Qed.
Print Assumptions C69_home_refuted.
(** With a long HOME or a long MNML_MODULE_PATH it does not start either: a store past the
    buffer of the search path. *)
Theorem C69_search_refuted : forall H D argv environ config h, home H = Some h ->
  PATH_MAX <= length h \/ (exists e, module_path D = Some e /\ 2 * PATH_MAX <= length e) ->
  boot H D argv environ config = Fault Past.
Proof.
  intros H D argv environ config h Eh L. unfold boot, defaults, module_load. cbn [map mk_list car].
  assert (P : module_paths H D = inr Past).
  { unfold module_paths. rewrite Eh. destruct (fits (install H ++ bs "/lib/mnml")); [|reflexivity].
    destruct (fits (h ++ bs "/.mnml")) as [t|] eqn:Fi; [|reflexivity]. apply fits_some in Fi. destruct Fi as [-> Fi].
    rewrite bytes_len in Fi. destruct L as [L|(e & Ee & L)]; [exfalso; unfold bytes, byte in *; lia|].
    assert (G : PATHS_MAX <= length (paths_text H D h)).
    { rewrite paths_max. unfold paths_text. rewrite Ee. repeat rewrite bytes_len. unfold bytes, byte in *; lia. }
    rewrite (proj2 (Nat.ltb_ge _ _) G). reflexivity. }
  rewrite P. reflexivity.
Qed.
Print Assumptions C69_search_refuted.
(** So does a module in a directory with a long name. *)
Theorem C69_path_refuted : forall H D m p req s, found H D m p -> PATH_MAX <= length p ->
  exists f, module_load H D (Cons (Sym false m) req) s = Fault f.
Proof.
  intros H D m p req s F L. destruct (found_find _ _ _ _ F) as (h & E & Fi). unfold module_load. cbn [Value.car Value.cdr].
  destruct (module_paths H D) as [t|f] eqn:P; [|eauto]. destruct (paths_some _ _ _ P) as (h' & E' & ->).
  assert (h' = h) by congruence. subst h'. rewrite Fi. unfold fits. rewrite (proj2 (Nat.ltb_ge _ _) L). eauto.
Qed.
Print Assumptions C69_path_refuted.
Theorem C69_pwd_refuted : forall H D O n name s, pwd H = None -> dirs s = [] -> main_file H D O n name s = Fault Null.
Proof. intros H D O n name s E Ds. unfold main_file, load_file. cbn [push_out with_w dirs]. rewrite Ds, E. reflexivity. Qed.
Print Assumptions C69_pwd_refuted.
Example C69_search_example : boot H0 (mkdisk (listing D0) (binary D0) (Some (repeat 47%N (2 * PATH_MAX))) (content D0)) [] [] [] = Fault Past.
Proof.
  apply C69_search_refuted with (h := bs "/root"); [reflexivity|]. right. exists (repeat 47%N (2 * PATH_MAX)).
  split; [reflexivity|]. rewrite repeat_length. lia.
Qed.
(** A directory of 4094 bytes in MNML_MODULE_PATH with a module in it. *)
Definition deep : bytes := 47%N :: repeat 97%N (N.to_nat 4093).
Definition Ddeep : disk :=
  mkdisk (fun d => if beq d deep then Some [so "far"] else listing D0 d) (binary D0) (Some deep) (content D0).
Example C69_path_example : exists p, found H0 Ddeep (sy "far") p /\ PATH_MAX <= length p /\
  module_load H0 Ddeep (Cons (Sym false (sy "far")) Nil) booted = Fault Past.
Proof.
  exists (deep ++ slash :: so_name (sy "far")). split; [|split].
  - exists [bs "/usr/lib/mnml"; bs "/root/.mnml"; deep], [bs "/usr/lib/mnml"; bs "/root/.mnml"], deep, []. split; [|split; [reflexivity|split; [|split; [|reflexivity]]]].
    + exists (bs "/root"). split; [reflexivity|].
      change (colon_list (bs "/usr/lib/mnml" ++ 58%N :: (bs "/root/.mnml" ++ 58%N :: deep)) [bs "/usr/lib/mnml"; bs "/root/.mnml"; deep]).
      assert (N : forall t, forallb (fun b => negb (N.eqb b 58)) t = true -> ~ In 58%N t).
      { intros t F I. rewrite forallb_forall in F. apply F in I. discriminate I. }
      apply cl_cons; [apply N; reflexivity|discriminate|]. apply cl_cons; [apply N; reflexivity|discriminate|].
      apply cl_last; [apply N; vm_compute; reflexivity|discriminate].
    + exists [so "far"]. split; [vm_compute; reflexivity|]. vm_compute. left; reflexivity.
    + intros x [<-|[<-|[]]] (l & E & I); [|vm_compute in E; discriminate E].
      vm_compute in E. injection E as <-. vm_compute in I. repeat (destruct I as [I|I]; [discriminate I|]). exact I.
  - apply Nat.leb_le. vm_compute. reflexivity.
  - vm_compute. reflexivity.
Qed.
Example C69_example : here std0 (bs "/d") /\ dirs booted = [] /\ home H0 <> None /\ short_search H0 D0.
Proof.
  split; [|split; [reflexivity|split; [discriminate|exact short0]]].
  exists (make_string (bs "/d")), []. split; [reflexivity|]. split; [|plain_here]. apply make_spells. plain_here.
Qed.

(** ** C70 *)
(** A module found: exactly the entries asked for are bound, to the module's values, in
    the order and number asked; everything else is as before. *)
Theorem C70_module : forall H D s m p es req ks, short_search H D -> coherent H D s -> found H D m p ->
  binary D p = Some (sym_text m, es) -> well_named es -> asks es req ks ->
  exists rs s', module_load H D (Cons (Sym false m) req) s = Got (mk_list (map (Sym false) rs)) s' /\
    selected (fun k => exists v, provides es k v) ks rs /\ binds_entries es ks s s' /\ coherent H D s' /\
    (rs <> [] -> In (m, es) (mods s')).
Proof. exact module_found. Qed.
Print Assumptions C70_module.
Theorem C70_nowhere : forall H D s m req, short_search H D -> nowhere H D m -> module_load H D (Cons (Sym false m) req) s = Got Nil s.
Proof. exact module_nowhere. Qed.
Print Assumptions C70_nowhere.
(** The modules kept open stay the ones the search gives, whatever is evaluated. *)
Theorem C70_coherent : forall H D O argv environ config s0 u, boot H D argv environ config = Got u s0 ->
  coherent H D s0 /\ forall n x s v s', coherent H D s -> form H D O n x s = Got v s' -> coherent H D s'.
Proof.
  intros H D O argv environ config s0 u E. split.
  - unfold boot in E. destruct (defaults H D fresh) as [v s|f| |] eqn:F; try discriminate E. cbn [andthen_] in E. injection E as _ <-.
    apply module_load_ext in F. destruct F as (_ & _ & _ & _ & F). assert (C : coherent H D s) by (apply F; intros m es []).
    assert (K : forall k v z, coherent H D z -> coherent H D (set_name k v z)) by (intros k0 v0 z0 Z; exact Z).
    unfold build_env, build_config, build_argv. destruct argv; destruct (flat_map env_entry environ); repeat apply K; exact C.
  - intros n x s v s' C F. apply form_ext in F. apply F. exact C.
Qed.
Print Assumptions C70_coherent.
(** After the start [def], [quote] and [load] are bound to what the module std provides. *)
Theorem C70_start : forall H D argv environ config p es k v, short_search H D -> found H D (sy "std") p ->
  binary D p = Some (bs "std", es) -> well_named es -> In k [sy "def"; sy "quote"; sy "load"] -> provides es k v ->
  exists s, boot H D argv environ config = Got tt s /\ shows (Eval.globals (wd s)) k (Some v).
Proof.
  intros H D argv environ config p es k v Sh F B W I P.
  destruct (module_found H D fresh (sy "std") p es (mk_list (map (Sym false) [sy "def"; sy "quote"; sy "load"])) [sy "def"; sy "quote"; sy "load"])
    as (rs & s' & E & _ & (Shw & _) & _); [exact Sh|intros m e []|exact F|exact B|exact W| |].
  { apply asks_list. intros x [<-|[<-|[<-|[]]]]; eexists; reflexivity. }
  exists (build_env environ (build_config config (build_argv argv s'))). split.
  - unfold boot, defaults. cbn [map mk_list] in *. rewrite E. reflexivity.
  - assert (S : forall n x z, sy n <> k -> shows (Eval.globals (wd z)) k (Some v) -> shows (Eval.globals (wd (set_name n x z))) k (Some v)).
    { intros n x z N G. apply shows_later; auto. }
    assert (Ne : forall n, In n ["ARGV"; "CONFIG"; "ENV"]%string -> sy n <> k).
    { intros n In1 En. subst k. destruct In1 as [<-|[<-|[<-|[]]]]; repeat (destruct I as [I|I]; [vm_compute in I; discriminate I|]); exact I. }
    unfold build_env, build_config, build_argv.
    assert (G : shows (Eval.globals (wd (match argv with [] => s' | _ => set_name "ARGV" (mk_list (map make_string argv)) s' end))) k (Some v)).
    { destruct argv; [apply Shw; assumption|apply S; [apply Ne; cbn; tauto|apply Shw; assumption]]. }
    destruct (flat_map env_entry environ); repeat (apply S; [apply Ne; cbn; tauto|]); exact G.
Qed.
Print Assumptions C70_start.
Definition math : symbol := sy "math".
Example C70_start_example : short_search H0 D0 /\ found H0 D0 (sy "std") (bs "/usr/lib/mnml/libstd.so") /\
  binary D0 (bs "/usr/lib/mnml/libstd.so") = Some (bs "std", std_entries) /\ well_named std_entries /\ provides std_entries (sy "load") load_value.
Proof.
  split; [exact short0|]. split; [|split; [vm_compute; reflexivity|split]].
  - exists [bs "/usr/lib/mnml"; bs "/root/.mnml"], [], (bs "/usr/lib/mnml"), [bs "/root/.mnml"].
    split; [exact search0|]. split; [reflexivity|]. split; [|split; [intros x []|vm_compute; reflexivity]].
    exists (map (fun m => so (fst m)) std_modules). split; [vm_compute; reflexivity|]. vm_compute. left. reflexivity.
  - split.
    + vm_compute. repeat (constructor; [intro I; repeat (destruct I as [I|I]; [discriminate I|]); exact I|]). constructor.
    + vm_compute. repeat (constructor; [split; [repeat constructor|intro I; repeat (destruct I as [I|I]; [discriminate I|]); exact I]|]). constructor.
  - exists (bs "load"). split; [|reflexivity]. vm_compute. repeat (try (left; reflexivity); right).
Qed.
Example C70_example : short_search H0 D0 /\ coherent H0 D0 booted /\ found H0 D0 math (bs "/usr/lib/mnml/libmath.so") /\
  binary D0 (bs "/usr/lib/mnml/libmath.so") = Some (sym_text math, math_entries) /\ well_named math_entries /\
  asks math_entries (mk_list (map (Sym false) [sy "+"; sy "nosuch"])) [sy "+"; sy "nosuch"] /\ nowhere H0 D0 (sy "iterators").
Proof.
  split; [exact short0|]. pose proof search0 as Se.
  assert (Bt : exists u, boot H0 D0 [] [] [] = Got u booted) by (eexists; vm_compute; reflexivity).
  split; [destruct Bt as (u & Bt); apply (C70_coherent H0 D0 O0 [] [] [] booted u Bt)|].
  split; [|split; [vm_compute; reflexivity|split; [|split]]].
  - exists [bs "/usr/lib/mnml"; bs "/root/.mnml"], [], (bs "/usr/lib/mnml"), [bs "/root/.mnml"].
    split; [exact Se|]. split; [reflexivity|]. split; [|split; [intros x []|vm_compute; reflexivity]].
    exists (map (fun m => so (fst m)) std_modules). split; [vm_compute; reflexivity|]. vm_compute. right; right; left. reflexivity.
  - split.
    + vm_compute. repeat (constructor; [intro I; repeat (destruct I as [I|I]; [discriminate I|]); exact I|]). constructor.
    + vm_compute. repeat (constructor; [split; [repeat constructor|intro I; repeat (destruct I as [I|I]; [discriminate I|]); exact I]|]). constructor.
  - apply asks_list. intros k [<-|[<-|[]]]; [exists (bs "+")|exists (bs "nosuch")]; reflexivity.
  - exists [bs "/usr/lib/mnml"; bs "/root/.mnml"]. split; [exact Se|].
    intros x [<-|[<-|[]]] (l & E & I); [|vm_compute in E; discriminate E].
    vm_compute in E. injection E as <-. vm_compute in I. repeat (destruct I as [I|I]; [discriminate I|]). exact I.
Qed.

(** ** C71 *)
(** Top-level expressions with [load] and [quit], scripts (nested to any depth), and the
    arguments of [load]: whatever the specification says happens, for texts made of
    pieces read in one go and for names and directories that fit and have no backslash. *)
Theorem C71_load_partial : forall H D O x s v s', acts H D O x s v s' ->
  (exists N, forall n, N <= n -> form H D O n x s = Got v s') /\
  (forall n v2 s2, form H D O n x s = Got v2 s2 -> v2 = v /\ s2 = s').
Proof. exact acts_form. Qed.
Print Assumptions C71_load_partial.
Theorem C71_file_partial : forall H D O cwd name t p d text s s0 s1 v s2 s3, dirs s = [] -> pwd H = Some cwd ->
  clean_name name -> room H cwd name -> stands H name t -> names_file H t p -> content D p = Some text ->
  dir_of p d -> plain_path d -> with_stdout s s0 -> enters d s0 s1 -> script_acts H D O text Nil s1 v s2 -> leaves_file s2 s3 ->
  exists N, forall n, N <= n -> main_file H D O n name s = Got v s3.
Proof. exact main_file_runs. Qed.
Print Assumptions C71_file_partial.

(** The script a.l loads b.l, which is next to it. *)
Definition load_b : atom := mk_list [Symb (sy "load"); make_string (bs "b.l")].
Definition load_b_tokens : list (kind * bytes) :=
  [(KOpen, bs "("); (KSymbol, bs "load"); (KSpace, bs " "); (KString, bs """b.l"""); (KClose, bs ")"); (KSpace, [10%N])].
Lemma load_b_piece : forall rd w, piece rd w (bs "(load ""b.l"")" ++ [10%N]) [load_b] w.
Proof.
  intros rd w. exists [(bs "(load ""b.l"")", load_b_tokens)]. split; [discriminate|]. split; [reflexivity|]. split; [|split].
  - constructor; [|constructor]. cbn [fst snd]. split; [|apply tokens_splits; vm_compute; reflexivity].
    split; [apply Nat.leb_le; reflexivity|]. repeat (constructor; [split; discriminate|]). constructor.
  - apply (program_form Eval.world rd w [(KOpen, bs "("); (KSymbol, bs "load"); (KSpace, bs " "); (KString, bs """b.l"""); (KClose, bs ")")]
      load_b w [(KSpace, [10%N])] [] w); [|apply program_filler; [left; reflexivity|apply program_end]].
    apply form_list. unfold load_b. cbn [mk_list].
    apply (body_item Eval.world rd true w [(KSymbol, bs "load")] _ w).
    + apply form_plain. apply (plain_symbol (bs "load")); [|exists 12; split; reflexivity].
      apply symbol_chars; [left; right; split; discriminate| |cbn; lia].
      repeat (apply Forall_cons; [left; right; split; discriminate|]). constructor.
    + apply body_filler; [left; reflexivity|].
      apply (body_item Eval.world rd false w [(KString, bs """b.l""")] _ w _ Nil w); [|apply body_close].
      apply form_plain. apply (plain_string (bs "b.l") [98; 46; 108]%Z).
      * repeat (constructor; [split; reflexivity|]). constructor.
      * repeat (apply un_plain; [discriminate|]). apply un_end.
  - intros p q E Nq; left; destruct p as [|x p]; [constructor|].
    exfalso; apply Nq; cbn in E; injection E as <- E; symmetry in E; apply app_eq_nil in E; apply E.
Qed.
Lemma seven_piece : forall rd w, piece rd w (bs "7" ++ [10%N]) [Num 7] w.
Proof.
  intros rd w. apply literal_piece; [|constructor; lia|cbn; lia].
  apply lit_num. apply (decimal_pos 7 (bs "7")); [|reflexivity].
  split; [repeat (constructor; [split; discriminate|]); constructor|]. right. exists 55%N, []. split; [reflexivity|discriminate].
Qed.

Definition in_a : st := push_dir (bs "/d") std0.
Definition in_b : st := push_dir (bs "/d") in_a.
Example C71_example : acts H0 D0 O0 (mk_list [Symb (sy "load"); make_string (bs "a.l")]) std0 (Num 7) (pop_dir (pop_dir in_b)).
Proof.
  assert (Pd : plain_path (bs "/d")) by plain_here.
  assert (Rn : forall x w v, Eval.eval O0 20 [] x w = Eval.Ret v w -> runs O0 [] x w (Eval.Ret v w)).
  { intros x w v E. split; [discriminate|]. exists 20. exact E. }
  assert (Ca : forall name s, Eval.globals (wd s) = Eval.globals (wd booted) ->
    calls_builtin (mk_list [Symb (sy "load"); make_string name]) s load_adr (mk_list [make_string name])).
  { intros name s E. exists false, false, (sy "load"), false, (Symb (sy "ANY")), false. split; [reflexivity|].
    apply env_get_shows. rewrite E. vm_compute. reflexivity. }
  assert (He : forall s r, dirs s = make_string (bs "/d") :: r -> here s (bs "/d")).
  { intros s r E. exists (make_string (bs "/d")), r. split; [exact E|]. split; [apply make_spells; exact Pd|exact Pd]. }
  assert (Di : forall f, ~ In slash f -> dir_of (bs "/d/" ++ f) (bs "/d")).
  { intros f N. exists (bs "/d"), f. split; [reflexivity|]. split; [exact N|]. right. split; [discriminate|reflexivity]. }
  assert (Ns : forall f, forallb (fun b => negb (N.eqb b 47)) f = true -> ~ In slash f).
  { intros f F I. rewrite forallb_forall in F. apply F in I. discriminate I. }
  assert (Sp : forall n, plain_path n -> spells (make_string n) n) by (intros n P; apply make_spells; exact P).
  apply acts_load with (l := [make_string (bs "a.l")]); [apply Ca; reflexivity|].
  apply loads_last with (u := make_string (bs "a.l")) (w := wd std0); [apply Rn; vm_compute; reflexivity|]. rewrite with_same.
  apply loaded_file with (name := bs "a.l") (cwd := bs "/d") (p := bs "/d/a.l") (d := bs "/d") (text := bs "(load ""b.l"")" ++ [10%N])
    (s1 := in_a) (s2 := pop_dir in_b); [apply Sp; plain_here|discriminate|plain_here|apply (He std0 []); reflexivity|apply clean0; reflexivity
    |apply room0; cbn; lia|apply fullpath_denotes; [apply clean0; reflexivity|vm_compute; reflexivity]|vm_compute; reflexivity
    |apply (Di (bs "a.l")); apply Ns; reflexivity|exact Pd|apply push_enters; exact Pd| |].
  2: { do 2 eexists. repeat split. }
  rewrite <- (app_nil_r (_ ++ [10%N])).
  apply sa_piece with (x := load_b) (l := []) (w1 := wd in_a) (v1 := Num 7) (s1 := pop_dir in_b);
    [apply load_b_piece| |apply sa_end; exists []; split; [reflexivity|split; constructor]].
  rewrite with_same. apply aa_one with (v1 := Num 7) (s1 := pop_dir in_b); [|apply aa_end].
  apply acts_load with (l := [make_string (bs "b.l")]); [apply (Ca (bs "b.l")); reflexivity|].
  apply loads_last with (u := make_string (bs "b.l")) (w := wd in_a); [apply Rn; vm_compute; reflexivity|]. rewrite with_same.
  apply loaded_file with (name := bs "b.l") (cwd := bs "/d") (p := bs "/d/b.l") (d := bs "/d") (text := bs "7" ++ [10%N])
    (s1 := in_b) (s2 := in_b); [apply Sp; plain_here|discriminate|plain_here|apply (He in_a (dirs std0)); reflexivity|apply clean0; reflexivity
    |apply room0; cbn; lia|apply fullpath_denotes; [apply clean0; reflexivity|vm_compute; reflexivity]|vm_compute; reflexivity
    |apply (Di (bs "b.l")); apply Ns; reflexivity|exact Pd|apply push_enters; exact Pd| |].
  2: { do 2 eexists. repeat split. }
  rewrite <- (app_nil_r (_ ++ [10%N])).
  apply sa_piece with (x := Num 7) (l := []) (w1 := wd in_b) (v1 := Num 7) (s1 := in_b);
    [apply seven_piece| |apply sa_end; exists []; split; [reflexivity|split; constructor]].
  rewrite with_same. apply aa_one with (v1 := Num 7) (s1 := in_b); [|apply aa_end].
  rewrite <- (with_same in_b) at 2. apply acts_plain; [| |apply Rn; reflexivity].
  - intros a (t & u & k & t1 & b & t2 & E & _). discriminate E.
  - intros a (t & u & k & t1 & b & t2 & E & _). discriminate E.
Qed.

(** ** C72 *)
(** Whatever a top-level expression does (loads nested to any depth included), when it
    returns the channels and directories are as before, output and bindings were only
    added, the modules kept open remain. *)
Theorem C72_restored : forall H D O n x s v s', form H D O n x s = Got v s' -> ext H D s s'.
Proof. intros H D O n x s v s'. apply form_ext. Qed.
Print Assumptions C72_restored.
Theorem C72_file : forall H D O n m name s v s', load_file H D O (form H D O n) m name s = Got v s' -> ext H D s s'.
Proof. intros H D O n m name s v s'. apply load_file_ext. intros x s1 v1 s2 E. eapply form_ext. exact E. Qed.
Print Assumptions C72_file.
Example C72_example : exists s, form H0 D0 O0 20 (mk_list [Symb (sy "load"); make_string (bs "a.l")]) std0 = Got (Num 7) s /\
  Eval.ichan (wd s) = [0%N] /\ Eval.opens (wd s) = (Eval.opens (wd std0) + 2)%N.
Proof. eexists. split; [vm_compute; reflexivity|]. split; reflexivity. Qed.

(** ** C73 *)
(** With -e nothing is evaluated after [(quit)], and the result is T. *)
Theorem C73_expr_partial : forall H D O cwd text toks pre q post w s s1 v sm a, plain_path cwd -> splits text toks Done ->
  program Eval.world (reads_as O) (wd s) toks (pre ++ q :: post) w -> ~ In Nil (pre ++ q :: post) -> with_std cwd (with_w s w) s1 ->
  in_order (acts H D O) pre Nil s1 v sm -> quits sm = false -> calls_builtin q sm quit_adr a ->
  exists N, forall n, N <= n -> main_expr H D O n cwd text s = Got Tru (mkst (wd sm) (dirs sm) (mods sm) true).
Proof.
  intros H D O cwd text toks pre q post w s s1 v sm a Pc Sp Pr Nn St I Q C.
  eapply main_expr_runs; eauto. eapply in_order_until; [exact I|exact Q|].
  eapply uq_one; [exact Q|eapply acts_quit; exact C|]. apply uq_quit. reflexivity.
Qed.
Print Assumptions C73_expr_partial.
(** A script goes on after [(quit)]. *)
Definition ready : st :=
  match run_e "(load '(std quit) '(io prinl))" with Got _ s => s | _ => fresh end.
Theorem C73_script_refuted : exists H D O name cwd s, here s cwd /\ denotes H cwd name (bs "/d/q.l") /\
  content D (bs "/d/q.l") = Some (bs "(quit)" ++ [10%N] ++ bs "(prinl 1)" ++ [10%N]) /\
  calls_builtin (mk_list [Symb (sy "quit")]) s quit_adr Nil /\ Eval.outs (wd s) = [] /\
  forall n, 10 <= n -> exists v s', form H D O n (mk_list [Symb (sy "load"); make_string name]) s = Got v s' /\
    output (Got v s') = bs "1" ++ [10%N].
Proof.
  exists H0, D0, O0, (bs "q.l"), (bs "/d"), ready. split; [|split; [|split; [|split; [|split]]]].
  - exists (make_string (bs "/d")), []. split; [vm_compute; reflexivity|]. split; [apply make_spells|]; plain_here.
  - apply fullpath_denotes; [apply clean0; reflexivity|vm_compute; reflexivity].
  - vm_compute. reflexivity.
  - exists false, false, (sy "quit"), false, (Symb (sy "")), false. split; [reflexivity|]. apply env_get_shows. vm_compute. reflexivity.
  - vm_compute. reflexivity.
  - assert (E : exists s, form H0 D0 O0 10 (mk_list [Symb (sy "load"); make_string (bs "q.l")]) ready = Got (Num 1) s /\
      output (Got (Num 1) s) = bs "1" ++ [10%N]) by (eexists; split; vm_compute; reflexivity).
    destruct E as (s & E & F). intros n L. exists (Num 1), s. split; [|exact F]. eapply form_more; eauto.
Qed.
Print Assumptions C73_script_refuted.

(** ** C74 *)
(** With -e every expression of the text is evaluated in order, until told to quit, if
    none of them reads as NIL. *)
Theorem C74_expr_partial : forall H D O cwd text toks vs w s s1 v s2, plain_path cwd -> splits text toks Done ->
  program Eval.world (reads_as O) (wd s) toks vs w -> ~ In Nil vs -> with_std cwd (with_w s w) s1 ->
  until_quit (acts H D O) vs Nil s1 v s2 -> exists N, forall n, N <= n -> main_expr H D O n cwd text s = Got v s2.
Proof. exact main_expr_runs. Qed.
Print Assumptions C74_expr_partial.
(** Reading NIL ends it. *)
Definition nil_7 : list (kind * bytes) := [(KNil, bs "NIL"); (KSpace, bs " "); (KNumber, bs "7")].
Lemma seven_form : forall rd w, ReadSpec.form Eval.world rd w [(KNumber, bs "7")] (Num 7) w.
Proof.
  intros rd w. apply form_plain. apply (plain_number (bs "7") 7). apply (numeral_plain (bs "7")); [discriminate|].
  repeat (constructor; [split; discriminate|]). constructor.
Qed.
Lemma std0_with : with_std (bs "/d") (with_w booted (wd booted)) std0.
Proof. exists (make_string (bs "/d")). split; [apply make_spells; plain_here|]. repeat split. Qed.
Lemma acts_num : forall H D O z s, acts H D O (Num z) s (Num z) s.
Proof.
  intros H D O z s. rewrite <- (with_same s) at 2. apply acts_plain.
  - intros a (t & u & k & t1 & b & t2 & E & _). discriminate E.
  - intros a (t & u & k & t1 & b & t2 & E & _). discriminate E.
  - split; [discriminate|]. exists 1. reflexivity.
Qed.
Lemma acts_nil : forall H D O s, acts H D O Nil s Nil s.
Proof.
  intros H D O s. rewrite <- (with_same s) at 2. apply acts_plain.
  - intros a (t & u & k & t1 & b & t2 & E & _). discriminate E.
  - intros a (t & u & k & t1 & b & t2 & E & _). discriminate E.
  - split; [discriminate|]. exists 1. reflexivity.
Qed.
Theorem C74_nil_refuted : exists H D O cwd text toks vs w s s1 v s2, plain_path cwd /\ splits text toks Done /\
  program Eval.world (reads_as O) (wd s) toks vs w /\ with_std cwd (with_w s w) s1 /\
  until_quit (acts H D O) vs Nil s1 v s2 /\ forall n, 1 <= n -> exists s3, main_expr H D O n cwd text s = Got Nil s3 /\ v <> Nil.
Proof.
  exists H0, D0, O0, (bs "/d"), (bs "NIL 7"), nil_7, [Nil; Num 7], (wd booted), booted, std0, (Num 7), std0.
  split; [plain_here|]. split; [apply tokens_splits; vm_compute; reflexivity|]. split; [|split; [exact std0_with|split]].
  - apply (program_form _ _ _ [(KNil, bs "NIL")] Nil (wd booted) [(KSpace, bs " "); (KNumber, bs "7")]); [apply form_plain, plain_nil|].
    apply program_filler; [left; reflexivity|]. apply (program_form _ _ _ [(KNumber, bs "7")] (Num 7) (wd booted) []); [apply seven_form|apply program_end].
  - eapply uq_one; [reflexivity|apply acts_nil|]. eapply uq_one; [reflexivity|apply acts_num|]. apply uq_end. reflexivity.
  - intros n L. assert (E : exists s3, main_expr H0 D0 O0 1 (bs "/d") (bs "NIL 7") booted = Got Nil s3) by (eexists; vm_compute; reflexivity).
    destruct E as (s3 & E). exists s3. split; [|discriminate]. eapply main_expr_more; eauto.
Qed.
Print Assumptions C74_nil_refuted.
Example C74_example : exists toks vs w s2, splits (bs "7 8") toks Done /\ program Eval.world (reads_as O0) (wd booted) toks vs w /\ ~ In Nil vs /\
  with_std (bs "/d") (with_w booted w) std0 /\ until_quit (acts H0 D0 O0) vs Nil std0 (Num 8) s2.
Proof.
  exists [(KNumber, bs "7"); (KSpace, bs " "); (KNumber, bs "8")], [Num 7; Num 8], (wd booted), std0.
  split; [apply tokens_splits; vm_compute; reflexivity|]. split; [|split; [intros [E|[E|[]]]; discriminate E|split; [exact std0_with|]]].
  - apply (program_form _ _ _ [(KNumber, bs "7")] (Num 7) (wd booted) [(KSpace, bs " "); (KNumber, bs "8")]); [apply seven_form|].
    apply program_filler; [left; reflexivity|]. apply (program_form _ _ _ [(KNumber, bs "8")] (Num 8) (wd booted) []); [|apply program_end].
    apply form_plain. apply (plain_number (bs "8") 8). apply (numeral_plain (bs "8")); [discriminate|].
    repeat (constructor; [split; discriminate|]). constructor.
  - eapply uq_one; [reflexivity|apply acts_num|]. eapply uq_one; [reflexivity|apply acts_num|]. apply uq_end. reflexivity.
Qed.
Example C73_example : exists toks w s1, splits (bs "7 (quit) 8") toks Done /\
  program Eval.world (reads_as O0) (wd ready) toks ([Num 7] ++ mk_list [Symb (sy "quit")] :: [Num 8]) w /\
  with_std (bs "/d") (with_w ready w) s1 /\ in_order (acts H0 D0 O0) [Num 7] Nil s1 (Num 7) s1 /\ quits s1 = false /\
  calls_builtin (mk_list [Symb (sy "quit")]) s1 quit_adr Nil.
Proof.
  exists [(KNumber, bs "7"); (KSpace, bs " "); (KOpen, bs "("); (KSymbol, bs "quit"); (KClose, bs ")"); (KSpace, bs " "); (KNumber, bs "8")],
    (wd ready), (push_out (push_in (bs "/d") ready)).
  split; [apply tokens_splits; vm_compute; reflexivity|]. split; [|split; [|split; [|split]]].
  - apply (program_form _ _ _ [(KNumber, bs "7")] (Num 7) (wd ready) [(KSpace, bs " "); (KOpen, bs "("); (KSymbol, bs "quit"); (KClose, bs ")"); (KSpace, bs " "); (KNumber, bs "8")]); [apply seven_form|].
    apply program_filler; [left; reflexivity|].
    apply (program_form _ _ _ [(KOpen, bs "("); (KSymbol, bs "quit"); (KClose, bs ")")] _ (wd ready) [(KSpace, bs " "); (KNumber, bs "8")]).
    + apply form_list. apply (body_item Eval.world _ true _ [(KSymbol, bs "quit")] _ (wd ready) [(KClose, bs ")")] Nil); [|apply body_close].
      apply form_plain. apply (plain_symbol (bs "quit")); [|exists 12; split; reflexivity].
      apply symbol_chars; [left; right; split; discriminate| |cbn; lia].
      repeat (apply Forall_cons; [left; right; split; discriminate|]). constructor.
    + apply program_filler; [left; reflexivity|]. apply (program_form _ _ _ [(KNumber, bs "8")] (Num 8) (wd ready) []); [|apply program_end].
      apply form_plain. apply (plain_number (bs "8") 8). apply (numeral_plain (bs "8")); [discriminate|].
      repeat (constructor; [split; discriminate|]). constructor.
  - exists (make_string (bs "/d")). split; [apply make_spells; plain_here|]. repeat split.
  - eapply io_one; [apply acts_num|apply io_end].
  - vm_compute. reflexivity.
  - exists false, false, (sy "quit"), false, (Symb (sy "")), false. split; [reflexivity|]. apply env_get_shows. vm_compute. reflexivity.
Qed.

(** ** C75 *)
(** Interactive: prompt, expressions in order, each value in literal form, until the end
    of the input or told to quit. *)
Theorem C75_dialogue_partial : forall H D O cwd input s s1 v s2, plain_path cwd -> with_std cwd s s1 ->
  dialogue (acts H D O) (reads_as O) input Nil s1 v s2 -> exists N, forall n, N <= n -> main_repl H D O n cwd input s = Got v s2.
Proof. exact main_repl_runs. Qed.
Print Assumptions C75_dialogue_partial.
(** At the end of the input the status is that of a failure, whatever was evaluated. *)
Theorem C75_status_refuted : forall H D O n cwd input s v s', main_repl H D O n cwd input s = Got v s' -> quits s' = false ->
  status v = (-1)%Z.
Proof.
  intros H D O n cwd input s v s' E Q. apply repl_end in E. destruct E as [E|E]; [rewrite Q in E; discriminate E|subst v; reflexivity].
Qed.
Print Assumptions C75_status_refuted.
Example C75_example : exists s2, dialogue (acts H0 D0 O0) (reads_as O0) (bs "7" ++ [10%N]) Nil std0 Nil s2 /\ output (Got Nil s2) = bs ": > 7" ++ [10%N] ++ bs ": ".
Proof.
  assert (T : forall t s, told t s (say t s)).
  { intros t s. eexists. split; [reflexivity|]. repeat split. }
  set (s1 := say (bs ": ") std0). set (s2 := say (bs "> ") s1). set (s3 := say (bs "7") s2). set (s4 := say [10%N] s3).
  exists (say (bs ": ") s4). split; [|vm_compute; reflexivity].
  rewrite <- (app_nil_r (_ ++ [10%N])).
  apply di_piece with (x := Num 7) (l := []) (s1 := s1) (w1 := wd s1) (v1 := Num 7) (s2 := s4);
    [reflexivity|apply T|apply seven_piece| |apply di_end; [reflexivity|exists []; split; [reflexivity|split; constructor]|apply T]].
  rewrite with_same. eapply an_one with (s2 := s2) (s3 := s3); [reflexivity|apply acts_num|apply T| | |apply T|apply an_end].
  - split; [vm_compute; repeat split; discriminate|]. apply lit_num. apply (decimal_pos 7 (bs "7")); [|reflexivity].
    split; [repeat (constructor; [split; discriminate|]); constructor|]. right. exists 55%N, []. split; [reflexivity|discriminate].
  - eexists. split; [reflexivity|]. exists 1%N. repeat split.
Qed.

(** ** C76 *)
Theorem C76_argv_partial : forall H D argv environ config u s, boot H D argv environ config = Got u s -> argv <> [] ->
  Forall (fun a => Forall (fun b => (b < 256)%N) a /\ ~ In 92%N a) argv ->
  exists v, shows (Eval.globals (wd s)) (sy "ARGV") (Some v) /\ lists_texts v argv.
Proof.
  intros H D argv environ config u s E N F. exists (mk_list (map make_string argv)).
  split; [|eexists; split; [reflexivity|apply argv_lists; exact F]].
  unfold boot in E. destruct (defaults H D fresh) as [x s0|f| |]; try discriminate E. cbn [andthen_] in E. injection E as _ <-.
  assert (G : shows (Eval.globals (wd (build_config config (build_argv argv s0)))) (sy "ARGV") (Some (mk_list (map make_string argv)))).
  { destruct argv as [|a argv]; [contradiction|]. apply shows_later; [vm_compute; discriminate|]. apply shows_here. }
  unfold build_env. destruct (flat_map env_entry environ); [exact G|]. apply shows_later; [vm_compute; discriminate|exact G].
Qed.
Print Assumptions C76_argv_partial.
Theorem C76_env_partial : forall H D argv environ config u s, boot H D argv environ config = Got u s -> environ <> [] ->
  Forall (fun p => Forall (fun b => (b < 256)%N) p /\ ~ In 92%N p /\ exists k t, variable p k t /\ t <> []) environ ->
  exists v, shows (Eval.globals (wd s)) (sy "ENV") (Some v) /\ lists_variables v environ.
Proof.
  intros H D argv environ config u s E N F. exists (mk_list (flat_map env_entry environ)). pose proof (env_lists environ F) as L.
  split; [|eexists; split; [reflexivity|exact L]].
  unfold boot in E. destruct (defaults H D fresh) as [x s0|f| |]; try discriminate E. cbn [andthen_] in E. injection E as _ <-.
  unfold build_env. destruct (flat_map env_entry environ); [inversion L; subst; contradiction|]. apply shows_here.
Qed.
Print Assumptions C76_env_partial.
(** A backslash in an argument is not kept; a variable with an empty value is left out. *)
Theorem C76_argv_refuted : exists H D argv environ config u s v, boot H D argv environ config = Got u s /\
  shows (Eval.globals (wd s)) (sy "ARGV") (Some v) /\ ~ lists_texts v argv.
Proof.
  exists H0, D0, [bs "mnml"; bs "a\b"], [], []. do 3 eexists. split; [vm_compute; reflexivity|]. split; [apply env_get_shows; vm_compute; reflexivity|].
  intros (vs & E & F). inversion F as [|x1 y1 l1 m1 S1 F1]; subst. inversion F1 as [|x2 y2 l2 m2 S2 F2]; subst. inversion F2; subst.
  unfold spells in *. subst. vm_compute in E. discriminate E.
Qed.
Print Assumptions C76_argv_refuted.
Theorem C76_env_refuted : exists H D argv environ config u s v, boot H D argv environ config = Got u s /\
  (forall p, In p environ -> ~ In 92%N p /\ exists k t, variable p k t) /\
  shows (Eval.globals (wd s)) (sy "ENV") (Some v) /\ ~ lists_variables v environ.
Proof.
  exists H0, D0, [], [bs "A=1"; bs "B="], []. do 3 eexists. split; [vm_compute; reflexivity|]. split; [|split; [apply env_get_shows; vm_compute; reflexivity|]].
  - intros p [<-|[<-|[]]]; (split; [intro I; vm_compute in I; repeat (destruct I as [I|I]; [discriminate I|]); exact I|]).
    + exists (bs "A"), (bs "1"). split; [reflexivity|]. intros [I|[]]. discriminate I.
    + exists (bs "B"), []. split; [reflexivity|]. intros [I|[]]. discriminate I.
  - intros (vs & E & F). inversion F as [|x1 y1 l1 m1 S1 F1]; subst. inversion F1 as [|x2 y2 l2 m2 S2 F2]; subst. inversion F2; subst.
    cbn [mk_list] in E. injection E as _ E. discriminate E.
Qed.
Print Assumptions C76_env_refuted.
Example C76_example : exists s, boot H0 D0 [bs "mnml"; bs "x y"] [bs "A=1"; bs "B=c=d"] [] = Got tt s /\
  Forall (fun p => Forall (fun b => (b < 256)%N) p /\ ~ In 92%N p /\ exists k t, variable p k t /\ t <> []) [bs "A=1"; bs "B=c=d"].
Proof.
  eexists. split; [vm_compute; reflexivity|].
  assert (N : forall t, forallb (fun b => negb (N.eqb b 92)) t = true -> ~ In 92%N t).
  { intros t F I. rewrite forallb_forall in F. apply F in I. discriminate I. }
  constructor; [|constructor; [|constructor]]; (split; [repeat (constructor; [reflexivity|]); constructor|split; [apply N; reflexivity|]]).
  - exists (bs "A"), (bs "1"). split; [split; [reflexivity|intros [I|[]]; discriminate I]|discriminate].
  - exists (bs "B"), (bs "c=d"). split; [split; [reflexivity|intros [I|[]]; discriminate I]|discriminate].
Qed.
