(** * HostMain: scripts, [load], and the main program do what the specification says. *)
From Verif Require Import Base Value ValueSpec ValueProofs Lexer LexerSpec ReadSpec Parser ParserProofs ReadProofs EvalSpec
  PrintSpec BuiltinSpec Sem5 Sem6 Path Load HostSpec HostProofs HostRun.
From Verif Require Eval.
Open Scope nat_scope.

(** ** Names and directories *)
Lemma spells_chars : forall v t, spells v t <-> v = mk_chars (map schar t).
Proof. intros v t. unfold spells, mk_chars. rewrite map_map. tauto. Qed.
Lemma spells_text : forall v t, spells v t -> plain_path t -> cstr (cstring_bytes PATH_MAX v) = t.
Proof.
  intros v t S (B & _ & Z & L). apply spells_chars in S. subst v. rewrite cstring_bytes_chars, map_byte_schar by exact B.
  rewrite firstn_all2 by (apply Nat.lt_le_incl; exact L). apply ValueProofs.cstr_id. apply Forall_forall. intros b I E. subst b. auto.
Qed.
Lemma spells_string : forall v t, spells v t -> t <> [] -> exists a d, v = Pair false a d /\ is_string v = true.
Proof.
  intros v t S N. apply spells_chars in S. subst v. destruct t as [|b t]; [contradiction|].
  cbn [map mk_chars]. exists (Chr (schar b)), (mk_chars (map schar t)). split; [reflexivity|]. apply (is_string_chars (map schar (b :: t))).
Qed.
Lemma make_spells : forall d, plain_path d -> spells (make_string d) d.
Proof. intros d (B & S & _). apply spells_chars. apply make_string_plain; auto. Qed.
Lemma string_value_is : forall v, string_value v <-> is_string v = true.
Proof.
  intro v. split.
  - intro S. induction S; cbn [is_string]; auto.
  - induction v as [| | |z|z|fl k|t a IHa d IHd]; cbn [is_string]; try discriminate; intro E; [constructor|].
    apply andb_prop in E. destruct E as [E1 E2]. destruct a; try discriminate. constructor; auto.
Qed.

Lemma dirname_of : forall p d, dir_of p d -> dirname p = d.
Proof.
  intros p d (e & f & -> & N & [[-> ->]|[Ne ->]]); unfold dirname; rewrite split_last_at by exact N; [reflexivity|].
  destruct e; [contradiction|reflexivity].
Qed.
Lemma enters_push : forall d s s1, plain_path d -> enters d s s1 -> s1 = push_dir d s.
Proof.
  intros d s s1 P (a & Sp & E1 & E2 & E3 & E4 & E5 & E6 & E7 & E8). unfold push_dir.
  destruct s1 as [w1 d1 m1 q1]; destruct w1; cbn in *. subst. f_equal.
  f_equal. apply make_spells in P. unfold spells in *. congruence.
Qed.
Lemma push_enters : forall d s, plain_path d -> enters d s (push_dir d s).
Proof. intros d s P. exists (make_string d). split; [apply make_spells; exact P|]. cbn. auto 10. Qed.
Lemma leaves_pop : forall s s', leaves_file s s' -> s' = pop_dir s.
Proof.
  intros s s' (h & a & E1 & E2 & E3 & E4 & E5 & E6 & E7 & E8). unfold pop_dir.
  destruct s' as [w' d' m' q']; destruct w'; cbn in *. rewrite E1, E2. cbn. subst. reflexivity.
Qed.

(** ** Calls *)
Lemma calls_loads : forall x s args, calls_builtin x s load_adr args -> calls x (wd s) = Loads args.
Proof. intros x s args (t & u & k & t1 & a & t2 & -> & S). apply env_get_shows in S. unfold calls. rewrite S. reflexivity. Qed.
Lemma calls_quits : forall x s args, calls_builtin x s quit_adr args -> calls x (wd s) = Quits.
Proof. intros x s args (t & u & k & t1 & a & t2 & -> & S). apply env_get_shows in S. unfold calls. rewrite S. reflexivity. Qed.
Lemma calls_plain : forall x s, (forall a, ~ calls_builtin x s load_adr a) -> (forall a, ~ calls_builtin x s quit_adr a) ->
  calls x (wd s) = Plain.
Proof.
  intros x s N1 N2. unfold calls. destruct x as [| | |z|z|fl k|t a d]; auto. destruct a as [| | |z|z|fl k|t' a' d']; auto.
  destruct (env_get (Eval.globals (wd s)) k) as [v|] eqn:G; auto.
  destruct v as [| | |z|z|fl' k'|t1 a1 d1]; auto. destruct d1 as [| | |z|z|fl' k'|t2 a2 d2]; auto.
  destruct a2; auto. destruct d2 as [| | |z|z|fl' k'|t3 a3 d3]; auto.
  apply env_get_shows in G.
  destruct (Z.eqb z load_adr) eqn:E1; [exfalso|destruct (Z.eqb z quit_adr) eqn:E2; [exfalso|auto]].
  - apply Z.eqb_eq in E1. subst z. apply (N1 d). unfold calls_builtin. do 6 eexists. split; [reflexivity|exact G].
  - apply Z.eqb_eq in E2. subst z. apply (N2 d). unfold calls_builtin. do 6 eexists. split; [reflexivity|exact G].
Qed.

Section Main.
Variable H : host.
Variable D : disk.
Variable O : oracle.

Lemma runs_ret : forall x w v w', runs O [] x w (Eval.Ret v w') -> exists n, Eval.eval O n [] x w = Eval.Ret v w'.
Proof. intros x w v w' [_ R]. exact R. Qed.
Lemma runs_top : forall x s v w', runs O [] x (wd s) (Eval.Ret v w') -> exists N, forall n, N <= n -> eval_top O n x s = Got v (with_w s w').
Proof.
  intros x s v w' R. apply runs_ret in R. destruct R as [N E]. exists N. intros n L. unfold eval_top.
  rewrite (eval_more O N n x (wd s) v w') by auto. reflexivity.
Qed.
Lemma reads_as_reads : forall a w v w', reads_as O a w v w' -> reads O a w v w'.
Proof. intros a w v w' R. apply runs_ret in R. destruct R as [n E]. exists n. unfold at_read. rewrite E. reflexivity. Qed.
Lemma form_mono : forall (R S : atom -> Eval.world -> atom -> Eval.world -> Prop), (forall a w v w', R a w v w' -> S a w v w') ->
  (forall w l v w', ReadSpec.form Eval.world R w l v w' -> ReadSpec.form Eval.world S w l v w') /\
  (forall b w l v w', body Eval.world R b w l v w' -> body Eval.world S b w l v w').
Proof.
  intros R S I. apply form_body_ind; intros.
  - apply form_plain; auto.
  - apply form_list; auto.
  - apply form_quote_list; auto.
  - apply form_quote_symbol; auto.
  - apply form_quote_number; auto.
  - eapply form_back_list; eauto.
  - eapply form_back_symbol; eauto.
  - eapply form_back_number; eauto.
  - apply body_close.
  - apply body_filler; auto.
  - eapply body_item; eauto.
  - apply body_dot; auto.
  - eapply body_splice; eauto.
Qed.
Lemma program_mono : forall (R S : atom -> Eval.world -> atom -> Eval.world -> Prop), (forall a w v w', R a w v w' -> S a w v w') ->
  forall w l vs w', program Eval.world R w l vs w' -> program Eval.world S w l vs w'.
Proof.
  intros R S I w l vs w' P. induction P as [w|w t l vs w' F _ IH|w l1 v w1 l2 vs w2 F _ IH]; [constructor|constructor; auto|].
  econstructor; [apply (proj1 (form_mono R S I)); exact F|exact IH].
Qed.
Lemma piece_reads : forall w t vs w', piece (reads_as O) w t vs w' -> piece (reads O) w t vs w'.
Proof.
  intros w t vs w' (lines & N & E & F & P & Mid). exists lines. repeat (split; [assumption|]). split; [|exact Mid].
  eapply program_mono; [apply reads_as_reads|exact P].
Qed.

(** ** The builtin load *)
Lemma load_file_at : forall run n s cwd name, here s cwd -> load_file H D O run n name s =
  match get_fullpath H true cwd name with
  | Bad f => Fault f
  | NoFull => Got Nil s
  | Full p =>
      match content D p with
      | None => Got Nil s
      | Some text =>
          andthen_ (load_loop O run n (S (length text)) [] text Nil (push_dir (dirname p) s)) (fun v s' => Got v (pop_dir s'))
      end
  end.
Proof.
  intros run n s cwd name (a & r & E & Sp & P). unfold load_file. rewrite E. rewrite (spells_text _ _ Sp P).
  rewrite fits_ok by apply P. reflexivity.
Qed.

(** With names that fit, only the expressions of the script can fault. *)
Lemma load_loop_no_fault : forall run n, (forall x s f, run x s <> Fault f) ->
  forall k vals stream last s f, load_loop O run n k vals stream last s <> Fault f.
Proof.
  intros run n R. induction k as [|k IH]; intros vals stream last s f; cbn [load_loop]; [discriminate|].
  destruct (lisp_read _ _ _ _ _ _) as [x more rest w1|w1| | |]; try discriminate.
  destruct (run x (with_w s w1)) as [v s2|f'| |] eqn:E; try discriminate; cbn [andthen_]; [apply IH|]. exfalso. eapply R; exact E.
Qed.
Lemma load_file_no_fault : forall run n s cwd name f, (forall x s f, run x s <> Fault f) -> here s cwd -> clean_name name -> room H cwd name ->
  load_file H D O run n name s <> Fault f.
Proof.
  intros run n s cwd name f R He Cn Ro. rewrite (load_file_at _ _ _ _ _ He).
  destruct (get_fullpath H true cwd name) as [p| |f'] eqn:G; try discriminate.
  - destruct (content D p); [|discriminate]. destruct (load_loop _ _ _ _ _ _ _ _) as [v s2|f'| |] eqn:E; cbn [andthen_]; try discriminate.
    exfalso. eapply load_loop_no_fault; [exact R|exact E].
  - exfalso. apply (fullpath_no_fault H cwd name true Cn Ro (or_introl eq_refl) f'). exact G.
Qed.
Lemma module_no_fault : forall c s f, home H <> None -> short_search H D -> module_load H D c s <> Fault f.
Proof.
  intros c s f N Sh. unfold module_load. destruct (car c); try discriminate. destruct (home H) as [h|] eqn:Hh; [|contradiction].
  pose proof (paths_fit H D h Sh Hh) as P. rewrite P. destruct (find_in _ _ _) as [p|] eqn:F; [|discriminate].
  rewrite fits_ok by (eapply (proj2 (proj2 Sh)); eapply find_found; [exact P|exact F]). destruct (load_binary _ _ _ _ _); discriminate.
Qed.

Definition Does := does H D O.
Scheme acts_m := Induction for acts Sort Prop
  with loads_m := Induction for loads Sort Prop
  with loaded_m := Induction for loaded Sort Prop
  with script_m := Induction for script_acts Sort Prop
  with all_m := Induction for all_act Sort Prop.
Combined Scheme acts_mut from acts_m, loads_m, loaded_m, script_m, all_m.

Definition DoesLoads (l : list atom) (s : st) (v : atom) (s' : st) : Prop :=
  exists N, forall n, N <= n -> load_args H D O (Load.form H D O n) n (mk_list l) s = Got v s'.
Definition DoesLoaded (u : atom) (s : st) (v : atom) (s' : st) : Prop :=
  exists N, forall n, N <= n -> load_one H D O (Load.form H D O n) n u s = Got v s'.

Lemma acts_all_do :
  (forall x s v s', acts H D O x s v s' -> Does x s v s') /\
  (forall l s v s', loads H D O l s v s' -> DoesLoads l s v s') /\
  (forall u s v s', loaded H D O u s v s' -> DoesLoaded u s v s') /\
  (forall t v0 s v s', script_acts H D O t v0 s v s' -> runs_script Does (reads O) t v0 s v s') /\
  (forall l v0 s v s', all_act H D O l v0 s v s' -> in_order Does l v0 s v s').
Proof.
  pose proof (acts_mut H D O
    (fun x s v s' _ => Does x s v s') (fun l s v s' _ => DoesLoads l s v s') (fun u s v s' _ => DoesLoaded u s v s')
    (fun t v0 s v s' _ => runs_script Does (reads O) t v0 s v s') (fun l v0 s v s' _ => in_order Does l v0 s v s')) as M.
  cbv beta in M. apply M; clear M.
  - intros x s v w N1 N2 R. apply runs_top in R. destruct R as [N R]. exists (S N). cbn [Load.form].
    rewrite calls_plain by auto. apply R. lia.
  - intros x s a C. exists 1. cbn [Load.form]. rewrite (calls_quits _ _ _ C). reflexivity.
  - intros x s l v s' C _ [N IH]. exists (S N). cbn [Load.form]. rewrite (calls_loads _ _ _ C). apply IH. lia.
  - intro s. exists 0. intros; reflexivity.
  - intros a s u w r s' R _ [N IH]. apply runs_top in R. destruct R as [M R]. exists (Nat.max N M). intros n L.
    cbn [mk_list load_args]. rewrite R by lia. cbn [andthen_]. rewrite IH by lia. reflexivity.
  - intros a b l s u w r s1 v s' R _ [N IH] _ [K IH2]. apply runs_top in R. destruct R as [M R]. exists (Nat.max K (Nat.max N M)). intros n L.
    cbn [mk_list load_args]. rewrite R by lia. cbn [andthen_]. rewrite IH by lia. cbn [andthen_]. apply (IH2 n). lia.
  - intros u s name cwd p d text s1 v s2 s3 Sp Ne Pn He Cn Ro De Co Di Pd En _ IH Le.
    destruct (spells_string _ _ Sp Ne) as (a & dd & -> & St).
    apply script_loop in IH. destruct IH as [N IH]. exists N. intros n L. cbn [load_one]. rewrite St. rewrite (spells_text _ _ Sp Pn).
    rewrite (load_file_at _ _ _ _ _ He). rewrite (fullpath_complete _ _ _ _ Cn Ro De). rewrite Co.
    rewrite (dirname_of _ _ Di). rewrite <- (enters_push _ _ _ Pd En). rewrite IH by lia. cbn [andthen_].
    rewrite (leaves_pop _ _ Le). reflexivity.
  - intros u s name cwd Sp Ne Pn He Cn Ro No. destruct (spells_string _ _ Sp Ne) as (a & dd & -> & St).
    exists 0. intros n _. cbn [load_one]. rewrite St. rewrite (spells_text _ _ Sp Pn). rewrite (load_file_at _ _ _ _ _ He).
    destruct (get_fullpath H true cwd name) as [p| |f] eqn:G.
    + rewrite (No p); [reflexivity|]. eapply fullpath_denotes; eauto.
    + reflexivity.
    + exfalso. apply (fullpath_no_fault H cwd name true Cn Ro (or_introl eq_refl) f). exact G.
  - intros u c s v s' Mr G. exists 0. intros n _. unfold gets_module in G. destruct Mr as [t k|t a d Ns]; cbn [load_one].
    + exact G.
    + destruct (is_string (Pair t a d)) eqn:E; [exfalso; apply Ns; apply string_value_is; exact E|exact G].
  - intros u s N1 N2. exists 0. intros n _. destruct u as [| | |z|z|fl k|t a d]; try reflexivity.
    + exfalso. apply (N1 fl k). reflexivity.
    + exfalso. apply (N2 t a d). reflexivity.
  - intros t v s B. apply sc_end. exact B.
  - intros t x l r v0 s w1 v1 s1 v2 s2 P _ I _ R. eapply sc_piece; [apply piece_reads; exact P|exact I|exact R].
  - intros v s. apply io_end.
  - intros x l v0 s v1 s1 v2 s2 _ X _ I. eapply io_one; eauto.
Qed.

Lemma does_unique : forall x s v s' v2 s2, Does x s v s' -> Does x s v2 s2 -> v = v2 /\ s' = s2.
Proof.
  intros x s v s' v2 s2 [n E] [m F]. apply (form_more H D O n (Nat.max n m)) in E; [|lia].
  apply (form_more H D O m (Nat.max n m)) in F; [|lia]. rewrite E in F. injection F as -> ->. auto.
Qed.
Lemma acts_form : forall x s v s', acts H D O x s v s' ->
  (exists N, forall n, N <= n -> Load.form H D O n x s = Got v s') /\
  (forall n v2 s2, Load.form H D O n x s = Got v2 s2 -> v2 = v /\ s2 = s').
Proof.
  intros x s v s' A. apply acts_all_do in A. split.
  - destruct A as [N E]. exists N. intros n L. eapply form_more; eauto.
  - intros n v2 s2 E. destruct (does_unique x s v s' v2 s2) as [-> ->]; auto. exists n. exact E.
Qed.

(** ** The main program *)
Lemma fullpath_top : forall cwd name t p, clean_name name -> room H cwd name -> stands H name t -> names_file H t p ->
  get_fullpath H false cwd name = Full p.
Proof.
  intros cwd name t p C Ro St Nf. destruct (expand_cases H name C) as (t' & St' & Ex & d & Dd & L).
  rewrite (stands_unique _ _ _ _ St' St) in *. destruct (Ro d Dd) as [R1 R2].
  assert (Lt : length t < PATH_MAX) by (unfold bytes, byte in *; lia).
  unfold get_fullpath. rewrite Ex, fits_ok by exact Lt. rewrite andb_false_r, fits_ok by exact Lt.
  destruct Nf as [->|(-> & dd & n & q & -> & N & Rd & ->)]; [reflexivity|].
  rewrite split_last_at by exact N. rewrite Rd. rewrite fits_ok; [reflexivity|].
  specialize (R2 _ _ Rd). rewrite app_length in *. cbn [length] in *. unfold bytes, byte in *. lia.
Qed.
Lemma stdout_push : forall s s', with_stdout s s' -> s' = push_out s.
Proof.
  intros s s' (E1 & E2 & E3 & E4 & E5 & E6 & E7 & E8). unfold push_out, with_w.
  destruct s' as [w' d' m' q']; destruct w'; cbn in *. subst. reflexivity.
Qed.
Lemma std_push : forall cwd s s', plain_path cwd -> with_std cwd s s' -> s' = push_out (push_in cwd s).
Proof.
  intros cwd s s' P (a & Sp & E1 & E2 & E3 & E4 & E5 & E6 & E7 & E8). unfold push_out, push_in, with_w. cbn.
  destruct s' as [w' d' m' q']; destruct w'; cbn in *. subst. f_equal. f_equal. apply make_spells in P. unfold spells in *. congruence.
Qed.

Lemma main_file_runs : forall cwd name t p d text s s0 s1 v s2 s3, dirs s = [] -> pwd H = Some cwd ->
  clean_name name -> room H cwd name -> stands H name t -> names_file H t p -> content D p = Some text ->
  dir_of p d -> plain_path d -> with_stdout s s0 -> enters d s0 s1 -> script_acts H D O text Nil s1 v s2 -> leaves_file s2 s3 ->
  exists N, forall n, N <= n -> main_file H D O n name s = Got v s3.
Proof.
  intros cwd name t p d text s s0 s1 v s2 s3 Ds Pw Cn Ro St Nf Co Di Pd So En Sc Le.
  pose proof (proj1 (proj2 (proj2 (proj2 acts_all_do))) _ _ _ _ _ Sc) as R. apply script_loop in R. destruct R as [N R].
  exists N. intros n L. unfold main_file. rewrite <- (stdout_push _ _ So). unfold load_file.
  assert (Ds0 : dirs s0 = []) by (destruct So as (-> & _); exact Ds). rewrite Ds0, Pw.
  assert (Lc : length cwd < PATH_MAX).
  { destruct (Ro [] (or_intror (or_intror eq_refl))) as [R1 _]. unfold bytes, byte in *. lia. }
  rewrite fits_ok by exact Lc. rewrite (fullpath_top cwd name t p) by assumption. rewrite Co, (dirname_of _ _ Di), <- (enters_push _ _ _ Pd En).
  rewrite R by lia. cbn [andthen_]. rewrite (leaves_pop _ _ Le). reflexivity.
Qed.

Lemma until_loop : forall l v0 s v s', until_quit Does l v0 s v s' -> ~ In Nil l ->
  exists N, forall n, N <= n -> expr_loop H D O n l v0 s = Got v s'.
Proof.
  intros l v0 s v s' U. induction U as [l v s Q|v s Q|x l v0 s v1 s1 v2 s2 Q [M X] _ IH]; intro Nn.
  - exists 0. intros n _. destruct l; cbn [expr_loop]; rewrite Q; reflexivity.
  - exists 0. intros n _. cbn [expr_loop]. rewrite Q. reflexivity.
  - destruct IH as [N IH]; [intro I; apply Nn; right; exact I|]. exists (Nat.max M N). intros n L. cbn [expr_loop]. rewrite Q.
    assert (E : andthen_ (Load.form H D O n x s) (fun v s' => expr_loop H D O n l v s') = Got v2 s2).
    { rewrite (form_more H D O M n x s v1 s1) by (auto; lia). apply IH. lia. }
    destruct x; try exact E. exfalso. apply Nn. left. reflexivity.
Qed.
Lemma acts_ext : forall x s v s', acts H D O x s v s' -> ext H D s s'.
Proof. intros x s v s' A. apply acts_all_do in A. destruct A as [n E]. eapply form_ext. exact E. Qed.
Lemma in_order_until : forall l v0 s v s1 l2 v2 s2, in_order (acts H D O) l v0 s v s1 -> quits s1 = false ->
  until_quit (acts H D O) l2 v s1 v2 s2 -> until_quit (acts H D O) (l ++ l2) v0 s v2 s2.
Proof.
  intros l v0 s v s1 l2 v2 s2 I. induction I as [v s|x l v0 s v1 s1 v3 s3 X I IH]; intros Q U; cbn [app]; [exact U|].
  assert (K : forall s s', ext H D s s' -> quits s' = false -> quits s = false).
  { intros a b (_ & _ & _ & E & _) F. destruct (quits a); auto. rewrite E in F by reflexivity. discriminate F. }
  assert (Q1 : quits s1 = false).
  { clear IH U X. induction I as [v s'|y l v0' s' v1' s1' v3 s3 Y I IH]; [exact Q|]. apply (K _ _ (acts_ext _ _ _ _ Y)). auto. }
  eapply uq_one; [exact (K _ _ (acts_ext _ _ _ _ X) Q1)|exact X|]. apply IH; assumption.
Qed.
Lemma until_acts : forall l v0 s v s', until_quit (acts H D O) l v0 s v s' -> until_quit Does l v0 s v s'.
Proof.
  intros l v0 s v s' U. induction U as [l v s Q|v s Q|x l v0 s v1 s1 v2 s2 Q X _ IH]; [apply uq_quit; exact Q|apply uq_end; exact Q|].
  eapply uq_one; [exact Q|apply acts_all_do; exact X|exact IH].
Qed.
Lemma program_parse : forall text toks w vs w', splits text toks Done -> program Eval.world (reads_as O) w toks vs w' ->
  exists N, forall n, N <= n -> lexer_parse Eval.world (at_read O n) text (mkl 0 [] [] w) = Some (mkl 0 [] vs w', LDone).
Proof.
  intros text toks w vs w' S P. apply (program_mono _ _ reads_as_reads) in P. apply program_reads in P. destruct P as [N P].
  exists N. intros n L. apply (reads_program (at_read O n) text toks w vs w' S). exact (P n L).
Qed.
Lemma main_expr_runs : forall cwd text toks vs w s s1 v s2, plain_path cwd -> splits text toks Done ->
  program Eval.world (reads_as O) (wd s) toks vs w -> ~ In Nil vs -> with_std cwd (with_w s w) s1 ->
  until_quit (acts H D O) vs Nil s1 v s2 -> exists N, forall n, N <= n -> main_expr H D O n cwd text s = Got v s2.
Proof.
  intros cwd text toks vs w s s1 v s2 Pc Sp Pr Nn St U. apply program_parse with (1 := Sp) in Pr. destruct Pr as [N Pr].
  apply until_acts in U. apply until_loop in U; [|exact Nn]. destruct U as [M U]. exists (Nat.max N M). intros n L.
  unfold main_expr. rewrite Pr by lia. cbn [got env_w]. rewrite <- (std_push _ _ _ Pc St). apply U. lia.
Qed.

(** ** Interactive use *)
Lemma told_say : forall t s s', told t s s' -> s' = say t s.
Proof.
  intros t s s' (w & -> & E1 & E2 & E3 & E4 & E5). unfold say, with_w. destruct w; cbn in *. subst. reflexivity.
Qed.
Lemma sent_show : forall v t s s', literal_text v t -> sent_in t s s' -> show v s = Got tt s'.
Proof. intros v t s s' L (w & -> & S). unfold show. rewrite (literal_prints v t (wd s) w L S). reflexivity. Qed.

Lemma answers_loop : forall l v0 s v1 s1, answers Does l v0 s v1 s1 -> exists N, forall n, N <= n -> forall k stream,
  repl H D O n (length l + S k) l stream v0 s = repl H D O n (S k) [] stream v1 s1.
Proof.
  intros l v0 s v1 s1 A. induction A as [v s|x l v0 s v1 s1 s2 t s3 s4 v2 s5 Q [M X] T1 Li Se T2 _ [N IH]|l v s Q].
  - exists 0. reflexivity.
  - exists (Nat.max M N). intros n L k stream. cbn [length Nat.add repl lisp_read]. rewrite Q. cbv zeta. rewrite with_same.
    rewrite (form_more H D O M n x s v1 s1) by (auto; lia). cbn [andthen_]. rewrite <- (told_say _ _ _ T1).
    rewrite (sent_show _ _ _ _ Li Se). cbn [andthen_]. rewrite <- (told_say _ _ _ T2). apply IH. lia.
  - exists 0. intros n _ k stream. destruct l; cbn [length Nat.add repl]; rewrite Q; reflexivity.
Qed.
Lemma answers_acts : forall l v0 s v s', answers (acts H D O) l v0 s v s' -> answers Does l v0 s v s'.
Proof.
  intros l v0 s v s' A. induction A as [v s|x l v0 s v1 s1 s2 t s3 s4 v2 s5 Q X T1 Li Se T2 _ IH|l v s Q].
  - apply an_end.
  - eapply an_one; [exact Q|apply acts_all_do; exact X|eassumption..].
  - apply an_quit; exact Q.
Qed.
Lemma dialogue_loop : forall t v0 s v1 s1, dialogue (acts H D O) (reads_as O) t v0 s v1 s1 -> exists N, forall n, N <= n -> forall k, length t < k ->
  repl H D O n k [] t v0 s = Got v1 s1.
Proof.
  intros t v0 s v1 s1 R. induction R as [t v s Q|t v s s1 Q B T|t x l r v0 s s1 w1 v1 s2 v2 s3 Q T P A _ [N IH]].
  - exists 0. intros n _ k L. destruct k as [|k]; [lia|]. cbn [repl]. rewrite Q. reflexivity.
  - exists 0. intros n _ k L. destruct k as [|k]; [lia|]. cbn [repl]. rewrite Q. cbv zeta. rewrite <- (told_say _ _ _ T).
    rewrite blank_read by exact B. rewrite with_same. reflexivity.
  - apply piece_reads in P. pose proof (piece_count _ _ _ _ _ P) as Pc. cbn [length] in Pc. apply piece_read in P. destruct P as [N1 P].
    apply answers_acts in A. apply answers_loop in A. destruct A as [N2 A].
    exists (Nat.max N (Nat.max N1 N2)). intros n L k K. rewrite app_length in K.
    destruct k as [|k]; [lia|].
    assert (E : repl H D O n (S k) [] (t ++ r) v0 s = repl H D O n (S (length l) + S (k - S (length l))) (x :: l) r v0 (with_w s1 w1)).
    { cbn [repl]. rewrite Q. cbv zeta. rewrite <- (told_say _ _ _ T). rewrite P by lia. cbn [Nat.add repl lisp_read].
      destruct T as (w & -> & _). cbn [with_w quits wd]. rewrite Q. replace (length l + S (k - S (length l))) with k by (unfold bytes, byte in *; lia). reflexivity. }
    rewrite E. rewrite (A n) by lia. apply IH; [lia|]. unfold bytes, byte in *. lia.
Qed.
Lemma main_repl_runs : forall cwd input s s1 v s2, plain_path cwd -> with_std cwd s s1 ->
  dialogue (acts H D O) (reads_as O) input Nil s1 v s2 -> exists N, forall n, N <= n -> main_repl H D O n cwd input s = Got v s2.
Proof.
  intros cwd input s s1 v s2 P St Di. apply dialogue_loop in Di. destruct Di as [N Di]. exists N. intros n L. unfold main_repl.
  rewrite <- (std_push _ _ _ P St). apply Di; lia.
Qed.

(** A larger budget gives the same result. *)
Lemma main_file_more : forall n m name s v s', n <= m -> main_file H D O n name s = Got v s' -> main_file H D O m name s = Got v s'.
Proof.
  intros n m name s v s' L E. unfold main_file in *. eapply load_file_more; [|exact L|exact E].
  intros x s1 v1 s2 F. eapply form_more; eauto.
Qed.
Lemma expr_loop_more : forall n m l r s v s', n <= m -> expr_loop H D O n l r s = Got v s' -> expr_loop H D O m l r s = Got v s'.
Proof.
  intros n m l. induction l as [|x l IH]; intros r s v s' L E; cbn [expr_loop] in *; [exact E|].
  destruct (quits s); [exact E|].
  assert (G : forall y, andthen_ (Load.form H D O n y s) (fun v s' => expr_loop H D O n l v s') = Got v s' ->
    andthen_ (Load.form H D O m y s) (fun v s' => expr_loop H D O m l v s') = Got v s').
  { intros y F. destruct (Load.form H D O n y s) as [v1 s1| | |] eqn:Q; try discriminate F. rewrite (form_more H D O n m y s v1 s1) by auto.
    cbn [andthen_] in *. apply IH; auto. }
  destruct x; try (apply G; exact E). exact E.
Qed.
Lemma main_expr_more : forall n m cwd text s v s', n <= m -> main_expr H D O n cwd text s = Got v s' -> main_expr H D O m cwd text s = Got v s'.
Proof.
  intros n m cwd text s v s' L E. unfold main_expr in *.
  destruct (lexer_parse Eval.world (at_read O n) text (mkl 0 [] [] (wd s))) as [(l, e)|] eqn:P; [|discriminate E].
  unfold lexer_parse in *. rewrite (lex_more Eval.world (at_read O n) (at_read O m) (fun a w r => at_read_more O n m a w r L) _ _ _ _ P).
  destruct e; try discriminate E; eapply expr_loop_more; eauto.
Qed.

(** However an interactive session goes, it ends with NIL unless it was told to quit. *)
Lemma repl_end : forall n k vals stream r s v s', repl H D O n k vals stream r s = Got v s' -> quits s' = true \/ v = Nil.
Proof.
  intros n k. induction k as [|k IH]; intros vals stream r s v s'; cbn [repl]; [discriminate|].
  destruct (quits s) eqn:Q; [intro E; injection E as <- <-; left; exact Q|]. cbv zeta.
  destruct (lisp_read _ _ _ _ _ _) as [x more rest w1|w1| | |]; try discriminate.
  - destruct (Load.form H D O n x _) as [v1 s1|f| |]; try discriminate. cbn [andthen_].
    destruct (show v1 _) as [u s2|f| |]; try discriminate. cbn [andthen_]. apply IH.
  - intro E; injection E as <- <-. right. reflexivity.
Qed.
End Main.

(** ** ARGV and ENV *)
Lemma argv_lists : forall argv, Forall (fun a => Forall is_byte a /\ ~ In 92%N a) argv ->
  Forall2 spells (map make_string argv) argv.
Proof.
  intros argv F. induction F as [|a l [B S] F IH]; cbn [map]; constructor; auto. apply spells_chars. apply make_string_plain; auto.
Qed.
Lemma split_eq_at : forall k t acc, ~ In 61%N k -> split_eq acc (k ++ 61%N :: t) = Some (rev acc ++ k, t).
Proof.
  induction k as [|c k IH]; intros t acc N; cbn [app split_eq].
  - rewrite app_nil_r. reflexivity.
  - destruct (N.eqb c 61) eqn:E; [apply N.eqb_eq in E; subst c; exfalso; apply N; left; reflexivity|].
    rewrite IH by (intro I; apply N; right; exact I). cbn [rev]. rewrite <- app_assoc. reflexivity.
Qed.
Lemma env_lists : forall l, Forall (fun p => Forall is_byte p /\ ~ In 92%N p /\ exists k t, variable p k t /\ t <> []) l ->
  Forall2 (fun x p => exists k t a b, variable p k t /\ spells a k /\ spells b t /\ x = Cons a b) (flat_map env_entry l) l.
Proof.
  intros l F. induction F as [|p l (B & S & k & t & (E & N) & T) F IH]; cbn [flat_map]; [constructor|].
  assert (X : env_entry p = [Cons (make_string k) (make_string t)]).
  { unfold env_entry. rewrite E, split_eq_at by exact N. cbn [rev app]. destruct t; [contradiction|reflexivity]. }
  rewrite X. cbn [app]. constructor; [|exact IH]. exists k, t, (make_string k), (make_string t).
  assert (Bk : Forall is_byte k /\ Forall is_byte t).
  { rewrite E in B. apply Forall_app in B. destruct B as [B1 B2]. inversion B2; auto. }
  assert (Sk : ~ In 92%N k /\ ~ In 92%N t).
  { split; intro I; apply S; rewrite E; apply in_or_app; [left; exact I|right; right; exact I]. }
  repeat split; auto; apply spells_chars; apply make_string_plain; tauto.
Qed.

(** A line with one value in literal form. *)
Lemma literal_piece : forall rd w v t, literal v t -> readable v -> length t <= 1022 -> piece rd w (t ++ [10%N]) [v] w.
Proof.
  intros rd w v t Li R L. destruct (proj1 (printed_reads rd) v t Li R) as (toks & F & S).
  exists [(t, toks ++ [(KSpace, [10%N])])]. split; [discriminate|]. split; [cbn; rewrite app_nil_r; reflexivity|].
  split; [|split].
  - apply Forall_cons; [|apply Forall_nil]. cbn [fst snd].
    split; [split; [exact L|apply (proj1 (printed_one_line (fun (_ : atom) (_ : Eval.world) => None)) v t Li R)]|]. apply S; [exact delimiter_newline|exact newline_token].
  - cbn [map snd concat]. rewrite app_nil_r. eapply program_form; [apply F|]. apply program_filler; [left; reflexivity|apply program_end].
  - intros p q E Nq; left; destruct p as [|x p]; [constructor|].
    exfalso; apply Nq; cbn in E; injection E as <- E; symmetry in E; apply app_eq_nil in E; apply E.
Qed.
