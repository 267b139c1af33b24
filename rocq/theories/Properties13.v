(** * Property C88: the library as loaded by [load]. *)
From Verif Require Import Base Value ValueSpec ValueProofs Tails Parser Eval Sexp EvalSpec Lib LibSpec Lib2 Lib2Spec LibText LibText2
  Lib3 Lib3Spec LibText3 Cases LibCases Properties12 Path Load Install InstallSpec.
Open Scope nat_scope.
Open Scope list_scope.

Definition symb_in (s : symbol) (l : list symbol) : bool := existsb (beq s) l.
Lemma beq_refl : forall a, beq a a = true.
Proof. induction a as [|x a IH]; auto. cbn. rewrite N.eqb_refl. auto. Qed.
Lemma beq_true : forall a b, beq a b = true -> a = b.
Proof.
  induction a as [|x a IH]; intros [|y b] E; try discriminate; auto. cbn in E. apply andb_prop in E. destruct E as [E1 E2].
  apply N.eqb_eq in E1. subst. f_equal. auto.
Qed.
Lemma symb_in_In : forall s l, symb_in s l = true <-> In s l.
Proof.
  intros s l. unfold symb_in. rewrite existsb_exists. split.
  - intros (y & I & E). apply beq_true in E. subst. auto.
  - intros I. exists s. split; auto. apply beq_refl.
Qed.
(** The checks, as computations. *)
Definition complete1 (l : list symbol) (g : env) (v : atom) : bool :=
  match v with
  | Pair _ ps (Pair _ clo body) =>
      forallb (fun s => symb_in s (mentions ps) || symb_in s (binders body) || symb_in s l ||
                        match env_get g s with Some _ => true | None => false end) (mentions body)
  | _ => true
  end.
Definition complete (l : list symbol) (g : env) : bool := forallb (fun p => complete1 l g (snd p)) g.
Lemma env_get_pair : forall (g : env) s v, env_get g s = Some v -> exists p, In p g /\ snd p = v.
Proof.
  induction g as [|[k u] g IH]; intros s v E; [discriminate|]. cbn in E. destruct (sym_match k s).
  - injection E as <-. exists (k, u). split; [left; auto|auto].
  - destruct (IH _ _ E) as (p & I & <-). exists p. split; [right; auto|auto].
Qed.
Lemma complete_ok : forall l g, complete l g = true ->
  forall k v s, env_get g k = Some v -> uses v s -> ~ In s l -> exists u, env_get g s = Some u.
Proof.
  intros l g C k v s E U N. destruct (env_get_pair _ _ _ E) as (p & I & <-). unfold complete in C. rewrite forallb_forall in C.
  specialize (C p I). destruct (snd p) as [| | | | | |t ps [| | | | | |t2 clo body]]; try (cbn in U; tauto). cbn [uses complete1] in *.
  destruct U as (U1 & U2 & U3). rewrite forallb_forall in C. specialize (C s U1).
  destruct (symb_in s (mentions ps)) eqn:Q1; [apply symb_in_In in Q1; tauto|].
  destruct (symb_in s (binders body)) eqn:Q2; [apply symb_in_In in Q2; tauto|].
  destruct (symb_in s l) eqn:Q3; [apply symb_in_In in Q3; tauto|].
  cbn in C. destruct (env_get g s) as [u|]; [eauto|discriminate].
Qed.

(** Equality of values, tags included. *)
Fixpoint same (a b : atom) : bool :=
  match a, b with
  | Nil, Nil => true | Tru, Tru => true | Wild, Wild => true
  | Chr x, Chr y => Z.eqb x y | Num x, Num y => Z.eqb x y
  | Sym t x, Sym u y => Bool.eqb t u && beq x y
  | Pair t x y, Pair u x' y' => Bool.eqb t u && same x x' && same y y'
  | _, _ => false
  end.
Lemma same_eq : forall a b, same a b = true -> a = b.
Proof.
  induction a as [| | |x|x|t x|t x IHx y IHy]; intros [| | |x'|x'|u x'|u x' y'] E; try discriminate; auto; cbn in E.
  - apply Z.eqb_eq in E. congruence.
  - apply Z.eqb_eq in E. congruence.
  - apply andb_prop in E. destruct E as [E1 E2]. apply Bool.eqb_prop in E1. apply beq_true in E2. congruence.
  - apply andb_prop in E. destruct E as [E E2]. apply andb_prop in E. destruct E as [E0 E1]. apply Bool.eqb_prop in E0.
    apply IHx in E1. apply IHy in E2. congruence.
Qed.
(** The names outside the library: the start-up values and [load]. *)
Definition elsewhere : list symbol := map sy ["ARGV"; "CONFIG"; "ENV"; "load"; "quit"; "read"; "readline"]%string ++
  map (fun e => mk_symbol (fst e)) (sys_entries ++ unix_entries).
Definition agrees (L : env) (except : list symbol) (g : env) : bool :=
  forallb (fun p => symb_in (fst p) except || match env_get L (fst p) with Some v => same (snd p) v | None => false end) g.
Lemma agrees_ok : forall L l g, agrees L l g = true -> forall k v, In (k, v) g -> ~ In k l -> env_get L k = Some v.
Proof.
  intros L l g A k v I N. unfold agrees in A. rewrite forallb_forall in A. specialize (A _ I). cbn [fst snd] in A.
  destruct (symb_in k l) eqn:Q; [apply symb_in_In in Q; tauto|]. cbn [orb] in A.
  destruct (env_get L k) as [u|]; [|discriminate]. apply same_eq in A. congruence.
Qed.

(** ** C88: a file of the library loads what it uses *)

(** Names that stand for themselves (they are quoted, or alone before the last expression
    of a body), the name set by the option -t of test.l, and two that [cc:flags] takes from
    [cc:build]. *)
Definition words : list symbol := map sy
  ["EOF"; "ATOM"; "NUMBER"; "STRING"; "UNDEF"; "ERROR"; "PREFIX"; "R"; ";"; "TST"; "cout"; "oout"]%string.
(** The names missing after a file is loaded. *)
Definition gaps (f : string) : list symbol :=
  if String.eqb f "isort.l" then [sy "foldl"] else if String.eqb f "iter2.l" then [sy "let"]
  else if String.eqb f "http.l" then [sy "cadr"; sy "cddr"] else if String.eqb f "cc.l" then [sy "NAME"; sy "atype"]
  else [].
(** From a session that loads the file and nothing else: every name used by a function
    there is bound, but for the gaps; and every name bound there has the value of
    [library3], which the theorems of Properties8, Properties12 and Properties15 are about. *)
Definition other_last (f : string) : list symbol := if String.eqb f "last.l" then [] else [sy "last"].
Definition loads_well (L : env) (f : string) : bool :=
  match usr_run (load_form f) with
  | Got _ s => complete (words ++ gaps f) (globals (wd s)) && agrees L (elsewhere ++ other_last f) (globals (wd s))
  | _ => false
  end.
Lemma all_load_well : forallb (loads_well (globals library3)) (map fst scripts) = true.
Proof. vm_compute. reflexivity. Qed.
Lemma loads_well_ok : forall L l, forallb (loads_well L) l = true ->
  forall f, In f l ->
  exists r s, usr_run (load_form f) = Got r s /\
    (forall k v x, env_get (globals (wd s)) k = Some v -> uses v x -> ~ In x (words ++ gaps f) -> exists u, env_get (globals (wd s)) x = Some u) /\
    (forall k v, In (k, v) (globals (wd s)) -> ~ In k (elsewhere ++ other_last f) -> env_get L k = Some v).
Proof.
  intros L l A f I. rewrite forallb_forall in A. specialize (A f I).
  unfold loads_well in A. destruct (usr_run (load_form f)) as [r s| | |]; try discriminate.
  apply andb_prop in A. destruct A as [A1 A2]. exists r, s. split; auto. split.
  - intros k v x. apply complete_ok, A1.
  - exact (agrees_ok _ _ _ A2).
Qed.
Theorem C88_loads_partial : forall f, In f (map fst scripts) ->
  exists r s, usr_run (load_form f) = Got r s /\
    (forall k v x, env_get (globals (wd s)) k = Some v -> uses v x -> ~ In x (words ++ gaps f) -> exists u, env_get (globals (wd s)) x = Some u) /\
    (forall k v, In (k, v) (globals (wd s)) -> ~ In k (elsewhere ++ other_last f) -> env_get (globals library3) k = Some v).
Proof. exact (loads_well_ok _ _ all_load_well). Qed.
Print Assumptions C88_loads_partial.

(** isort.l asks for a module "iterators", which there is none of, in place of the file
    iterators.l; iter2.l does not ask for [let]. *)
Definition answer (t : string) : option atom := match usr_run (bs t) with Got v _ => Some v | _ => None end.
Theorem C88_refuted :
  (exists v, answer "(load ""@lib/isort.l"" '(math <)) (isort < '(2 1))" = Some v /\ v <> rd "(1 2)") /\
  (exists v, answer "(load ""@lib/iter2.l"" '(std cons)) (iter2 cons '(1 2) '(3 4))" = Some v /\ v <> Cons (Num 2) (Num 4)) /\
  answer "(load ""@lib/isort.l"" ""@lib/iterators.l"" '(math <)) (isort < '(2 1))" = Some (rd "(1 2)") /\
  answer "(load ""@lib/iter2.l"" '(std let cons)) (iter2 cons '(1 2) '(3 4))" = Some (Cons (Num 2) (Num 4)).
Proof. split; [|split; [|split]]; [eexists; split; [vm_compute; reflexivity|discriminate].. |vm_compute; reflexivity|vm_compute; reflexivity]. Qed.
Print Assumptions C88_refuted.

(** And no name of [gaps] is there when the file is loaded, though a function it defines
    uses it.  http.l asks for modules "iterators" and "manips", where it means the files;
    [cc:compile1] and [cc:gen:value] of cc.l use names that are defined nowhere. *)
Definition gap_shown (f : string) (x : symbol) : bool :=
  match usr_run (load_form f) with
  | Got _ s =>
      match env_get (globals (wd s)) x with Some _ => false | None => true end &&
      existsb (fun p => match env_get (globals (wd s)) (fst p) with
                        | Some (Pair _ ps (Pair _ clo body)) =>
                            symb_in x (mentions body) && negb (symb_in x (mentions ps)) && negb (symb_in x (binders body))
                        | _ => false end) (globals (wd s))
  | _ => false
  end.
Lemma gap_shown_ok : forall f x, gap_shown f x = true ->
  exists r s k v, usr_run (load_form f) = Got r s /\ env_get (globals (wd s)) k = Some v /\ uses v x /\ env_get (globals (wd s)) x = None.
Proof.
  intros f x E. unfold gap_shown in E. destruct (usr_run (load_form f)) as [r s| | |]; try discriminate.
  apply andb_prop in E. destruct E as [E1 E2]. apply existsb_exists in E2. destruct E2 as (p & _ & E2).
  destruct (env_get (globals (wd s)) (fst p)) as [[| | | | | |t ps [| | | | | |t2 clo body]]|] eqn:G; try discriminate.
  exists r, s, (fst p). eexists. split; [reflexivity|]. split; [exact G|].
  apply andb_prop in E2. destruct E2 as [E2 E4]. apply andb_prop in E2. destruct E2 as [E2 E3].
  apply symb_in_In in E2. apply Bool.negb_true_iff in E3, E4. split.
  - cbn [uses]. split; auto. split; intros I; apply symb_in_In in I; congruence.
  - destruct (env_get (globals (wd s)) x); [discriminate|auto].
Qed.
Definition gap_list : list (string * symbol) := flat_map (fun f => map (pair (fst f)) (gaps (fst f))) scripts.
Lemma gaps_shown : forallb (fun g => gap_shown (fst g) (snd g)) gap_list = true.
Proof. vm_compute. reflexivity. Qed.
Lemma gaps_shown_ok : forall L, forallb (fun g => gap_shown (fst g) (snd g)) L = true -> forall f x, In (f, x) L -> gap_shown f x = true.
Proof. intros L A f x I. rewrite forallb_forall in A. exact (A _ I). Qed.
Lemma gap_listed : forall f x, In f (map fst scripts) -> In x (gaps f) -> In (f, x) gap_list.
Proof.
  intros f x I G. unfold gap_list. apply in_flat_map. apply in_map_iff in I. destruct I as (p & E & I). exists p. split; auto.
  rewrite E. apply in_map. exact G.
Qed.
Theorem C88_missing_refuted : forall f x, In f (map fst scripts) -> In x (gaps f) ->
  exists r s k v, usr_run (load_form f) = Got r s /\ env_get (globals (wd s)) k = Some v /\ uses v x /\ env_get (globals (wd s)) x = None.
Proof. intros f x I G. apply gap_shown_ok. exact (gaps_shown_ok _ gaps_shown _ _ (gap_listed _ _ I G)). Qed.
Print Assumptions C88_missing_refuted.

(** A session that loads all the files is one the theorems about the library apply to.
    last.l comes last: each load of manips.l, also from other files, puts back the
    [last] of manips.l. *)
Definition all_text : bytes := concat (map (fun f => load_form (fst f) ++ bs " ") scripts) ++ load_form "last.l".
Definition holds (L : env) (l : list string) (g : env) : bool :=
  forallb (fun s => match env_get L (sy s), env_get g (sy s) with Some v, Some u => same v u | _, _ => false end) l.
Lemma all_held : match usr_run all_text with
  | Got _ s => holds (globals library2) (used ++ given) (globals (wd s)) && holds (globals library2) given2 (globals (wd s)) &&
               holds (globals library4) (used3 ++ given3) (globals (wd s))
  | _ => false end = true.
Proof. vm_compute. reflexivity. Qed.
Lemma holds_means : forall L l g w s v, holds L l g = true -> In s l -> globals w = g -> env_get L (sy s) = Some v -> means [] w (sy s) v.
Proof.
  intros L l g w s v H I <- E. unfold holds in H. rewrite forallb_forall in H. specialize (H s I). rewrite E in H.
  apply EvalProofs.means_lookup. unfold lookup. cbn [env_get]. destruct (env_get (globals w) (sy s)) as [u|]; [|discriminate].
  apply same_eq in H. congruence.
Qed.
Lemma readied : forall r : res atom, forall L L4,
  (forall s, In s (used ++ given) -> env_get L (sy s) = Some (lib s)) -> (forall s, In s given2 -> env_get L (sy s) = Some (lib2 s)) ->
  (forall s, In s (used3 ++ given3) -> env_get L4 (sy s) = Some (lib4 s)) ->
  match r with
  | Got _ s => holds L (used ++ given) (globals (wd s)) && holds L given2 (globals (wd s)) && holds L4 (used3 ++ given3) (globals (wd s))
  | _ => false end = true ->
  exists v s, r = Got v s /\ ready2 [] (wd s) /\ ready3 [] (wd s).
Proof.
  intros r L L4 E1 E2 E3 H. destruct r as [v s| | |]; try discriminate. apply andb_prop in H. destruct H as [H H3].
  apply andb_prop in H. destruct H as [H1 H2].
  assert (R : ready [] (wd s)). { intros k I. exact (holds_means L _ _ (wd s) k _ H1 I eq_refl (E1 k I)). }
  exists v, s. split; [reflexivity|]. split; (split; [exact R|]); intros k I.
  - exact (holds_means L _ _ (wd s) k _ H2 I eq_refl (E2 k I)).
  - exact (holds_means L4 _ _ (wd s) k _ H3 I eq_refl (E3 k I)).
Qed.
Lemma values4 : map (fun s => env_get (globals library4) (sy s)) (used3 ++ given3) = map (fun s => Some (lib4 s)) (used3 ++ given3).
Proof. vm_compute. reflexivity. Qed.
Theorem C88_all : exists v s, usr_run all_text = Got v s /\ ready2 [] (wd s) /\ ready3 [] (wd s).
Proof.
  apply (readied (usr_run all_text) (globals library2) (globals library4)); [| | |exact all_held].
  - intros s I. exact (Properties12.in_maps _ _ _ _ _ s Properties12.same_values I).
  - intros s I. exact (Properties12.in_maps _ _ _ _ _ s Properties12.new_values I).
  - intros s I. exact (Properties12.in_maps _ _ _ _ _ s values4 I).
Qed.
Print Assumptions C88_all.

Example C88_example : In "dedup.l"%string (map fst scripts) /\
  uses (lib2 "dedup") (sy "match") /\ ~ uses (lib2 "dedup") (sy "cmd") /\ uses (lib "isort") (sy "foldl") /\
  In ("cc.l"%string, sy "atype") gap_list /\
  answer "(load ""@lib/rev.l"") (rev '(1 2 3))" = Some (rd "(3 2 1)") /\
  answer "(load ""@lib/dedup.l"" '(logic =)) (dedup (\ (p q) (if (= p q) '(SKIP) (cons 'APPEND p))) '(1 2 2))" = Some (rd "(1 2)").
Proof.
  split; [cbn; tauto|]. split; [|split; [|split; [|split; [vm_compute; tauto|split; vm_compute; reflexivity]]]].
  - unfold uses. replace (lib2 "dedup") with (lib2 "dedup") by auto. vm_compute. intuition discriminate.
  - vm_compute. intuition.
  - vm_compute. intuition discriminate.
Qed.
