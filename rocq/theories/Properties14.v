(** * Property C89: the command line. *)
From Verif Require Import Base Value ValueSpec ValueProofs Lexer LexerSpec LexerProofs ReadSpec Parser EvalSpec
  Path Load HostSpec HostProofs HostMain Properties10 Main MainSpec MainProofs.
From Verif Require Eval.
Open Scope nat_scope.
Open Scope list_scope.

(** Each command line asks for exactly one thing. *)
Theorem C89_asks : forall args, exists q, asks args q /\ forall q', asks args q' -> q' = q.
Proof.
  intro args. destruct (asks_total args) as [q A]. exists q. split; auto. intros q' A'. eapply asks_only; eauto.
Qed.
Print Assumptions C89_asks.
(** A run: in the state at the start (no name bound with -b), what [does] says; the
    status is zero exactly when the last value is not NIL and, with -d, all cells were
    given back. Missing: files, expressions and dialogues outside C71, C74 and C75. *)
Theorem C89_runs_partial : forall H D O balanced args environ config cwd input b d e ops s v s', asks args (Run b d e ops) ->
  (if b then s = fresh else boot H D ops environ config = Got tt s) -> does H D O cwd input e ops s v s' ->
  exists N, forall n, N <= n -> exists z, mnml H D O balanced n args environ config cwd input = Got z s' /\
    (seen z = 0%Z <-> v <> Nil /\ (d = true -> balanced s' = true)).
Proof. exact mnml_runs. Qed.
Print Assumptions C89_runs_partial.
(** Otherwise nothing is loaded or evaluated; zero after -h and -v only. *)
Theorem C89_no_run : forall H D O balanced n args environ config cwd input q, asks args q ->
  (q = Info -> mnml H D O balanced n args environ config cwd input = Got 0%Z fresh) /\
  (q = Wrong -> exists z, mnml H D O balanced n args environ config cwd input = Got z fresh /\ seen z <> 0%Z).
Proof.
  intros H D O balanced n args environ config cwd input q A. assert (J := asks_options _ _ A (mkset false false None)).
  split; intros ->; cbn [joint] in J; unfold mnml.
  - destruct J as [-> | ->]; auto.
  - rewrite J. exists 273%Z. split; [auto|discriminate].
Qed.
Print Assumptions C89_no_run.
(** With a file, the expression of -e is not evaluated. *)
Theorem C89_file_wins : forall H D O balanced n text text' name environ config cwd input,
  (forall x y, name <> dash :: x :: y) ->
  mnml H D O balanced n [bs "-e"; text; name] environ config cwd input =
  mnml H D O balanced n [bs "-e"; text'; name] environ config cwd input.
Proof.
  intros H D O balanced n text text' name environ config cwd input N.
  assert (A : forall t, asks [bs "-e"; t; name] (Run false false (Some t) [name])).
  { intro t. apply (asks_separate [] t [name] (Run false false None [name])); [constructor|apply asks_operands; auto]. }
  assert (J := asks_options _ _ (A text) (mkset false false None)). assert (J' := asks_options _ _ (A text') (mkset false false None)).
  cbn [joint] in J, J'. unfold mnml. rewrite J, J'. auto.
Qed.
Print Assumptions C89_file_wins.

(** What the shell sees of a status: its last eight bits. *)
Theorem C89_status : forall z, (0 <= seen z < 256)%Z /\ exists k, z = (seen z + 256 * k)%Z.
Proof.
  intro z. unfold seen. split; [apply Z.mod_pos_bound; lia|]. exists (z / 256)%Z.
  assert (E := Z.div_mod z 256). lia.
Qed.
Print Assumptions C89_status.

Example C89_example :
  asks [bs "-bde7"; bs "-"; bs "-h"] (Run true true (Some (bs "7")) [bs "-"; bs "-h"]) /\
  asks [bs "-e"; bs "-h"; bs "--"; bs "-v"] (Run false false (Some (bs "-h")) [bs "-v"]) /\
  asks [bs "-dx"; bs "-h"] Wrong /\ asks [bs "-b"; bs "-e"] Wrong /\ asks [bs "-bv"] Info /\
  asks [bs "-be"; bs "7"] (Run true false (Some (bs "7")) []) /\
  (forall cwd, plain_path cwd -> does H0 D0 O0 cwd [] (Some (bs "7")) [] fresh (Num 7) (push_out (push_in cwd fresh))) /\
  asks [bs "/d/b.l"; bs "-b"] (Run false false None [bs "/d/b.l"; bs "-b"]) /\
  value (mnml H0 D0 O0 (fun _ => true) 40 [bs "/d/b.l"] [] [] (bs "/d") []) = Some 0%Z /\
  value (mnml H0 D0 O0 (fun _ => false) 40 [bs "-d"; bs "/d/b.l"] [] [] (bs "/d") []) = Some (-2)%Z /\
  value (mnml H0 D0 O0 (fun _ => true) 40 [bs "-e"; bs "(quote 3)"] [] [] (bs "/d") []) = Some 0%Z /\
  seen (-2) = 254%Z.
Proof.
  split; [|split; [|split; [|split; [|split; [|split; [|split; [|split; [|split; [|split; [|split]]]]]]]]]].
  - apply (asks_attached (bs "bd") (bs "7") [bs "-"; bs "-h"] (Run false false None [bs "-"; bs "-h"]));
      [repeat (constructor; [(left; reflexivity) || (right; reflexivity)|]); constructor|discriminate|].
    apply asks_operands. discriminate.
  - apply (asks_separate [] (bs "-h") [bs "--"; bs "-v"] (Run false false None [bs "-v"])); [constructor|]. apply asks_end.
  - apply (asks_unknown (bs "d") 120%N []); [repeat (constructor; [right; reflexivity|]); constructor| |discriminate].
    cbn. intuition discriminate.
  - apply (asks_flags (bs "b") [bs "-e"] Wrong); [repeat (constructor; [left; reflexivity|]); constructor|discriminate|].
    apply (asks_missing []). constructor.
  - apply (asks_info (bs "b") (letter "v") []); [repeat (constructor; [left; reflexivity|]); constructor|auto].
  - apply (asks_separate (bs "b") (bs "7") [] (Run false false None [])); [repeat (constructor; [left; reflexivity|]); constructor|]. apply asks_nothing.
  - intros cwd P. eapply (does_expr H0 D0 O0 cwd [] (bs "7") [(KNumber, bs "7")] [Num 7] (wd fresh) fresh (push_out (push_in cwd fresh)));
      [exact P|apply tokens_splits; vm_compute; reflexivity| |intros [E|[]]; discriminate| |].
    + apply (program_form _ _ _ [(KNumber, bs "7")] (Num 7) (wd fresh) []); [apply seven_form|apply program_end].
    + eexists. split; [apply make_spells; apply P|]. repeat split.
    + eapply uq_one; [reflexivity|apply acts_num|]. apply uq_end. reflexivity.
  - apply asks_operands. discriminate.
  - vm_compute. reflexivity.
  - vm_compute. reflexivity.
  - vm_compute. reflexivity.
  - reflexivity.
Qed.
