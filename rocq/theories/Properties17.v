(** * Property C94: expressions and lines of an input. *)
From Verif Require Import Base Value ValueSpec Lexer LexerSpec LexerProofs Parser ReadSpec PrintSpec ParserProofs ReadProofs HostSpec HostRun HostMain Unix UnixSpec UnixProofs Input InputSpec.
From Verif Require Eval.
Open Scope nat_scope.

(** Read-time evaluation as a relation. *)
Definition runs_by {W} (ev : atom -> W -> option (atom * W)) (a : atom) (w : W) (v : atom) (w' : W) : Prop := ev a w = Some (v, w').

Lemma calls_pend : forall W ev l k r w, calls W ev (repeat Read (length l) ++ k) (mkchan l r) w =
  match calls W ev k (mkchan [] r) w with Some (vs, c, w') => Some (l ++ vs, c, w') | None => None end.
Proof.
  intros W ev l. induction l as [|v l IH]; intros k r w; cbn [length repeat app].
  - destruct (calls W ev k (mkchan [] r) w) as [[[vs c] w']|]; reflexivity.
  - cbn [calls]. unfold read at 1. cbn [lisp_read pend rest]. rewrite IH.
    destruct (calls W ev k (mkchan [] r) w) as [[[vs c] w']|]; reflexivity.
Qed.
Lemma calls_end : forall W ev k w, calls W ev (repeat Read k) (mkchan [] []) w = Some (repeat Nil k, mkchan [] [], w).
Proof. intros W ev k. induction k as [|k IH]; intros w; [reflexivity|]. cbn [repeat calls]. unfold read at 1. cbn. rewrite IH. reflexivity. Qed.

Lemma piece_calls : forall ev w t x l w1 r k, piece (runs_by ev) w t (x :: l) w1 ->
  calls Eval.world ev (repeat Read (length (x :: l)) ++ k) (mkchan [] (t ++ r)) w =
  match calls Eval.world ev k (mkchan [] r) w1 with Some (vs, c, w') => Some ((x :: l) ++ vs, c, w') | None => None end.
Proof.
  intros ev w t x l w1 r k (lines & Ne & -> & F & Pr & Mid).
  cbn [length repeat app calls]. unfold read at 1. cbn [pend rest].
  rewrite (read_lines ev lines w x l w1 r); auto.
  - rewrite calls_pend. destruct (calls Eval.world ev k (mkchan [] r) w1) as [[[vs c] w']|]; reflexivity.
  - pose proof (proj2 (lines_count lines F)). rewrite app_length. lia.
Qed.
Lemma calls_lines : forall W ev n c w,
  calls W ev (repeat Readline n) c w = Some (fst (readlines n (rest c)), mkchan (pend c) (snd (readlines n (rest c))), w).
Proof.
  intros W ev n. induction n as [|n IH]; intros [p r] w; [reflexivity|].
  cbn [repeat calls readlines rest pend]. unfold readline. cbn [rest pend].
  destruct (Unix.readline r) as [v r1]. rewrite IH. cbn [rest pend]. destruct (readlines n r1). reflexivity.
Qed.

(** ** C94 *)
(** On an input made of expressions on lines that fit the buffer, each call of read
    returns the next expression, then all return NIL. *)
Theorem C94_read_partial : forall ev w t vs w', sheet (runs_by ev) w t vs w' -> forall k,
  exists c, calls Eval.world ev (repeat Read (length vs + k)) (mkchan [] t) w = Some (vs ++ repeat Nil k, c, w') /\ (0 < k -> rest c = []).
Proof.
  intros ev w t vs w' S. induction S as [w t B|w t x l w1 r vs w2 P S IH]; intro k.
  - destruct k as [|k].
    + exists (mkchan [] t). split; [reflexivity|lia].
    + exists (mkchan [] []). split; [|reflexivity]. cbn [length Nat.add repeat calls]. unfold read at 1. cbn [pend rest].
      rewrite blank_read by exact B. rewrite calls_end. reflexivity.
  - destruct (IH k) as [c [E Z]]. exists c. split; [|exact Z].
    change (x :: l ++ vs) with ((x :: l) ++ vs). rewrite app_length, <- Nat.add_assoc, repeat_app.
    rewrite (piece_calls ev w t x l w1 r _ P), E. rewrite app_assoc. reflexivity.
Qed.
Print Assumptions C94_read_partial.

(** Once the expressions of the lines read so far have all been returned, readline goes
    on with the following line. *)
Theorem C94_lines_partial : forall ev w t vs w' ls n, pieces (runs_by ev) w t vs w' -> Forall plain_line ls ->
  calls Eval.world ev (repeat Read (length vs) ++ repeat Readline (length ls + n)) (mkchan [] (t ++ text_of ls)) w =
  Some (vs ++ map string_of ls ++ repeat (Symb (sy "EOF")) n, mkchan [] [], w').
Proof.
  intros ev w t vs w' ls n S F. induction S as [w|w t x l w1 r vs w2 P S IH].
  - cbn [length repeat app]. rewrite calls_lines. cbn [rest pend].
    rewrite <- (app_nil_r (text_of ls)), readlines_text by exact F. rewrite readlines_eof. reflexivity.
  - change (x :: l ++ vs) with ((x :: l) ++ vs). rewrite app_length, repeat_app, <- !app_assoc.
    rewrite (piece_calls ev w t x l w1 _ _ P), IH. rewrite !app_assoc. reflexivity.
Qed.
Print Assumptions C94_lines_partial.

(** Whatever a script does with read, the channels below its own (the standard input)
    are as before. *)
Theorem C94_script : forall W ev run text chans w vs chans' w',
  script W ev run text chans w = Some (vs, chans', w') -> chans' = chans.
Proof.
  intros W ev run text chans w vs chans' w'. unfold script. generalize (mkchan [] text). generalize (S (length text)).
  intros k; revert vs w chans'. induction k as [|k IH]; intros vs w chans' c E; cbn [script_loop] in E; [discriminate|].
  destruct (lisp_read W ev (S (length (rest c))) (pend c) (rest c) w) as [x more t w1|w1| | |] eqn:R; try discriminate E.
  - destruct (expression W ev run x (mkchan more t :: chans) w1) as [[[v cs] w2]|] eqn:X; [|discriminate E].
    assert (H : exists c', cs = c' :: chans).
    { clear -X. unfold expression in X.
      repeat (match type of X with context[match ?u with _ => _ end] => destruct u end; try discriminate X);
      injection X as <- <- <-; eexists; reflexivity. }
    destruct H as [c' ->]. destruct (script_loop W ev run k (c' :: chans) w2) as [[[us c2] w3]|] eqn:Y; [|discriminate E].
    injection E as <- <- <-. exact (IH _ _ _ _ Y).
  - injection E as <- <- <-. reflexivity.
Qed.
Print Assumptions C94_script.

(** But: the value NIL is also what the end of the input gives. *)
Theorem C94_end_refuted : exists t u, t <> u /\ forall ev w,
  calls Eval.world ev [Read; Read] (mkchan [] t) w = Some ([Nil; Nil], mkchan [] [], w) /\
  calls Eval.world ev [Read; Read] (mkchan [] u) w = Some ([Nil; Nil], mkchan [] [], w).
Proof. exists (bs "NIL" ++ [10%N]), []. split; [discriminate|]. intros ev w. split; reflexivity. Qed.
Print Assumptions C94_end_refuted.

(** But: a line is given before an expression that stands above it, when the latter
    shares its line with one that was read. *)
Theorem C94_order_refuted : exists t, forall ev w,
  calls Eval.world ev [Read; Readline; Read] (mkchan [] t) w = Some ([Num 1; string_of (bs "abc"); Num 2], mkchan [] [], w).
Proof. exists (bs "1 2" ++ 10%N :: bs "abc" ++ [10%N]). intros ev w. reflexivity. Qed.
Print Assumptions C94_order_refuted.

(** But: a script that reads gets its own following expression, which is then not
    evaluated, and not what the standard input has. *)
Theorem C94_script_refuted : exists text input x, forall ev run w,
  x <> Num 5 /\
  script Eval.world ev run text [mkchan [] input] w = Some ([x], [mkchan [] input], w) /\
  calls Eval.world ev [Read] (mkchan [] input) w = Some ([Num 5], mkchan [] [], w).
Proof.
  exists (bs "(read)" ++ 10%N :: bs "(foo 1)" ++ [10%N]), (bs "5" ++ [10%N]), (mk_list [Symb (sy "foo"); Num 1]).
  intros ev run w. split; [discriminate|]. split; reflexivity.
Qed.
Print Assumptions C94_script_refuted.

(** What print writes, one value on each line, is read back in order. *)
Theorem C94_printed : forall ev w vs ts, Forall2 literal vs ts -> Forall readable vs -> Forall (fun t => length t <= 1022) ts -> forall k,
  exists c, calls Eval.world ev (repeat Read (length vs + k)) (mkchan [] (text_of ts)) w = Some (vs ++ repeat Nil k, c, w) /\ (0 < k -> rest c = []).
Proof.
  intros ev w vs ts F R L k. apply C94_read_partial. revert R L. induction F as [|v t vs ts Lv F IH]; intros R L.
  - apply sheet_blank. exists []. split; [reflexivity|split; constructor].
  - inversion R; subst. inversion L; subst. unfold text_of. cbn [map concat].
    apply (sheet_piece _ w _ v [] w _ vs w); [apply literal_piece; assumption|apply IH; assumption].
Qed.
Print Assumptions C94_printed.

(** ** The hypotheses are met *)
Definition a_two_tokens : list (kind * bytes) :=
  [(KSymbol, bs "a"); (KSpace, bs " "); (KNumber, bs "2"); (KSpace, [10%N])].
Lemma a_two_piece : forall rd w, piece rd w (bs "a 2" ++ [10%N]) [Symb (sy "a"); Num 2] w.
Proof.
  intros rd w. exists [(bs "a 2", a_two_tokens)]. split; [discriminate|]. split; [reflexivity|]. split; [|split].
  - constructor; [|constructor]. cbn [fst snd]. split; [|apply tokens_splits; vm_compute; reflexivity].
    split; [apply Nat.leb_le; reflexivity|]. repeat (constructor; [split; discriminate|]). constructor.
  - apply (program_form Eval.world rd w [(KSymbol, bs "a")] (Symb (sy "a")) w); [|apply program_filler; [left; reflexivity|]].
    + apply form_plain. apply (plain_symbol (bs "a")); [|exists 15; split; reflexivity].
      apply symbol_chars; [left; right; split; discriminate| |cbn; lia].
      repeat (apply Forall_cons; [left; right; split; discriminate|]). constructor.
    + apply (program_form Eval.world rd w [(KNumber, bs "2")] (Num 2) w); [|apply program_filler; [left; reflexivity|apply program_end]].
      apply form_plain. apply (plain_number (bs "2") 2). apply (numeral_plain (bs "2")); [discriminate|repeat (constructor; [split; discriminate|]); constructor].
  - intros p q E Nq; left; destruct p as [|x p]; [constructor|].
    exfalso; apply Nq; cbn in E; injection E as <- E; symmetry in E; apply app_eq_nil in E; apply E.
Qed.

Lemma a_two_sheet : forall rd w, sheet rd w ((bs "a 2" ++ [10%N]) ++ [10%N]) [Symb (sy "a"); Num 2] w.
Proof.
  intros rd w. apply (sheet_piece rd w _ (Symb (sy "a")) [Num 2] w _ [] w); [apply a_two_piece|].
  apply sheet_blank. exists [([], [(KSpace, [10%N])])]. split; [reflexivity|]. split.
  - constructor; [|constructor]. cbn [fst snd]. split; [split; [apply Nat.leb_le; reflexivity|constructor]|apply tokens_splits; vm_compute; reflexivity].
  - repeat constructor.
Qed.
Example C94_read_example : forall ev w,
  exists c, calls Eval.world ev [Read; Read; Read; Read] (mkchan [] (bs "a 2" ++ [10; 10]%N)) w = Some ([Symb (sy "a"); Num 2; Nil; Nil], c, w) /\ (0 < 2 -> rest c = []).
Proof. intros ev w. exact (C94_read_partial ev w _ _ _ (a_two_sheet _ w) 2). Qed.
Example C94_lines_example : forall ev w,
  calls Eval.world ev [Read; Read; Readline; Readline; Readline] (mkchan [] (bs "a 2" ++ 10%N :: bs "x (" ++ 10%N :: bs "y" ++ [10%N])) w =
  Some ([Symb (sy "a"); Num 2; string_of (bs "x ("); string_of (bs "y"); Symb (sy "EOF")], mkchan [] [], w).
Proof.
  intros ev w. refine (C94_lines_partial ev w (bs "a 2" ++ [10%N]) [Symb (sy "a"); Num 2] w [bs "x ("; bs "y"] 1 _ _).
  - rewrite <- (app_nil_r (bs "a 2" ++ [10%N])). apply (pieces_cons _ w _ (Symb (sy "a")) [Num 2] w [] [] w); [apply a_two_piece|apply pieces_nil].
  - repeat (apply Forall_cons; [unfold plain_line, line; repeat split; [intro E; cbn in E; repeat (destruct E as [E|E]; [discriminate|]); exact E|intro E; cbn in E; repeat (destruct E as [E|E]; [discriminate|]); exact E|repeat constructor]|]). constructor.
Qed.
Example C94_script_example : forall ev w,
  script Eval.world ev (fun x w => Some (x, w)) (bs "(read)" ++ 10%N :: bs "7" ++ 10%N :: bs "8" ++ [10%N]) [mkchan [] (bs "5")] w =
  Some ([Num 7; Num 8], [mkchan [] (bs "5")], w).
Proof. intros ev w. reflexivity. Qed.
Example C94_printed_example : Forall2 literal [Num 7; Num 42] [bs "7"; bs "42"] /\ Forall readable [Num 7; Num 42] /\ Forall (fun t => length t <= 1022) [bs "7"; bs "42"].
Proof.
  split; [|split; repeat constructor; cbn; lia].
  constructor; [|constructor; [|constructor]]; apply lit_num.
  - apply (decimal_pos 7 (bs "7")); [|reflexivity].
    split; [repeat (constructor; [split; discriminate|]); constructor|]. right. exists 55%N, []. split; [reflexivity|discriminate].
  - apply (decimal_pos 42 (bs "42")); [|reflexivity].
    split; [repeat (constructor; [split; discriminate|]); constructor|]. right. exists 52%N, (bs "2"). split; [reflexivity|discriminate].
Qed.
