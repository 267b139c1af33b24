(** * Property C96: reading into memory. *)
From Verif Require Import Value Tails Sexp EvalSpec LexerSpec LexerProofs ReadSpec.
From Verif Require Import Heap HeapSpec HeapProofs HeapOps HEval HEvalSpec HEvalBase HEvalProofs HEvalRun HEvalBoot HSimSpec HSimBase HSimOps HSimLisp HSimTop.
From Verif Require Import HRead HReadProofs HReadSim HReadChan.
From Verif Require Lexer Parser Eval.
Open Scope nat_scope.
Open Scope list_scope.
Open Scope heap_scope.

Definition no_any (e : event) : bool := match e with AssignsAny => false | _ => true end.
Definition plain (e : event) : bool := match e with AssignsAny | OddScope | MarksCode => false | _ => true end.
Definition yes (k : N) (output : bool) (path : atom) : bool := true.
Definition code (l : list string) : list atom := map Sexp.rd l.
Definition start : hlexer := mkh 0 [] [] [].

(** ** References *)

(** Any text, fed to a lexer in any state, in any heap: no freed cell is read or
    written, and afterwards every cell has exactly the references of the pairs, of the
    struct lisp, of the parser stack, of the expressions given to the consumer, of what
    the parser forgot, and of the caller.  Excluded: the text assigns ANY through a
    backquote or a tilde. *)
Theorem C96_safe_partial : forall allowed opened pwd n text l h R, allowed AssignsAny = false ->
  opens (aux h) <> 0%N -> holds h (lexer_refs l ++ R) ->
  match hlexer_parse allowed opened pwd n text l h with
  | Done (l', _) h' => holds h' (lexer_refs l' ++ R)
  | Freed => False
  | _ => True
  end.
Proof.
  intros allowed opened pwd n text l h R NA Op H.
  assert (A : at_ allowed h h (lexer_refs l ++ R)) by (constructor; [exact H|eapply step_refl; exact H|exact Op]).
  pose proof (parse_ok allowed NA opened pwd n text l h h R A) as W. unfold wp in W.
  destruct (hlexer_parse allowed opened pwd n text l h) as [[l' e] h'| | | | |]; try exact W. apply W.
Qed.
Print Assumptions C96_safe_partial.

(** ** Values *)

(** A text of complete expressions, without splices: if reading returns, the cells
    handed to the consumer hold the expressions the grammar assigns to the text, in
    order; the backquoted parts have been evaluated; the globals, the output and the
    channels are those the evaluations leave; nothing is forgotten; every other
    reference reads what it did. *)
Theorem C96_values_partial : forall allowed opened pwd n text toks vs w w' h L l' e h',
  allowed AssignsAny = false -> allowed OddScope = false -> allowed MarksCode = false ->
  splits text toks Lexer.Done ->
  program Eval.world (fun a w v w' => Eval.eval opened n [] a w = Eval.Ret v w') w toks vs w' ->
  Forall (fun t => splices t = false) toks -> opens (aux h) <> 0%N -> stands h w L ->
  hlexer_parse allowed opened pwd n text start h = Done (l', e) h' ->
  hdepth l' = 0 /\ hstack l' = [] /\ spilt l' = [] /\ e = Parser.LDone /\
  length (got l') = length vs /\ stands h' w' (combine (got l') vs ++ L).
Proof.
  intros allowed opened pwd n text toks vs w w' h L l' e h' NA NO NM S P Fs Op St E.
  pose proof (program_sim allowed NA NO NM opened pwd n text toks vs w w' h L S P Fs Op St) as W.
  apply (wpv_out _ _ _ _ _ W) in E. destruct E as [G [El [Ee [Ev Es]]]]. cbn [fst snd] in El, Ee. subst l' e vs. cbn [hdepth hstack got spilt].
  unfold heads. split; [reflexivity|]. split; [reflexivity|]. split; [reflexivity|]. split; [reflexivity|].
  split; [rewrite !map_length; reflexivity|].
  replace (combine (map fst G) (map snd G)) with G; [exact Es|].
  clear. induction G as [|[a v] G IH]; [reflexivity|]. cbn [map combine fst snd]. rewrite <- IH. reflexivity.
Qed.
Print Assumptions C96_values_partial.

(** ** The channel *)

(** The expressions a read delivers to the current channel after those already
    waiting are taken out after them, in the order of the text; each comes with the
    reference the channel had; nothing stays behind. *)
Theorem C96_order : forall n waits new h R,
  holds h (new ++ R) -> waiting h waits ->
  match (hdeliver n new ;;; hpops (length (waits ++ new))) h with
  | Done r h' => r = waits ++ new /\ holds h' (r ++ R) /\ waiting h' []
  | Freed => False
  | _ => True
  end.
Proof.
  intros n waits new h R H W. pose proof (fifo_ok n waits new h R H W) as T. unfold wp in T. revert T.
  destruct ((hdeliver n new ;;; hpops (length (waits ++ new))) h); auto.
Qed.
Print Assumptions C96_order.

(** ** What fails *)

(** A heap after some expressions, and a text read there. *)
Definition desk (before : list string) (text : string) : HM (hlexer * Parser.left) :=
  r <- session no_any yes Nil 60 (code before) ;; X r ;;; hlexer_parse no_any yes Nil 60 (bs text) start.
(** The value of a global name. *)
Definition now (name : string) : HM atom :=
  z <- make_nil ;; a <- plant (Sexp.rd name) ;; v <- heval no_any yes Nil 60 z a ;; value_at 40 v.
Definition values (l : hlexer) : HM (list atom) :=
  fold_right (fun a m => v <- value_at 40 a ;; r <- m ;; done (v :: r)) (done []) (got l).
Definition out {A} (o : hres A) : option A := match o with Done a _ => Some a | _ => None end.

(** A splice joins the value itself: reading text alters the list a global holds. *)
Theorem C96_splice_refuted : exists before text,
  out ((o <- desk before "" ;; now "A") empty) = Some (Sexp.rd "(1 2)") /\
  out ((o <- desk before text ;; v <- values (fst o) ;; a <- now "A" ;; done (v, a)) empty) =
    Some ([Sexp.rd "(quote 0 1 2 9)"], Sexp.rd "(1 2 9)").
Proof. exists ["(setq A '(1 2))"], "'(0 ~(prog A) 9)". split; vm_compute; reflexivity. Qed.
Print Assumptions C96_splice_refuted.

(** Spliced twice, it makes a list without end. *)
Lemma no_end : forall h p cp y, cells h p = Some cp -> body cp = KPair y p -> forall v, ~ reads h p v.
Proof.
  intros h p cp y E B v. induction v; intro R; inversion R as [? ? E' B'|? ? E' B'|? ? E' B'|? ? ? E' B'|? ? ? E' B'|? ? ? E' B'|? ? ? ? ? ? E' B' R1 R2]; subst; rewrite E in E'; injection E' as <-; congruence.
Qed.
Lemma returned : forall {A} (o : hres A) (P : A -> heap -> Prop), match o with Done p h => P p h | _ => False end ->
  exists p h, o = Done p h /\ P p h.
Proof. intros A [p h| | | | |] P H; try contradiction. eauto. Qed.
Theorem C96_cycle_refuted : exists before text l h a,
  desk before text empty = Done (l, Parser.LDone) h /\ got l = [a] /\ forall v, ~ reads h a v.
Proof.
  destruct (returned (desk ["(setq A '(1))"%string] "(0 ~(prog A) ~(prog A))" empty)
    (fun o h => got (fst o) = [502%N] /\ snd o = Parser.LDone /\ option_map body (cells h 502%N) = Some (KPair 500 482) /\
       option_map body (cells h 482%N) = Some (KPair 480 482))) as [[l e] [h [E [G [D [Ea Ep]]]]]].
  { vm_compute. split; [reflexivity|]. split; [reflexivity|]. split; reflexivity. }
  cbn [fst snd] in G, D. subst e.
  eexists _, _, l, h, 502%N. split; [exact E|]. split; [exact G|].
  destruct (cells h 502%N) as [ca|] eqn:Ca; [|discriminate Ea]. destruct (cells h 482%N) as [cp|] eqn:Cp; [|discriminate Ep].
  cbn [option_map] in Ea, Ep. injection Ea as Ea. injection Ep as Ep.
  intros v R. inversion R as [? ? E' B'|? ? E' B'|? ? E' B'|? ? ? E' B'|? ? ? E' B'|? ? ? E' B'|? ? ? ? ? ? E' B' R1 R2]; subst; rewrite Ca in E'; injection E' as <-; try congruence.
  rewrite Ea in B'. injection B' as <- <-. exact (no_end _ _ _ _ Cp Ep _ R2).
Qed.
Print Assumptions C96_cycle_refuted.

(** An expression that is not complete at its closing bracket is forgotten: the cells
    made for it stay in use, with a reference that nothing holds. *)
Theorem C96_leak_refuted : exists text l h a c, desk [] text empty = Done (l, Parser.LDone) h /\
  got l = [] /\ hstack l = [] /\ spilt l = [a] /\ cells h a = Some c /\ refs c = 1 /\ ~ In a (held_by_lisp (aux h)) /\
  Forall (fun b => ~ In a (fields_at h b)) (addresses h).
Proof.
  destruct (returned (desk [] "(1 2 . )" empty)
    (fun o h => fst o = mkh 0 [] [] [479%N] /\ snd o = Parser.LDone /\ option_map refs (cells h 479%N) = Some 1 /\
      existsb (N.eqb 479) (held_by_lisp (aux h) ++ flat_map (fields_at h) (addresses h)) = false)) as [[l e] [h [E [G [D [C N]]]]]].
  { vm_compute. split; [reflexivity|]. split; [reflexivity|]. split; reflexivity. }
  cbn [fst snd] in G, D. subst l e. destruct (cells h 479%N) as [c|] eqn:Ec; [|discriminate C]. injection C as C.
  assert (NI : ~ In 479%N (held_by_lisp (aux h) ++ flat_map (fields_at h) (addresses h))).
  { intro I. assert (T : existsb (N.eqb 479) (held_by_lisp (aux h) ++ flat_map (fields_at h) (addresses h)) = true) by (apply existsb_exists; exists 479%N; split; [exact I|apply N.eqb_refl]).
    rewrite T in N. discriminate N. }
  eexists _, _, h, 479%N, c. split; [exact E|]. split; [reflexivity|]. split; [reflexivity|]. split; [reflexivity|]. split; [exact Ec|]. split; [exact C|].
  split; [intro I; apply NI; apply in_or_app; left; exact I|].
  apply Forall_forall. intros b Ib I. apply NI. apply in_or_app. right. apply in_flat_map. exists b. auto.
Qed.
Print Assumptions C96_leak_refuted.

(** ** Cases *)

(** The heap after a session stands for the state the session leaves. *)
Lemma session_stands : forall l v w, in_turn yes 60 l Nil Eval.world0 = Eval.Ret v w ->
  forall r h, session plain yes Nil 60 l empty = Done r h -> stands h w [(r, v)].
Proof.
  intros l v w EV r h E. pose proof (s_session plain eq_refl Nil eq_refl eq_refl yes 60 l) as S.
  exact (wpv_out _ _ _ _ _ (sim_wpv _ _ _ _ _ _ _ S EV) E).
Qed.
Definition text1 : bytes := bs "(a `(prog k)) 'b".
Definition toks1 : list (Lexer.kind * bytes) :=
  [(Lexer.KOpen, bs "("); (Lexer.KSymbol, bs "a"); (Lexer.KSpace, bs " "); (Lexer.KPOpen Lexer.Backtick, bs "`("); (Lexer.KSymbol, bs "prog");
   (Lexer.KSpace, bs " "); (Lexer.KSymbol, bs "k"); (Lexer.KClose, bs ")"); (Lexer.KClose, bs ")"); (Lexer.KSpace, bs " "); (Lexer.KPSymbol Lexer.Quote, bs "'b")].
Ltac letters := apply symbol_chars; [left; right; split; discriminate|repeat (apply Forall_cons; [left; right; split; discriminate|]); constructor|cbn; lia].
Lemma toks1_program : forall w, Eval.eval yes 60 [] (Sexp.rd "(prog k)") w = Eval.Ret (Num 3) w ->
  program Eval.world (fun a w v w' => Eval.eval yes 60 [] a w = Eval.Ret v w') w toks1 [Cons (Sexp.rd "a") (Cons (Num 3) Nil); Cons (Sexp.rd "quote") (Sexp.rd "b")] w.
Proof.
  intros w R. apply (program_form _ _ _ (firstn 9 toks1) _ w (skipn 9 toks1)).
  - cbn [toks1 firstn]. apply form_list. apply (body_item Eval.world _ true w [(Lexer.KSymbol, bs "a")] _ w); [apply form_plain; apply (plain_symbol (bs "a")); [letters|exists 15; split; reflexivity]|].
    apply body_filler; [left; reflexivity|].
    apply (body_item Eval.world _ false w (firstn 5 (skipn 3 toks1)) _ w [(Lexer.KClose, bs ")")]); [|apply body_close].
    cbn [toks1 firstn skipn]. apply (form_back_list _ _ w _ (Sexp.rd "(prog k)") w); [|exact R].
    apply (body_item Eval.world _ true w [(Lexer.KSymbol, bs "prog")] _ w); [apply form_plain; apply (plain_symbol (bs "prog")); [letters|exists 12; split; reflexivity]|].
    apply body_filler; [left; reflexivity|].
    apply (body_item Eval.world _ false w [(Lexer.KSymbol, bs "k")] _ w); [apply form_plain; apply (plain_symbol (bs "k")); [letters|exists 15; split; reflexivity]|].
    apply body_close.
  - cbn [toks1 skipn]. apply program_filler; [left; reflexivity|].
    apply (program_form _ _ _ [(Lexer.KPSymbol Lexer.Quote, bs "'b")] _ w []); [|apply program_end].
    apply (form_quote_symbol _ _ w (bs "b")); [letters|exists 15; split; reflexivity].
Qed.
(** The hypotheses of C96_values_partial together. *)
Example C96_values_example : exists w h r l' h', splits text1 toks1 Lexer.Done /\ Forall (fun t => splices t = false) toks1 /\
  program Eval.world (fun a w v w' => Eval.eval yes 60 [] a w = Eval.Ret v w') w toks1
    [Cons (Sexp.rd "a") (Cons (Num 3) Nil); Cons (Sexp.rd "quote") (Sexp.rd "b")] w /\
  opens (aux h) <> 0%N /\ stands h w [(r, Num 3)] /\
  hlexer_parse plain yes Nil 60 text1 start h = Done (l', Parser.LDone) h'.
Proof.
  assert (W : exists w, in_turn yes 60 (code ["(setq k 3)"%string]) Nil Eval.world0 = Eval.Ret (Num 3) w /\
    Eval.eval yes 60 [] (Sexp.rd "(prog k)") w = Eval.Ret (Num 3) w) by (eexists; split; [vm_compute; reflexivity|vm_compute; reflexivity]).
  destruct W as [w [W R]].
  destruct (returned (session plain yes Nil 60 (code ["(setq k 3)"%string]) empty) (fun r h => N.eqb (opens (aux h)) 0 = false /\
    match hlexer_parse plain yes Nil 60 text1 start h with Done (_, Parser.LDone) _ => true | _ => false end = true)) as [r [h [E [Op P]]]].
  { vm_compute. split; reflexivity. }
  destruct (hlexer_parse plain yes Nil 60 text1 start h) as [[l' [| |]] h'| | | | |] eqn:Ep; try discriminate P.
  exists w, h, r, l', h'. split; [apply tokens_splits; vm_compute; reflexivity|]. split; [repeat (constructor; [reflexivity|]); constructor|].
  split; [apply toks1_program; exact R|]. split; [apply N.eqb_neq; exact Op|]. split; [|exact Ep].
  exact (session_stands _ _ _ W _ _ E).
Qed.
(** Those of C96_safe_partial, with a text that is not well formed: brackets, a
    backquote and a string without end. *)
Example C96_safe_example : exists h r, opens (aux h) <> 0%N /\ holds h (lexer_refs start ++ [r]) /\
  match hlexer_parse no_any yes Nil 60 (bs "(1 . ) `(setq z '(2 . 3)) (7 . 8 9) '(x ""y") start h with
  | Done (l, Parser.LWait _) _ => (length (got l), length (stack_refs (hstack l)), length (spilt l)) = (2, 1, 1)
  | _ => False
  end.
Proof.
  destruct (returned (session plain yes Nil 60 (code ["(setq k 3)"%string]) empty) (fun r h => N.eqb (opens (aux h)) 0 = false /\
  match hlexer_parse no_any yes Nil 60 (bs "(1 . ) `(setq z '(2 . 3)) (7 . 8 9) '(x ""y") start h with
  | Done (l, Parser.LWait _) _ => (length (got l), length (stack_refs (hstack l)), length (spilt l)) = (2, 1, 1)
  | _ => False
  end)) as [r [h [E [Op P]]]].
  { vm_compute. split; reflexivity. }
  exists h, r. split; [apply N.eqb_neq; exact Op|]. split; [|exact P].
  assert (W : exists w, in_turn yes 60 (code ["(setq k 3)"%string]) Nil Eval.world0 = Eval.Ret (Num 3) w) by (eexists; vm_compute; reflexivity).
  destruct W as [w W]. apply (s_holds _ _ _ (session_stands _ _ _ W _ _ E)).
Qed.

(** The channel of a new lisp, with nothing waiting; three lists delivered, in two parts. *)
Example C96_order_example :
  out ((r <- session plain yes Nil 60 (code ["(setq k 3)"%string]) ;;
        o <- hlexer_parse plain yes Nil 60 (bs "(1) (2)") start ;;
        hdeliver 60 (got (fst o)) ;;;
        a <- hread_pop ;;
        o2 <- hlexer_parse plain yes Nil 60 (bs "(3)") start ;;
        hdeliver 60 (got (fst o2)) ;;;
        b <- hpops 2 ;;
        va <- value_at 20 a ;; vb <- values (mkh 0 [] b []) ;; done (va :: vb)) empty) =
  Some [Sexp.rd "(1)"; Sexp.rd "(2)"; Sexp.rd "(3)"].
Proof. vm_compute. reflexivity. Qed.
(** The hypotheses of C96_order in the heap of a session: two new cells for a channel
    where nothing waits. *)
Example C96_order_applies : exists h a b R, holds h ([a; b] ++ R) /\ waiting h [] /\ a <> b.
Proof.
  destruct (returned ((r <- session plain yes Nil 60 (code ["(setq k 3)"%string]) ;; b <- plant (Sexp.rd "(5)") ;; a <- plant (Num 4) ;; done (a, b, r)) empty)
    (fun p h => N.eqb (fst (fst p)) (snd (fst p)) = false /\ ichan (aux h) = 469%N /\ option_map body (cells h 469%N) = Some (KPair 468 0) /\ option_map body (cells h 468%N) = Some (KPair 467 466) /\
       option_map body (cells h 466%N) = Some (KPair 464 465) /\ option_map body (cells h 465%N) = Some KNil)) as [[[a b] r] [h [E [Nab [I [A0 [A1 [A2 A3]]]]]]]].
  { vm_compute. repeat (split; [reflexivity|]). reflexivity. }
  cbn [fst snd] in Nab. exists h, a, b, [r]. split; [|split; [|apply N.eqb_neq; exact Nab]].
  - refine (wpv_out _ (fun p h => holds h [fst (fst p); snd (fst p); snd p]) empty (a, b, r) h _ E).
    assert (W : exists w, in_turn yes 60 (code ["(setq k 3)"%string]) Nil Eval.world0 = Eval.Ret (Num 3) w) by (eexists; vm_compute; reflexivity).
    destruct W as [w W]. clear E I A0 A1 A2 A3 Nab a b r h. apply wpv_bind.
    pose proof (s_session plain eq_refl Nil eq_refl eq_refl yes 60 (code ["(setq k 3)"%string])) as S.
    eapply wpv_mono; [exact (sim_wpv _ _ _ _ _ _ _ S W)|]. cbv beta. clear S. intros r h H. apply stands_vat in H.
    op ltac:(apply (o_plant _ _ _ _ (Sexp.rd "(5)") _ _ _ _ H)). clear H. intros b h2 H.
    op ltac:(apply (o_plant _ _ _ _ (Num 4) _ _ _ _ H)). clear H. intros a h3 H. apply vat_stands in H. apply (s_holds _ _ _ H).
  - constructor. rewrite I.
    destruct (cells h 469%N) as [c0|] eqn:E0; [|discriminate A0]. destruct (cells h 468%N) as [c1|] eqn:E1; [|discriminate A1].
    destruct (cells h 466%N) as [c2|] eqn:E2; [|discriminate A2]. destruct (cells h 465%N) as [c3|] eqn:E3; [|discriminate A3].
    injection A0 as A0. injection A1 as A1. injection A2 as A2. injection A3 as A3.
    exists c0, c1, 468%N, 0%N, 467%N, 466%N, 464%N. split; [reflexivity|]. split; [exact A0|]. split; [exact E1|]. split; [exact A1|].
    eapply queue_cons; [exact E2|exact A2|]. eapply queue_nil; [exact E3|exact A3].
Qed.
