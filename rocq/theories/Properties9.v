(** * Properties C66 and C67: the reference-counted heap computes what the evaluator
    over values computes. *)
From Verif Require Import Value Tails Sexp EvalSpec.
From Verif Require Import Heap HeapSpec HeapProofs HeapOps HEval HEvalSpec HEvalBase HEvalProofs HEvalBoot HSimSpec HSimBase HSimOps HSimLisp HSimState HSimTop.
From Verif Require Eval.
Open Scope nat_scope.
Open Scope heap_scope.

(** Everything is permitted except assigning the name ANY, a closure scope that is
    not a plain association list, and setting the tail-call flag in code that
    something else than the call of [def] also refers to. *)
Definition plain (e : event) : bool := match e with AssignsAny | OddScope | MarksCode => false | _ => true end.
Definition yes (k : N) (output : bool) (path : atom) : bool := true.
Definition program (l : list string) : list atom := map Sexp.rd l.

(** ** C66 *)

(** Evaluating any expression in any scope from any heap that stands for a state of
    the evaluator over values: if it returns, then the evaluator over values has an
    outcome, the result reads that value, the heap stands for that state (globals,
    output, channels), and every other reference reads what it did.  Excluded:
    assigning ANY, scopes that are not association lists, calls of [def] that flag
    code which something else also refers to, calls of [let] that flag code, and the operations that the evaluator over values leaves out
    ([conc], and [<-] on a local name).  Nothing is said if the run on the heap does
    not return. *)
Theorem C66_eval_partial : forall allowed opened pwd n c ce x xv h w L r h',
  allowed AssignsAny = false -> allowed OddScope = false -> allowed MarksCode = false ->
  Eval.opens w <> 0%N -> stands h w ((x, xv) :: L) -> In (c, atom_of_env ce) L ->
  heval allowed opened pwd n c x h = Done r h' ->
  (exists o, runs opened ce xv w o) /\ forall o, runs opened ce xv w o -> answers o r h' L.
Proof. intros. eapply eval_answers; eauto. Qed.
Print Assumptions C66_eval_partial.

(** The same from program start, for a whole session. *)
Theorem C66_session_partial : forall allowed opened pwd n l r h',
  allowed AssignsAny = false -> allowed OddScope = false -> allowed MarksCode = false ->
  session allowed opened pwd n l empty = Done r h' ->
  (exists o, runs_body opened [] l Nil Eval.world0 o) /\
  forall o, runs_body opened [] l Nil Eval.world0 o -> answers o r h' [].
Proof. intros. eapply session_answers; eauto. Qed.
Print Assumptions C66_session_partial.

(** Program start itself. *)
Theorem C66_start : forall allowed pwd h, allowed AssignsAny = false -> hboot allowed pwd empty = Done tt h ->
  stands h Eval.world0 [].
Proof. intros allowed pwd h NA E. exact (proj1 (wpv_out _ _ _ _ _ (s_boot allowed NA pwd yes) E)). Qed.
Print Assumptions C66_start.

(** A heap after some expressions, with an expression and a scope. *)
Definition desk (l : list atom) (x : atom) (c : env) : HM (N * N * N) :=
  hbind_ (session plain yes Nil 40 l) (fun r => hbind_ (plant (atom_of_env c)) (fun b => hbind_ (plant x) (fun a => done (a, b, r)))).
Lemma desk_stands : forall l x c v w, in_turn yes 40 l Nil Eval.world0 = Eval.Ret v w -> forall a b r h, desk l x c empty = Done (a, b, r) h ->
  stands h w [(a, x); (b, atom_of_env c); (r, v)].
Proof.
  intros l x c v w EV a b r h E.
  refine (wpv_out (desk l x c) (fun p h => stands h w [(fst (fst p), x); (snd (fst p), atom_of_env c); (snd p, v)]) empty (a, b, r) h _ E).
  clear a b r h E. unfold desk. apply wpv_bind. pose proof (s_session plain eq_refl Nil eq_refl eq_refl yes 40 l) as S.
  eapply wpv_mono; [exact (sim_wpv _ _ _ _ _ _ _ S EV)|]. cbv beta. clear S. intros r h H. apply stands_vat in H.
  op ltac:(apply (o_plant _ _ _ _ (atom_of_env c) _ _ _ _ H)). clear H. intros b h2 H.
  op ltac:(apply (o_plant _ _ _ _ x _ _ _ _ H)). clear H. intros a h3 H. eapply vat_stands. exact H.
Qed.
(** Reads a value and the output. *)
Definition shown (o : hres N) : option (atom * list (N * list N)) :=
  match o with
  | Done r h => match value_at 20 r h with Done v _ => Some (v, outs (aux h)) | _ => None end
  | _ => None
  end.

(** An expression that [e] holds, evaluated, and then a part of it. *)
Definition kept_def : list atom := program
  ["(setq e '(def f (n) (if (< n 1) 'end (f (- n 1)))))"; "(eval e)"; "(setq n 3)"; "(eval (car (cdr (cdr (cdr e)))))"].
Lemma returned : forall {A} (o : hres A) (P : A -> heap -> Prop), match o with Done p h => P p h | _ => False end ->
  exists p h, o = Done p h /\ P p h.
Proof. intros A [p h| | | | |] P H; try contradiction. eauto. Qed.
Example C66_example :
  (exists h x c z, stands h Eval.world0 [(x, Sexp.rd "(prin (+ a (car b)))"); (c, Sexp.rd "((a . 5) (b 6 7))"); (z, Nil)] /\
    shown (heval plain yes Nil 20 c x h) = Some (Num 11, [(1%N, [49; 49]%N)])) /\
  shown (session plain yes Nil 40 (program ["(setq k 3)"; "(def add (x) (+ x k))"; "(prin (add 4))"; "(list (add 1) k 'k)"]) empty) =
    Some (Sexp.rd "(4 3 k)", [(1%N, [55%N])]) /\
  shown (session plain yes Nil 60 (program ["(def f (n) (if (= n 0) () (cons n (f (- n 1)))))"; "(let ((g . (f 3))) (prin g))"]) empty) =
    Some (Sexp.rd "(3 2 1)", [(1%N, [51; 50; 49]%N)]) /\
  (* a tail-recursive function: its code is flagged by [def], nothing else refers to it *)
  shown (session plain yes Nil 60 (program ["(def f (n) (if (< n 1) 'end (f (- n 1))))"; "(f 3)"]) empty) =
    Some (Symb (sy "end"), []) /\
  (* the same code held by [e]: excluded *)
  session plain yes Nil 60 kept_def empty = Barred MarksCode.
Proof.
  split; [|ands; vm_compute; reflexivity].
  destruct (returned (desk [] (Sexp.rd "(prin (+ a (car b)))") [(sy "a", Num 5); (sy "b", Sexp.rd "(6 7)")] empty)
    (fun p h => shown (heval plain yes Nil 20 (snd (fst p)) (fst (fst p)) h) = Some (Num 11, [(1%N, [49; 49]%N)]))) as [[[a b] r] [h [E V]]].
  { vm_compute. reflexivity. }
  exists h, a, b, r. split; [|exact V]. exact (desk_stands [] _ _ Nil Eval.world0 eq_refl a b r h E).
Qed.

(** Without the exclusion: [def] flags the code it is given where it lies, so the
    quoted expression that [e] holds is changed by evaluating it, and a part of it
    evaluated later returns the record of a postponed call instead of making the call
    ([kept_def]). *)
Theorem C66_refuted : exists w r h, runs_body yes [] kept_def Nil Eval.world0 (Eval.Ret (Symb (sy "end")) w) /\
  session (fun _ => true) yes Nil 60 kept_def empty = Done r h /\
  ~ answers (Eval.Ret (Symb (sy "end")) w) r h [].
Proof.
  assert (W : exists w, in_turn yes 60 kept_def Nil Eval.world0 = Eval.Ret (Symb (sy "end")) w).
  { eexists. vm_compute. reflexivity. }
  destruct W as [w W].
  destruct (returned (session (fun _ => true) yes Nil 60 kept_def empty)
    (fun r h => match cells h r with Some c => match body c with KPair _ _ => true | _ => false end | None => false end = true)) as [r [h [E V]]].
  { vm_compute. reflexivity. }
  exists w, r, h. split; [eapply in_turn_body; [exact W|discriminate]|]. split; [exact E|].
  intros [_ R _]. specialize (R r (Symb (sy "end")) (or_introl eq_refl)).
  remember (sy "end") as s eqn:ES. clear ES E W. inversion R as [| | | | |a c s' EC BC|]; subst. rewrite EC, BC in V. discriminate.
Qed.
Print Assumptions C66_refuted.

(** ** C67 *)

(** Two heaps that stand for the same state may lay it out differently: different
    cells, different sharing, different counts, different caches.  Evaluating the
    same expression in the same scope from both gives results that read the same
    value, and leaves heaps that stand for the same state; in particular the same
    output.  Excluded: as in C66; [conc] and [<-] on a local name do depend on what is
    shared. *)
Theorem C67_layout_partial : forall allowed opened pwd1 pwd2 n1 n2 ce xv w c1 x1 h1 L1 r1 h1' c2 x2 h2 L2 r2 h2',
  allowed AssignsAny = false -> allowed OddScope = false -> allowed MarksCode = false ->
  Eval.opens w <> 0%N ->
  stands h1 w ((x1, xv) :: L1) -> In (c1, atom_of_env ce) L1 -> heval allowed opened pwd1 n1 c1 x1 h1 = Done r1 h1' ->
  stands h2 w ((x2, xv) :: L2) -> In (c2, atom_of_env ce) L2 -> heval allowed opened pwd2 n2 c2 x2 h2 = Done r2 h2' ->
  runs opened ce xv w (Eval.Stop Eval.Shared) \/
  exists v w', stands h1' w' ((r1, v) :: L1) /\ stands h2' w' ((r2, v) :: L2).
Proof.
  intros allowed opened pwd1 pwd2 n1 n2 ce xv w c1 x1 h1 L1 r1 h1' c2 x2 h2 L2 r2 h2' NA NO NM OP S1 I1 E1 S2 I2 E2.
  destruct (C66_eval_partial _ _ _ _ _ _ _ _ _ _ _ _ _ NA NO NM OP S1 I1 E1) as [[o R] A1].
  destruct (C66_eval_partial _ _ _ _ _ _ _ _ _ _ _ _ _ NA NO NM OP S2 I2 E2) as [_ A2].
  specialize (A1 o R). specialize (A2 o R). unfold answers in *. destruct o as [v w'|[]|]; try contradiction; eauto.
Qed.
Print Assumptions C67_layout_partial.

(** The cells in use. *)
Definition in_use (h : heap) : nat := length (filter (fun a => match cells h a with Some _ => true | None => false end) (map N.of_nat (seq 0 (N.to_nat (nxt h))))).
Definition one_list : list atom := program ["(setq k '(1 2))"; "(setq p (cons k k))"].
Definition two_lists : list atom := program ["(setq k '(1 2))"; "(setq p '((1 2) 1 2))"].
(** Two layouts: the value of [p] holds one list twice, or two equal lists. *)
Example C67_example : exists w h1 x1 c1 r1 h2 x2 c2 r2 v,
  stands h1 w [(x1, Sexp.rd "(list (cdr p) k)"); (c1, Nil); (r1, v)] /\
  stands h2 w [(x2, Sexp.rd "(list (cdr p) k)"); (c2, Nil); (r2, v)] /\
  in_use h1 + 10 = in_use h2 /\
  shown (heval plain yes Nil 20 c1 x1 h1) = Some (Sexp.rd "((1 2) (1 2))", []) /\
  shown (heval plain yes Nil 20 c2 x2 h2) = Some (Sexp.rd "((1 2) (1 2))", []).
Proof.
  assert (W : exists v w, in_turn yes 40 two_lists Nil Eval.world0 = Eval.Ret v w /\ in_turn yes 40 one_list Nil Eval.world0 = Eval.Ret v w).
  { eexists. eexists. split; vm_compute; reflexivity. }
  destruct W as [v [w [E1 E2]]].
  destruct (returned (desk one_list (Sexp.rd "(list (cdr p) k)") [] empty)
    (fun p h => in_use h = 498 /\ shown (heval plain yes Nil 20 (snd (fst p)) (fst (fst p)) h) = Some (Sexp.rd "((1 2) (1 2))", []))) as [[[a1 b1] r1] [h1 [D1 [U1 V1]]]].
  { vm_compute. split; reflexivity. }
  destruct (returned (desk two_lists (Sexp.rd "(list (cdr p) k)") [] empty)
    (fun p h => in_use h = 508 /\ shown (heval plain yes Nil 20 (snd (fst p)) (fst (fst p)) h) = Some (Sexp.rd "((1 2) (1 2))", []))) as [[[a2 b2] r2] [h2 [D2 [U2 V2]]]].
  { vm_compute. split; reflexivity. }
  exists w, h1, a1, b1, r1, h2, a2, b2, r2, v.
  split; [exact (desk_stands _ _ [] v w E2 _ _ _ _ D1)|]. split; [exact (desk_stands _ _ [] v w E1 _ _ _ _ D2)|]. ands; auto. lia.
Qed.
