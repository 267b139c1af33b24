(** * Property C95: cells that are given back are used again, and no program notices. *)
From Verif Require Import Value Tails Sexp EvalSpec.
From Verif Require Import Heap HeapSpec HEval HEvalSpec HEvalBase HeapOps HEvalProofs HEvalBoot HSimSpec HSimTop HBars.
From Verif Require Import SlabProofs RSimSpec RSim RSim2 RSimTop RSlabProofs.
From Verif Require Slab RHeap REval Eval.
Open Scope nat_scope.

(** Everything is permitted except assigning the name ANY; and also except what
    forgets references. *)
Definition no_any (e : event) : bool := match e with AssignsAny => false | _ => true end.
Definition tidy (e : event) : bool :=
  match e with AssignsAny | UsesSet | DefinesNonSymbol => false | OddScope | MarksCode => true end.
Definition yes (k : N) (output : bool) (path : atom) : bool := true.
Definition program (l : list string) : list atom := map Sexp.rd l.
(** What a session in memory left: pages committed, cells handed out, cells free, the
    value of the result, the output. *)
Definition left (o : R.hres N) : option (N * N * nat * atom * list (N * list N)) :=
  match o with
  | R.Done r m => match REval.value_at 20 r m with R.Done v _ => Some (R.pages m, R.served m, length (R.free m), v, outs (R.aux m)) | _ => None end
  | _ => None
  end.

(** ** Same results *)

(** A whole session, once with a new cell for every allocation and once in memory
    that is used again: if the first returns, the second returns the same value and
    has written the same output, or every cell of the 64 MB is in use. *)
Theorem C95_same : forall allowed opened pwd n l r h,
  session allowed opened pwd n l empty = Done r h ->
  match REval.session opened pwd n l REval.empty with
  | R.Done a m => (forall v, reads h r v -> held (R.cells m) a v) /\ outs (R.aux m) = outs (aux h)
  | R.Full m => full m
  | _ => False
  end.
Proof.
  intros allowed opened pwd n l r h E.
  assert (ST : false = true -> allowed OddScope = true /\ allowed MarksCode = true) by discriminate.
  pose proof (session_mirrors false allowed opened pwd n l ST) as T. rewrite E in T.
  destruct (REval.session opened pwd n l REval.empty); try exact T. destruct T as [W [M [O ->]]].
  split; [intro v; apply (held_at _ _ _ M)|apply (m_aux _ _ _ M)].
Qed.
Print Assumptions C95_same.

(** So a session in memory does what the evaluator over values does: result, globals,
    output and channels.  Excluded are the sessions of C66: those that assign ANY, use
    scopes that are not association lists, or flag code that something else refers
    to. *)
Theorem C95_values_partial : forall allowed opened pwd n l r h v w,
  allowed AssignsAny = false -> allowed OddScope = false -> allowed MarksCode = false ->
  session allowed opened pwd n l empty = Done r h ->
  runs_body opened [] l Nil Eval.world0 (Eval.Ret v w) ->
  match REval.session opened pwd n l REval.empty with
  | R.Done a m => shows m a v w
  | R.Full m => full m
  | _ => False
  end.
Proof.
  intros allowed opened pwd n l r h v w NA NO NM E RB.
  assert (ST : false = true -> allowed OddScope = true /\ allowed MarksCode = true) by discriminate.
  pose proof (session_mirrors false allowed opened pwd n l ST) as T. rewrite E in T.
  destruct (session_answers allowed NA pwd NO NM opened n l r h E) as [_ A]. specialize (A _ RB). cbn in A.
  destruct (REval.session opened pwd n l REval.empty); try exact T. destruct T as [W [M [O ->]]].
  eapply (shows_at _ _ _ M); eauto.
Qed.
Print Assumptions C95_values_partial.

(** ** No freed cell is touched *)

(** A triple is a statement about the outcome. *)
Lemma wp_run : forall {A} (m : HM A) (Q : A -> heap -> Prop) h, wp m Q h ->
  match m h with Done a h' => Q a h' | Freed => False | _ => True end.
Proof. intros A m Q h W. exact W. Qed.

(** Any session at all in memory that is used again: it touches no cell that is free,
    unless it assigns ANY or calls a builtin through a function value made by hand with
    other arguments than the builtin's; and if it returns, then so does the session that
    never uses a cell again, with the same result. *)
Theorem C95_safe_partial : forall opened pwd n l,
  session no_any opened pwd n l empty <> Barred AssignsAny -> session no_any opened pwd n l empty <> Forged ->
  match REval.session opened pwd n l REval.empty with
  | R.Freed => False
  | R.Done a m => exists r h, session no_any opened pwd n l empty = Done r h /\
      (forall v, reads h r v -> held (R.cells m) a v) /\ outs (R.aux m) = outs (aux h)
  | R.Full m => full m
  | _ => True
  end.
Proof.
  intros opened pwd n l NB NF. pose proof (session_mirrors true no_any opened pwd n l (fun _ => conj eq_refl eq_refl)) as T.
  pose proof (wp_run _ _ _ (session_ok no_any eq_refl opened pwd n l)) as C.
  assert (B : forall e, session no_any opened pwd n l empty = Barred e -> e = AssignsAny).
  { intros e E. pose proof (b_session no_any opened pwd n l _ _ E) as B. destruct e; [reflexivity|discriminate B..]. }
  revert T C B NB NF. generalize (session no_any opened pwd n l empty) (REval.session opened pwd n l REval.empty). intros o o' T C B NB NF.
  destruct o as [r h| | | |e|].
  - destruct o'; try exact T; try contradiction. destruct T as [W [M [O ->]]]. exists r, h. split; auto.
    split; [intro v; apply (held_at _ _ _ M)|apply (m_aux _ _ _ M)].
  - contradiction C.
  - destruct (T eq_refl) as [->|X]; [exact I|]. destruct o'; try exact X; try exact I; contradiction X.
  - exfalso. apply NF. reflexivity.
  - exfalso. apply NB. f_equal. apply B. reflexivity.
  - destruct (T eq_refl) as [->|X]; [exact I|]. destruct o'; try exact X; try exact I; contradiction X.
Qed.
Print Assumptions C95_safe_partial.

(** When ANY is assigned, a freed cell that was handed out again is read as if it were
    the clauses of [match]: the subject 1 is compared with something else, and the
    result of the clause (1 . 2) is not 2. *)
Definition any_reused : list atom := program
  ["(match (prog (setq J (<- 'ANY NIL)) (setq J 0) (setq K (list 5 6 7 8 9)) 1) (1 . 2))"%string].
Theorem C95_any_refuted : exists l a m, REval.session yes Nil 60 l REval.empty = R.Done a m /\ held (R.cells m) a Nil /\
  l = program ["(match (prog (setq J (<- 'ANY NIL)) (setq J 0) (setq K (list 5 6 7 8 9)) 1) (1 . 2))"%string] /\
  session (fun _ => true) yes Nil 60 l empty = Freed.
Proof.
  exists any_reused.
  assert (X : match REval.session yes Nil 60 any_reused REval.empty with
              | R.Done a m => match R.cells m a with Some c => match body c with KNil => true | _ => false end | None => false end
              | _ => false end = true) by (vm_compute; reflexivity).
  destruct (REval.session yes Nil 60 any_reused REval.empty) as [a m| | | | |]; try discriminate X.
  exists a, m. split; [reflexivity|]. split; [|split; [reflexivity|vm_compute; reflexivity]].
  destruct (R.cells m a) as [c|] eqn:E; [|discriminate X]. destruct (body c) eqn:B; try discriminate X. eapply held_nil; eauto.
Qed.
Print Assumptions C95_any_refuted.

(** ** Everything is given back *)

(** At the end of a session that uses neither [<-] nor [def] on something else than a
    name, every cell in use is reached from the result, the globals or the channels, if
    no cycle was built: the others are free again. *)
Theorem C95_no_garbage_partial : forall opened pwd n l r h a m,
  session tidy opened pwd n l empty = Done r h -> REval.session opened pwd n l REval.empty = R.Done a m ->
  loop_free (R.cells m) -> forall b, R.cells m b <> None -> reached (R.cells m) (a :: roots_of (R.aux m)) b.
Proof.
  intros opened pwd n l r h a m E E' LF b U. pose proof (session_mirrors true tidy opened pwd n l (fun _ => conj eq_refl eq_refl)) as T.
  rewrite E, E' in T. destruct T as [W [M [O ->]]].
  pose proof (wp_run _ _ _ (session_ok tidy eq_refl opened pwd n l)) as C. rewrite E in C. destruct C as [C1 C2].
  destruct (C2 eq_refl eq_refl) as [L S]. destruct (m_onto _ _ _ M S b U) as [x [X <-]].
  assert (G := holds_no_garbage h [r] C1 (acyclic_at _ _ _ M LF) x X). apply (reached_at _ _ _ M) in G.
  cbn [app map] in G. rewrite (roots_at _ _ _ M O L) in G. exact G.
Qed.
Print Assumptions C95_no_garbage_partial.

(** ** The allocator *)

(** Whatever a session does to its memory is a proper use of the allocator: only cells
    it was given are stored to or given back.  The cells are in the allocator's memory,
    however their fields are laid out ([enc]); the cells given are those in use, n_alloc
    - n_free of them; at most 64 MB are committed.  The session stops for want of memory
    exactly when all 2097152 cells are in use. *)
Theorem C95_allocator : forall enc opened pwd n l,
  match REval.session opened pwd n l REval.empty with
  | R.Done _ m => exists ops s hl, Slab.run ops = Slab.Running s hl /\ linked enc m s hl /\ NoDup hl /\
      Slab.n_alloc s = (Slab.n_free s + N.of_nat (length hl))%N /\ (Slab.n_pages s * Slab.PAGE_SIZE <= Slab.SLAB_SIZE)%N
  | R.Full m => exists ops s hl, Slab.run ops = Slab.Aborted s hl /\ linked enc m s hl /\ NoDup hl /\ N.of_nat (length hl) = 2097152%N
  | _ => True
  end.
Proof.
  intros enc opened pwd n l. pose proof (session_history enc opened pwd n l) as H.
  destruct (REval.session opened pwd n l REval.empty) as [a m| | | |m|]; try exact I.
  - destruct H as [ops [s [hl [E L]]]]. exists ops, s, hl. pose proof (run_inv ops s hl (or_introl E)) as I. split; auto. split; auto. split; [apply I|]. split; [apply I|].
    destruct (inv_pages _ _ I) as [k [Hk ->]]. pose proof (pow2_bound k Hk). unfold Slab.PAGE_SIZE, Slab.SLAB_SIZE. lia.
  - destruct H as [ops [s [hl [E [L F]]]]]. exists ops, s, hl. pose proof (run_inv ops s hl (or_intror E)) as I. split; auto. split; auto. split; [apply I|].
    apply (abort_exact s hl I). exact F.
Qed.
Print Assumptions C95_allocator.

(** ** Cases *)

(** The two programs of the cases: the second hands out 2239 cells of the 2048 that the
    16 committed pages hold. *)
Definition adds : list atom := program
  ["(setq k 3)"%string; "(def add (x) (+ x k))"%string; "(prin (add 4))"%string; "(list (add 1) k 'k)"%string].
Definition counts : list atom := program ["(def f (n) (if (< n 1) 'end (f (- n 1))))"%string; "(f 60)"%string].
Definition returns (o : hres N) : bool := match o with Done _ _ => true | _ => false end.
Lemma returns_run : forall o, returns o = true -> exists r h, o = Done r h.
Proof. intros [r h| | | | |] H; try discriminate H. exists r, h. reflexivity. Qed.

Lemma counts_run : returns (session tidy yes Nil 90 counts empty) = true /\ returns (session no_any yes Nil 90 counts empty) = true.
Proof. split; vm_compute; reflexivity. Qed.
Example C95_same_case : (exists r h, session tidy yes Nil 90 counts empty = Done r h) /\
  left (REval.session yes Nil 90 counts REval.empty) = Some (16%N, 2239%N, 1535, Sexp.rd "end", []) /\
  (16 * Slab.PAGE_SIZE / Slab.ATOM_SIZE < 2239)%N.
Proof.
  split; [exact (returns_run _ (proj1 counts_run))|]. split; vm_compute; reflexivity.
Qed.

(** The programs without the events C66 excludes. *)
Definition plain (e : event) : bool := match e with AssignsAny | OddScope | MarksCode => false | _ => true end.
Lemma adds_run : returns (session plain yes Nil 40 adds empty) = true.
Proof. vm_compute. reflexivity. Qed.
Example C95_values_case : exists r h v w, session plain yes Nil 40 adds empty = Done r h /\
  runs_body yes [] adds Nil Eval.world0 (Eval.Ret v w) /\ v = Sexp.rd "(4 3 k)" /\ Eval.outs w = [(1%N, [55%N])] /\
  left (REval.session yes Nil 40 adds REval.empty) = Some (16%N, 591%N, 1546, v, Eval.outs w).
Proof.
  destruct (returns_run _ adds_run) as [r [h E]]. exists r, h.
  assert (W : exists v w, in_turn yes 40 adds Nil Eval.world0 = Eval.Ret v w /\ v = Sexp.rd "(4 3 k)" /\ Eval.outs w = [(1%N, [55%N])]).
  { eexists. eexists. split; [vm_compute; reflexivity|]. split; vm_compute; reflexivity. }
  destruct W as [v [w [X [-> O]]]]. exists (Sexp.rd "(4 3 k)"), w. split; [exact E|].
  split; [eapply in_turn_body; [exact X|discriminate]|]. split; [reflexivity|]. split; [exact O|]. rewrite O. vm_compute. reflexivity.
Qed.

Example C95_safe_case :
  session no_any yes Nil 90 counts empty <> Barred AssignsAny /\ session no_any yes Nil 90 counts empty <> Forged.
Proof.
  pose proof (proj2 counts_run) as H. revert H. generalize (session no_any yes Nil 90 counts empty).
  intros [] H; try discriminate H; split; discriminate.
Qed.

(** No cycle is left: every cell refers to cells from which less deep structures hang. *)
Fixpoint depth (n : nat) (m : N -> option cell) (a : N) : nat :=
  match n with
  | 0 => 0
  | S n => match fields m a with [] => 0 | l => S (fold_right (fun b k => Nat.max (depth n m b) k) 0 l) end
  end.
Definition no_loop (k : nat) (o : R.hres N) : bool :=
  match o with
  | R.Done _ m => (R.pages m =? 16)%N &&
      forallb (fun i => let a := N.of_nat i in forallb (fun b => depth k (R.cells m) b <? depth k (R.cells m) a) (fields (R.cells m) a)) (seq 0 2048)
  | _ => false
  end.
Lemma no_loop_run : forall opened pwd n l k, no_loop k (REval.session opened pwd n l REval.empty) = true ->
  exists a m, REval.session opened pwd n l REval.empty = R.Done a m /\ loop_free (R.cells m).
Proof.
  intros opened pwd n l k H. pose proof (C95_allocator (fun _ => Slab.zero_cell) opened pwd n l) as A. revert H A.
  generalize (REval.session opened pwd n l REval.empty). intros [a m| | | |m|] H A; try discriminate H.
  exists a, m. split; [reflexivity|]. unfold no_loop in H. apply andb_prop in H. destruct H as [P H]. apply N.eqb_eq in P.
  destruct A as [ops [s [hl [E [L _]]]]]. pose proof (run_inv ops s hl (or_introl E)) as I.
  exists (depth k (R.cells m)). intros x y F. rewrite forallb_forall in H.
  assert (X : (x < 2048)%N).
  { assert (U : R.cells m x <> None) by (unfold fields in F; destruct (R.cells m x); [discriminate|destruct F]).
    apply (k_given _ _ _ _ L) in U. apply (inv_held_bound _ _ I) in U. rewrite cell_count_pages, (k_pages _ _ _ _ L), P in U. exact U. }
  assert (J : In (N.to_nat x) (seq 0 2048)) by (apply in_seq; lia).
  specialize (H _ J). cbv beta zeta in H. rewrite N2Nat.id, forallb_forall in H. apply Nat.ltb_lt. apply H. exact F.
Qed.
Lemma adds_no_loop : no_loop 24 (REval.session yes Nil 40 adds REval.empty) = true.
Proof. vm_compute. reflexivity. Qed.
Lemma adds_tidy : returns (session tidy yes Nil 40 adds empty) = true.
Proof. vm_compute. reflexivity. Qed.
Example C95_no_garbage_case : exists r h a m, session tidy yes Nil 40 adds empty = Done r h /\
  REval.session yes Nil 40 adds REval.empty = R.Done a m /\ loop_free (R.cells m).
Proof.
  destruct (returns_run _ adds_tidy) as [r [h E]]. destruct (no_loop_run _ _ _ _ _ adds_no_loop) as [a [m [X Y]]].
  exists r, h, a, m. split; [exact E|]. split; [exact X|exact Y].
Qed.

Example C95_allocator_case : exists a m, REval.session yes Nil 90 counts REval.empty = R.Done a m.
Proof.
  assert (H : match left (REval.session yes Nil 90 counts REval.empty) with Some _ => true | None => false end = true) by (vm_compute; reflexivity).
  revert H. generalize (REval.session yes Nil 90 counts REval.empty). intros [a m| | | | |] H; try discriminate H. exists a, m. reflexivity.
Qed.
