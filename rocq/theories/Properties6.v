(** * Properties C42 and C45: evaluation on the reference-counted heap. *)
From Verif Require Import Value ValueProofs Eval Sexp.
From Verif Require Import Heap HeapSpec HeapProofs HeapOps HEval HEvalSpec HEvalBase HEvalTails HEvalProofs HEvalRun HEvalBoot Properties5.
Open Scope nat_scope.
Open Scope heap_scope.

(** Everything permitted; everything except assigning the name ANY; only the forms
    that forget no reference. *)
Definition all (e : event) : bool := true.
Definition no_any (e : event) : bool := match e with AssignsAny => false | _ => true end.
Definition tidy (e : event) : bool :=
  match e with AssignsAny | UsesSet | DefinesNonSymbol => false | OddScope | MarksCode => true end.
(** Every channel opens. *)
Definition yes (k : N) (output : bool) (path : atom) : bool := true.
Definition program (l : list string) : list atom := map Sexp.rd l.

Lemma wp_run : forall {A} (m : HM A) (Q : A -> heap -> Prop) h, wp m Q h ->
  match m h with Done r h' => Q r h' | Freed => False | _ => True end.
Proof. auto. Qed.

(** ** C45 *)

(** Evaluating any expression, in any scope, from any heap with correct counts:
    no freed cell is touched; the reference to the expression is consumed, one
    reference to the result is produced, all others are kept.  Excluded: assigning
    the name ANY by [def], [setq] or [<-]. *)
Theorem C45_eval_partial : forall allowed opened pwd n c x h frame,
  allowed AssignsAny = false ->
  holds h (x :: frame) -> In c frame -> opens (aux h) <> 0%N ->
  match heval allowed opened pwd n c x h with
  | Done r h' => holds h' (r :: frame) /\ ichan (aux h') = ichan (aux h) /\ ochan (aux h') = ochan (aux h)
  | Freed => False
  | _ => True
  end.
Proof.
  intros allowed opened pwd n c x h frame NA H I Z.
  assert (A : at_ allowed h h ([x] ++ frame)) by (constructor; auto; eapply step_refl; eauto).
  pose proof (wp_run _ _ _ (heval_ok allowed NA opened pwd n c x h h frame A I)) as W.
  destruct (heval allowed opened pwd n c x h); auto. destruct W as [W1 [_ W2] _]. split; auto.
  split; [apply (l_ichan _ _ _ W2)|apply (l_ochan _ _ _ W2)].
Qed.
Print Assumptions C45_eval_partial.

(** Whole sessions, from an empty heap. *)
Theorem C45_session_partial : forall allowed opened pwd n l,
  allowed AssignsAny = false ->
  match session allowed opened pwd n l empty with
  | Done r h => holds h [r]
  | Freed => False
  | _ => True
  end.
Proof.
  intros allowed opened pwd n l NA. pose proof (wp_run _ _ _ (session_ok allowed NA opened pwd n l)) as W.
  destruct (session allowed opened pwd n l empty); auto. apply W.
Qed.
Print Assumptions C45_session_partial.

(** A session that uses neither [<-] nor [def] on something else than a name
    forgets no reference. *)
Theorem C45_nothing_forgotten : forall opened pwd n l r h,
  session tidy opened pwd n l empty = Done r h ->
  lost (aux h) = [] /\ strays (aux h) = 0 /\ (acyclic h -> no_garbage h [r]).
Proof.
  intros opened pwd n l r h E. pose proof (wp_run _ _ _ (session_ok tidy eq_refl opened pwd n l)) as W.
  rewrite E in W. destruct W as [W1 W2]. destruct (W2 eq_refl eq_refl) as [L T]. split; auto. split; auto.
  intro A. apply holds_no_garbage; auto.
Qed.
Print Assumptions C45_nothing_forgotten.

(** So shutting down gives every cell back, if no cycle was built. *)
Theorem C45_all_returned : forall opened pwd n l r h,
  session tidy opened pwd n l empty = Done r h -> acyclic h ->
  exists h', drop_all (r :: map snd (binds (aux h)) ++ [ichan (aux h); ochan (aux h)]) h = Done tt h' /\
    forall a, cells h' a = None.
Proof.
  intros opened pwd n l r h E A. pose proof (wp_run _ _ _ (session_ok tidy eq_refl opened pwd n l)) as W.
  rewrite E in W. destruct W as [W1 W2]. destruct (W2 eq_refl eq_refl) as [L T].
  apply C04_no_leak; auto. pose proof (h_correct _ _ W1) as C. unfold held_by_lisp in C. rewrite L, app_nil_r in C. exact C.
Qed.
Print Assumptions C45_all_returned.

(** With assignments to ANY permitted it is false: the subject of [match] is
    evaluated in a scope where ANY names the clauses being read. *)
Definition any_program : list atom := program ["(match (prog (<- 'ANY NIL) 1) (1 . 2))"%string].
Theorem C45_any_refuted : exists l, session all yes Nil 60 l empty = Freed.
Proof. exists any_program. vm_compute. reflexivity. Qed.
Print Assumptions C45_any_refuted.

(** And [<-] forgets a reference: the session ends with a cell in use that nothing
    reaches, however it is shut down. *)
Definition set_program : list atom := program ["(setq X 1)"%string; "(<- 'X 2)"%string].
Definition left_over (m : HM N) : bool :=
  match m empty with
  | Done r h =>
      match drop_all (r :: map snd (binds (aux h)) ++ [ichan (aux h); ochan (aux h)]) h with
      | Done tt h' => existsb (fun a => negb (gone h' a)) (addresses h')
      | _ => false
      end
  | _ => false
  end.
Lemma left_over_run : forall m, left_over m = true -> exists r h h' a, m empty = Done r h /\
  drop_all (r :: map snd (binds (aux h)) ++ [ichan (aux h); ochan (aux h)]) h = Done tt h' /\ alive h' a.
Proof.
  intros m T. unfold left_over in T. destruct (m empty) as [r h| | | | |] eqn:E; try discriminate T.
  destruct (drop_all (r :: map snd (binds (aux h)) ++ [ichan (aux h); ochan (aux h)]) h) as [[] h'| | | | |] eqn:D; try discriminate T.
  apply existsb_exists in T. destruct T as [a [_ T]]. exists r, h, h', a. split; auto. split; auto.
  unfold alive. unfold gone in T. destruct (cells h' a); [discriminate|discriminate T].
Qed.
Lemma set_left_over : left_over (session no_any yes Nil 60 set_program) = true.
Proof. vm_compute. reflexivity. Qed.
Theorem C45_set_leaks_refuted : exists l r h h' a,
  session no_any yes Nil 60 l empty = Done r h /\
  drop_all (r :: map snd (binds (aux h)) ++ [ichan (aux h); ochan (aux h)]) h = Done tt h' /\
  alive h' a.
Proof. exists set_program. apply left_over_run. exact set_left_over. Qed.
Print Assumptions C45_set_leaks_refuted.

(** A recursive function over a shared list, run to its value; the heap is acyclic
    afterwards and shutting down empties it. *)
Definition sum_program : list atom := program
  ["(def sum (L R) (if (nil? L) R (sum (cdr L) (+ R (car L)))))"%string;
   "(setq LST (cons 1 (cons 2 (cons 3 NIL))))"%string;
   "(let ((A . LST) (B . LST)) (+ (sum A 0) (sum B 0)))"%string].
Definition ranked (h : heap) : bool := forallb (fun a => forallb (fun b => N.ltb b a) (fields_at h a)) (addresses h).
Definition ends_with (m : HM N) (z : Z) : bool :=
  match m empty with
  | Done r h => match cells h r with Some (mkcell _ _ _ (KNum y)) => Z.eqb y z && ranked h | _ => false end
  | _ => false
  end.
Lemma ranked_acyclic : forall h R, own h R -> ranked h = true -> acyclic h.
Proof.
  intros h R O T. exists N.to_nat. intros a b I. unfold ranked in T. rewrite forallb_forall in T.
  destruct (N.lt_ge_cases a (nxt h)) as [L|L].
  - apply addresses_in in L. specialize (T a L). rewrite forallb_forall in T. specialize (T b I). apply N.ltb_lt in T. lia.
  - exfalso. unfold fields_at in I. destruct (cells h a) eqn:E; [|destruct I].
    assert (alive h a) as Al by (unfold alive; congruence). apply (own_bounded _ _ _ O) in Al. lia.
Qed.
Lemma ends_with_run : forall m z, (match m empty with Done r h => holds h [r] | Freed => False | _ => True end) ->
  ends_with m z = true -> exists r h, m empty = Done r h /\ reads h r (Num z) /\ acyclic h.
Proof.
  intros m z W T. unfold ends_with in T. destruct (m empty) as [r h| | | | |]; try discriminate T.
  exists r, h. split; auto. destruct (cells h r) as [[k t w b]|] eqn:E; [|discriminate T]. destruct b; try discriminate T.
  apply andb_prop in T. destruct T as [T1 T2]. apply Z.eqb_eq in T1. subst.
  split; [eapply reads_num; eauto|]. eapply ranked_acyclic; eauto. apply (holds_own _ _ W).
Qed.
Lemma sum_ends : ends_with (session tidy yes Nil 60 sum_program) 12 = true.
Proof. vm_compute. reflexivity. Qed.
Example C45_example : exists r h, session tidy yes Nil 60 sum_program empty = Done r h /\
  reads h r (Num 12) /\ acyclic h.
Proof.
  apply ends_with_run; [|exact sum_ends].
  exact (C45_session_partial tidy yes Nil 60 sum_program eq_refl).
Qed.
(** [<-] on a local, a global and an unbound name, [def] of something else than a
    name, [out], [conc]: still correct, with the forgotten references listed. *)
Definition mixed_program : list atom := program
  ["(setq X (list 1 2 3))"%string; "(def 1 (A) A)"%string;
   "(let ((A . X)) (prog (<- 'A (cdr A)) (<- 'X 5) (<- 'UNBOUND 1) (out NIL (prin A)) (conc A X)))"%string].
Example C45_mixed : exists r h, session no_any yes Nil 60 mixed_program empty = Done r h /\
  List.length (lost (aux h)) = 4 /\ strays (aux h) = 1.
Proof.
  assert (T : match session no_any yes Nil 60 mixed_program empty with
              | Done _ h => Nat.eqb (List.length (lost (aux h))) 4 && Nat.eqb (strays (aux h)) 1
              | _ => false end = true) by (vm_compute; reflexivity).
  destruct (session no_any yes Nil 60 mixed_program empty) as [r h| | | | |]; try discriminate T.
  exists r, h. apply andb_prop in T. destruct T as [T1 T2]. split; auto. split; apply Nat.eqb_eq; assumption.
Qed.

(** ** C42 *)

(** The operands of [<-]: name, value, and the rest of the form, which set.c:14
    keeps (lib/mnml/std/set.c:12-15). *)
Definition operands (ev : N -> N -> HM N) (c any : N) : HM (N * N * N) :=
  x <- hcar any ;; sym <- ev c x ;; cdr <- hcdr any ;; y <- hcar cdr ;; val <- ev c y ;; done (sym, val, cdr).

Lemma operands_then : forall {B} ev c any (k : N -> N -> N -> HM B) h sym val cdr h2,
  operands ev c any h = Done (sym, val, cdr) h2 ->
  (x <- hcar any ;; sym <- ev c x ;; cdr <- hcdr any ;; y <- hcar cdr ;; val <- ev c y ;; k sym cdr val) h = k sym cdr val h2.
Proof.
  intros B ev c any k h sym val cdr h2 E. unfold operands, hbind_, done in *.
  destruct (hcar any h) as [x h3| | | | |]; try discriminate E.
  destruct (ev c x h3) as [s h4| | | | |]; try discriminate E.
  destruct (hcdr any h4) as [d h5| | | | |]; try discriminate E.
  destruct (hcar d h5) as [y h6| | | | |]; try discriminate E.
  destruct (ev c y h6) as [v h7| | | | |]; try discriminate E.
  injection E as -> -> -> ->. reflexivity.
Qed.
Lemma scan_first : forall n h s c kv, innermost h s c kv -> wp (scan n c s) (fun r h' => r = Some kv /\ h' = h) h.
Proof.
  induction n as [|n IH]; intros h s c kv I; [apply wp_dry|]. cbn [scan].
  inversion I as [c0 cc kv0 d ckv k v ck E1 B1 E2 B2 E3 B3|c0 cc kv' d ckv k v ck s' kv0 E1 B1 E2 B2 E3 B3 NE I']; subst.
  - unfold wp, CAR, key_is, hbind_, Heap.rd. rewrite E1, B1. unfold done. rewrite E2, B2, E3, B3.
    rewrite (proj2 (sym_match_eq s s) eq_refl). auto.
  - assert (IP : forall cd, cells h d = Some cd -> is_pair_c cd = true).
    { intros cd Ed. inversion I' as [? cc' ? ? ? ? ? ? F1 G1|? cc' ? ? ? ? ? ? ? ? F1 G1]; subst;
        rewrite Ed in F1; injection F1 as <-; unfold is_pair_c; rewrite G1; auto. }
    assert (Ad : alive h d).
    { inversion I' as [? cc' ? ? ? ? ? ? F1 G1|? cc' ? ? ? ? ? ? ? ? F1 G1]; subst; unfold alive; congruence. }
    unfold wp, CAR, CDR, key_is, test, hbind_, Heap.rd. rewrite E1, B1. unfold done. rewrite E2, B2, E3, B3.
    destruct (sym_match s' s) eqn:M; [apply sym_match_eq in M; congruence|]. rewrite E1, B1.
    unfold alive in Ad. destruct (cells h d) as [cd|] eqn:Ed; [|congruence]. rewrite (IP cd eq_refl). apply IH. auto.
Qed.
(** Dropping an atom that is not a pair concerns its own cell only. *)
Lemma drop_atom : forall h a c, cells h a = Some c -> is_pair_c c = false ->
  wp (X a) (fun _ h' => (forall b, b <> a -> cells h' b = cells h b) /\
    (forall c', cells h' a = Some c' -> body c' = body c) /\ aux h' = aux h) h \/ refs c = 0.
Proof.
  intros h a c E P. destruct (refs c) as [|r] eqn:Rc; [auto|left]. unfold wp, X. cbn [drop].
  unfold hbind_, Heap.rd, wr. rewrite E, Rc. cbv beta iota. rewrite E.
  assert (G1 : forall b x, b <> a -> cells (set_cell h a x) b = cells h b) by (intros; apply set_other; auto).
  destruct r as [|r].
  - assert (G2 : forall h1 k, cells h1 a = Some k ->
       (forall b, b <> a -> cells h1 b = cells h b) -> aux h1 = aux h ->
       match release a h1 with Done _ h' => (forall b, b <> a -> cells h' b = cells h b) /\
         (forall c', cells h' a = Some c' -> body c' = body c) /\ aux h' = aux h | Freed => False | _ => True end).
    { intros h1 k E1 F1 A1. unfold release. rewrite E1. split; [|split; [|exact A1]].
      - intros b N. rewrite set_other by auto. auto.
      - intros c'. rewrite set_same. discriminate. }
    unfold is_pair_c in P. destruct (body c); try discriminate P;
      (eapply G2; [apply set_same|intros; apply G1; auto|reflexivity]).
  - unfold done. split; [intros; apply G1; auto|split; [|reflexivity]]. intros c'. rewrite set_same. intro F. injection F as <-. reflexivity.
Qed.

(** When the name is bound in the scope, [<-] returns the previous value of the
    innermost binding, which now holds the new value; no other cell changes. *)
Theorem C42_local : forall allowed ev n c any h h2 sym val cdr s csym kv ckv k old frame,
  allowed UsesSet = true -> allowed AssignsAny = false ->
  operands ev c any h = Done (sym, val, cdr) h2 ->
  holds h2 ([sym; val; cdr] ++ frame) -> alive h2 c ->
  cells h2 sym = Some csym -> body csym = KSym s ->
  innermost h2 s c kv -> cells h2 kv = Some ckv -> body ckv = KPair k old ->
  match hrun_set allowed ev n c any h with
  | Done r h' => r = old /\ holds h' (old :: frame) /\
      (exists c', cells h' kv = Some c' /\ body c' = KPair k val) /\
      (forall a c c', a <> kv -> cells h2 a = Some c -> cells h' a = Some c' -> body c' = body c) /\
      binds (aux h') = binds (aux h2)
  | Freed => False
  | _ => True
  end.
Proof.
  intros allowed ev n c any h h2 sym val cdr s csym kv ckv k old frame US NA OP H Ac Es Bs I Ek Bk.
  apply wp_run. unfold hrun_set. apply wp_bind. unfold bar. rewrite US. apply wp_done.
  unfold wp. rewrite (operands_then ev c any _ h sym val cdr h2 OP).
  match goal with |- match ?m h2 with _ => _ end => change (wp m (fun r h' => r = old /\ holds h' (old :: frame) /\
      (exists c', cells h' kv = Some c' /\ body c' = KPair k val) /\
      (forall a c c', a <> kv -> cells h2 a = Some c -> cells h' a = Some c' -> body c' = body c) /\
      binds (aux h') = binds (aux h2)) h2) end.
  assert (NK : kv <> sym) by (intros ->; congruence).
  apply wp_bind. unfold forget.
  pose proof (wp_run _ _ _ (forget_spec allowed NA cdr h2 (sym :: val :: frame)
     ltac:(eapply holds_perm; [exact H|intro b; cbn [cnt app]; lia]) (or_introl US))) as F.
  unfold forget in F. unfold set_aux in F at 1. cbv iota in F. destruct F as [H3 _].
  unfold wp at 1, set_aux. set (h3 := mkheap (cells h2) (nxt h2) (with_lost (aux h2) (cdr :: lost (aux h2)))) in *.
  match goal with |- wp _ _ ?hh => change hh with h3 end.
  assert (I3 : innermost h3 s c kv) by (clear -I; induction I; econstructor; eauto).
  apply hs_test; [unfold alive; cbn; congruence|]. intros c0 E0. cbn in E0. rewrite Es in E0. injection E0 as <-.
  unfold is_sym_c. rewrite Bs. cbn [negb].
  apply hs_symbol; [unfold alive; cbn; congruence|]. intros c0 s0 E0 B0. cbn in E0. rewrite Es in E0. injection E0 as <-.
  rewrite Bs in B0. injection B0 as <-.
  apply wp_bind. eapply wp_mono; [apply (bar_any_spec allowed NA)|]. intros _ h' [-> NS]. cbn beta.
  assert (FL : wp (find_local n c s) (fun r h' => r = Some kv /\ h' = h3) h3).
  { unfold find_local. apply hs_test; [exact Ac|]. intros cc Ec.
    assert (is_nil_c cc = false) as ->.
    { inversion I3 as [? c1 ? ? ? ? ? ? F1 G1|? c1 ? ? ? ? ? ? ? ? F1 G1]; subst;
        rewrite F1 in Ec; injection Ec as <-; unfold is_nil_c; rewrite G1; auto. }
    apply scan_first. exact I3. }
  apply wp_bind. eapply wp_mono; [exact FL|]. intros l h' [-> ->]. cbv iota beta. apply wp_bind. unfold wp at 1. rewrite (CDR_run h3 kv ckv k old Ek Bk).
  assert (NP : named_pair h3 s kv).
  { clear - I3. induction I3 as [c cc kv d ckv k v ck E1 B1 E2 B2 E3 B3|]; auto. exists ckv, k, v, ck. auto. }
  apply wp_bind. pose proof (set_local_spec allowed NA kv s val ckv k old h3 (sym :: frame)
    ltac:(eapply holds_perm; [exact H3|intro b; cbn [cnt app]; lia]) NP NS Ek Bk) as W.
  unfold wp in W. unfold wp at 1. rewrite (set_cdr_run h3 kv ckv k old val Ek Bk) in *. destruct W as [H4 _].
  set (h4 := set_cell h3 kv (Some (with_body ckv (KPair k val)))) in *.
  assert (E4 : cells h4 sym = Some csym) by (unfold h4; rewrite set_other; auto).
  apply wp_bind.
  assert (P0 : 0 < refs csym) by (apply (counted _ _ (h_correct _ _ H4) _ _ E4)).
  assert (PC : is_pair_c csym = false) by (unfold is_pair_c; rewrite Bs; auto).
  destruct (drop_atom h4 sym csym E4 PC) as [W|W]; [|lia].
  assert (WX : wp (X sym) (fun _ h' => holds h' (old :: frame)) h4).
  { apply wp_tail. apply (hs_X allowed _ _ _ _ (old :: frame)); [eapply holds_perm; [exact H4|intro b; cbn [cnt app]; lia]|].
    intros h5 H5 _. apply wp_done. exact H5. }
  unfold wp in W, WX. unfold wp at 1. destruct (X sym h4) as [[] h5| | | | |]; auto.
  destruct W as [W1 [W2 W3]]. apply wp_done. split; auto. split; auto. split; [|split].
  - rewrite (W1 kv NK). unfold h4. rewrite set_same. eauto.
  - intros a ca ca' Na Ea Ea'. destruct (N.eq_dec a sym) as [->|NS'].
    + rewrite (W2 _ Ea'). congruence.
    + rewrite (W1 a NS') in Ea'. unfold h4 in Ea'. rewrite set_other in Ea' by auto. cbn in Ea'. congruence.
  - rewrite W3. reflexivity.
Qed.
Print Assumptions C42_local.
(** The second variable of a scope: (<- 'B (+ B 3)) where B is 2. *)
Definition scope2 : atom := Sexp.rd "((A . 1) (B . 2))".
Definition ev60 : N -> N -> HM N := heval no_any yes Nil 60.
Definition setup_of (b : HM unit) (p q : HM N) (ev : N -> N -> HM N) : HM (N * N * (N * N * N)) :=
  b ;;; c <- p ;; any <- q ;; o <- operands ev c any ;; done (c, any, o).
Notation set_setup := (setup_of (hboot no_any Nil) (plant scope2) (plant (Sexp.rd "('B (+ B 3))")) ev60).
Definition leads_to (h : heap) (c kv : N) : bool :=
  match cells h c with
  | Some (mkcell _ _ _ (KPair e d)) =>
      match cells h e with
      | Some (mkcell _ _ _ (KPair k v)) =>
          match cells h k with
          | Some (mkcell _ _ _ (KSym t)) => negb (sym_match t (sy "B")) &&
              match cells h d with
              | Some (mkcell _ _ _ (KPair e' _)) => N.eqb e' kv &&
                  match cells h e' with
                  | Some (mkcell _ _ _ (KPair k' _)) =>
                      match cells h k' with Some (mkcell _ _ _ (KSym t')) => sym_match t' (sy "B") | _ => false end
                  | _ => false
                  end
              | _ => false
              end
          | _ => false
          end
      | _ => false
      end
  | _ => false
  end.
Lemma leads_innermost : forall h c kv, leads_to h c kv = true -> innermost h (sy "B") c kv.
Proof.
  intros h c kv T. unfold leads_to in T.
  destruct (cells h c) as [[r1 t1 w1 b1]|] eqn:E1; [|discriminate T]. destruct b1 as [| | | | | |e d]; try discriminate T.
  destruct (cells h e) as [[r2 t2 w2 b2]|] eqn:E2; [|discriminate T]. destruct b2 as [| | | | | |k v]; try discriminate T.
  destruct (cells h k) as [[r3 t3 w3 b3]|] eqn:E3; [|discriminate T]. destruct b3 as [| | | | |t|]; try discriminate T.
  apply andb_prop in T. destruct T as [T1 T].
  destruct (cells h d) as [[r4 t4 w4 b4]|] eqn:E4; [|discriminate T]. destruct b4 as [| | | | | |e' d']; try discriminate T.
  apply andb_prop in T. destruct T as [T2 T]. apply N.eqb_eq in T2. subst e'.
  destruct (cells h kv) as [[r5 t5 w5 b5]|] eqn:E5; [|discriminate T]. destruct b5 as [| | | | | |k' v']; try discriminate T.
  destruct (cells h k') as [[r6 t6 w6 b6]|] eqn:E6; [|discriminate T]. destruct b6 as [| | | | |t'|]; try discriminate T.
  apply sym_match_eq in T. subst t'.
  apply inner_next with (cc := mkcell r1 t1 w1 (KPair e d)) (kv' := e) (d := d) (ckv := mkcell r2 t2 w2 (KPair k v)) (k := k) (v := v)
    (ck := mkcell r3 t3 w3 (KSym t)) (s' := t); auto.
  - intros ->. rewrite (proj2 (sym_match_eq (sy "B") (sy "B")) eq_refl) in T1. discriminate T1.
  - apply inner_here with (cc := mkcell r4 t4 w4 (KPair kv d')) (d := d') (ckv := mkcell r5 t5 w5 (KPair k' v')) (k := k') (v := v')
      (ck := mkcell r6 t6 w6 (KSym (sy "B"))); auto.
Qed.
Lemma set_setup_holds : wp set_setup (fun o h => match o with (c, any, (sym, val, cdr)) =>
  holds h ([sym; val; cdr] ++ [any; c]) end) empty.
Proof.
  unfold setup_of. apply wp_bind. eapply wp_mono; [apply (boot_ok no_any eq_refl yes Nil)|]. intros _ h [H [Z _]]. cbn beta.
  apply (hs_plant no_any _ _ _ _ _ H). intros c h1 H1 S1 _.
  apply (hs_plant no_any _ _ _ _ _ H1). intros any h2 H2 S2 _.
  assert (A : at_ no_any h h2 [any; c]).
  { constructor; auto; [eapply step_trans; eauto|]. pose proof (l_opens _ _ _ (proj2 S1)). pose proof (l_opens _ _ _ (proj2 S2)). lia. }
  unfold operands. apply wp_assoc.
  apply (hs_car no_any _ _ _ _ _ (at_holds _ _ _ _ A)); [eapply at_alive; [exact A|cbn; auto]|]. intros x h3 H3 S3 _ _.
  assert (A3 : at_ no_any h h3 [x; any; c]) by (eapply at_next; eauto).
  apply wp_assoc. apply wp_bind. eapply wp_mono; [apply (heval_ok no_any eq_refl yes Nil 60 c x h h3 [any; c] A3); cbn; auto|].
  intros sym h4 A4. cbn beta in *. apply wp_assoc.
  apply (hs_cdr no_any _ _ _ _ _ (at_holds _ _ _ _ A4)); [eapply at_alive; [exact A4|cbn; auto]|]. intros d h5 H5 S5 _ _.
  assert (A5 : at_ no_any h h5 [d; sym; any; c]) by (eapply at_next; eauto). apply wp_assoc.
  apply (hs_car no_any _ _ _ _ _ (at_holds _ _ _ _ A5)); [eapply at_alive; [exact A5|cbn; auto]|]. intros y h6 H6 S6 _ _.
  assert (A6 : at_ no_any h h6 [y; d; sym; any; c]) by (eapply at_next; eauto). apply wp_assoc.
  apply wp_bind. eapply wp_mono; [apply (heval_ok no_any eq_refl yes Nil 60 c y h h6 _ A6); cbn; auto|].
  intros val h7 A7. cbn beta in *. apply hs_done. apply wp_done.
  eapply holds_perm; [exact (at_holds _ _ _ _ A7)|]. intro b. cbn [cnt app]. lia.
Qed.
Lemma bind_done : forall {A B} (m : HM A) (k : A -> HM B) h r h', hbind_ m k h = Done r h' ->
  exists a h1, m h = Done a h1 /\ k a h1 = Done r h'.
Proof. intros A B m k h r h' E. unfold hbind_ in E. destruct (m h) as [a h1| | | | |]; try discriminate E. eauto. Qed.
Lemma setup_done : forall b p q ev c any o h2, setup_of b p q ev empty = Done (c, any, o) h2 ->
  exists h, operands ev c any h = Done o h2.
Proof.
  intros b p q ev c any o h2 E.
  unfold setup_of in E. apply bind_done in E. destruct E as [u [h3 [_ E]]].
  apply bind_done in E. destruct E as [c' [h4 [_ E]]]. apply bind_done in E. destruct E as [any' [h [_ E]]].
  apply bind_done in E. destruct E as [o' [h5 [E1 E2]]]. unfold done in E2. injection E2 as -> -> -> ->. eauto.
Qed.
Definition set_case (m : HM (N * N * (N * N * N))) : bool :=
  match m empty with
  | Done (c, any, (sym, val, cdr)) h =>
      negb (gone h c) && leads_to h c (match cells h c with
           | Some (mkcell _ _ _ (KPair _ d)) => match cells h d with Some (mkcell _ _ _ (KPair e _)) => e | _ => 0%N end
           | _ => 0%N end) &&
      match cells h sym with Some (mkcell _ _ _ (KSym t)) => sym_match t (sy "B") | _ => false end &&
      match cells h val with Some (mkcell _ _ _ (KNum z)) => Z.eqb z 5 | _ => false end
  | _ => false
  end.
Lemma set_case_run : forall m, set_case m = true -> exists c any sym val cdr h kv csym, m empty = Done (c, any, (sym, val, cdr)) h /\
  alive h c /\ innermost h (sy "B") c kv /\ cells h sym = Some csym /\ body csym = KSym (sy "B") /\ reads h val (Num 5).
Proof.
  intros m T. unfold set_case in T. destruct (m empty) as [[[c any] [[sym val] cdr]] h| | | | |]; try discriminate T.
  apply andb_prop in T. destruct T as [T T4]. apply andb_prop in T. destruct T as [T T3]. apply andb_prop in T. destruct T as [T1 T2].
  apply leads_innermost in T2.
  destruct (cells h sym) as [[r t w b]|] eqn:E; [|discriminate T3]. destruct b as [| | | | |s'|]; try discriminate T3.
  apply sym_match_eq in T3. subst s'.
  destruct (cells h val) as [[r' t' w' b']|] eqn:E'; [|discriminate T4]. destruct b' as [| | | |z| |]; try discriminate T4.
  apply Z.eqb_eq in T4. subst z.
  eexists; exists any, sym, val, cdr, h; eexists; eexists. split; [reflexivity|]. split; [clear - T1; unfold alive, gone in *; destruct (cells h c); [discriminate|discriminate T1]|].
  split; [exact T2|]. split; [exact E|]. split; auto. eapply reads_num; eauto.
Qed.
Lemma set_case_ok : set_case set_setup = true.
Proof. vm_compute. reflexivity. Qed.
Example C42_local_example : exists c any h h2 sym val cdr csym kv,
  operands ev60 c any h = Done (sym, val, cdr) h2 /\
  holds h2 ([sym; val; cdr] ++ [any; c]) /\ alive h2 c /\ cells h2 sym = Some csym /\ body csym = KSym (sy "B") /\
  innermost h2 (sy "B") c kv /\ reads h2 val (Num 5).
Proof.
  destruct (set_case_run _ set_case_ok) as [c [any [sym [val [cdr [h2 [kv [csym [E [A [I [Es [Bs V]]]]]]]]]]]]].
  pose proof (wp_run _ _ _ set_setup_holds) as W. rewrite E in W.
  destruct (setup_done _ _ _ _ _ _ _ _ E) as [h OP].
  exists c, any, h, h2, sym, val, cdr, csym, kv. repeat (split; [assumption|]). assumption.
Qed.
