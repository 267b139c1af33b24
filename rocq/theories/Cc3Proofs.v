(** * Cc3Proofs: cps:type:fold1. *)
From Verif Require Import Base Value ValueSpec ValueProofs Tails Print Eval EvalSpec EvalProofs
  Sem1 Sem2 Sem3 Sem4 Sem5 TailsProofs TailsSem BuiltinSpec Sem6 Cases Lib LibSpec LibBase LibProofs LibDerived LibMore LibAssoc LibNum
  Lib2Proofs Install CcSpec CcProofs.
Open Scope nat_scope.

Notation undef := (sym "UNDEF").
Notation error := (sym "ERROR").
Notation fold_fun :=
  (| sym "if"; (| sym "or"; (| sym "nil?"; sym "acc" |);
                            (| sym "or"; (| sym "="; sym "e"; sym "acc" |); (| sym "="; sym "acc"; Cons (sym "quote") undef |) |) |);
     sym "e"; Cons (sym "quote") error |).
Notation fold_body := (| sym "foldr"; Cons (sym "\") (Cons (pars ["e"; "acc"]%string) (mk_list [fold_fun])); sym "lst"; Nil |).
Lemma lib5_fold : lib5 "cps:type:fold1" = lam (pars ["lst"]%string) [] [fold_body].
Proof. vm_compute. reflexivity. Qed.

(** One step of the fold, and the whole (proof only). *)
Definition settle (e r : atom) : atom := if (is_null r || (equ e r || equ r undef))%bool then e else error.
Definition settling : behaviour :=
  pure (fun vs b => exists e r, vs = [e; r] /\ is_tail_call e = false /\ b = settle e r).
Fixpoint settled (l : list symbol) : atom := match l with [] => Nil | a :: l => settle (Symb a) (settled l) end.
Lemma settled_fold : forall l w, folds_right settling Nil (map (Sym false) l) w (settled l) w.
Proof.
  induction l as [|a l IH]; intro w; cbn [map settled]; [constructor|]. eapply fr_cons; [apply IH|]. split; [|auto].
  exists (Symb a), (settled l). auto.
Qed.
Lemma settle_quiet : forall e r, is_tail_call e = false -> is_tail_call (settle e r) = false.
Proof. intros e r Q. unfold settle. destruct (is_null r || _)%bool; auto. Qed.

Section Cc3.
Variable O : oracle.
Notation Runs := (runs O).
Lemma truth_null : forall b, negb (is_null (truth b)) = b.
Proof. destruct b; reflexivity. Qed.
Lemma settling_acts : forall c hid, increasing c -> clear_of hid (used ++ given) = true ->
  acts O c hid (lam (pars ["e"; "acc"]%string) c [fold_fun]) settling.
Proof.
  intros c hid I C. apply acts_fun; auto; [apply increasing_NoDup; auto|discriminate| |].
  - intros vs w b w' [[e [r [-> [Q ->]]]] ->]. split; [reflexivity|]. split; [apply settle_quiet; auto|auto].
  - intros S S' vs w b w' IS AP IN Rc R' [[e [r [-> [Q ->]]]] ->]. apply body_one.
    assert (E1 : Runs S' (sym "e") w (Ret e w)) by arg. assert (E2 : Runs S' (sym "acc") w (Ret r w)) by arg.
    eapply f_if with (v := truth (is_null r || (equ e r || equ r undef))) (w1 := w); [auto| |].
    + eapply f_or; [auto|one "nil?"%string; exact E2|]. change (val1 "nil?" r) with (truth (is_null r)).
      destruct (is_null r); cbn [truth is_null orb]; [split; reflexivity|].
      exists (truth (equ e r || equ r undef)). split; [|rewrite truth_null; reflexivity].
      eapply f_or; [auto|two "="%string; [exact E1|exact E2]|]. change (val2 "=" e r) with (truth (equ e r)).
      destruct (equ e r); cbn [truth is_null orb]; [split; reflexivity|].
      exists (truth (equ r undef)). split; [|rewrite truth_null; reflexivity].
      change (truth (equ r undef)) with (val2 "=" r undef). two "="%string; [exact E2|apply f_quote; auto].
    + unfold settle. destruct (is_null r || (equ e r || equ r undef))%bool; cbn [truth is_null car cdr]; [exact E1|]. apply f_quote. auto.
Qed.
Lemma fold_ok : forall l S w, increasing S -> ready5 S w ->
  applied O S (lib5 "cps:type:fold1") [mk_list (map (Sym false) l)] w (Ret (settled l) w).
Proof.
  intros l S w I R. rewrite lib5_fold. apply apply_fun0; [auto|auto|destruct l; [reflexivity|apply settle_quiet; reflexivity]|]. intros S' IN.
  assert (R5 : ready5 S' w) by (eapply inside_ready5; [exact IN|reflexivity|exact R]). assert (R' := proj1 R5).
  change (Runs S' (Pair false (sym "foldr") (mk_list
    [Cons (sym "\") (Cons (pars ["e"; "acc"]%string) (mk_list [fold_fun])); sym "lst"; Nil])) w (Ret (settled l) w)).
  eapply (call_foldr O S' (lam (pars ["e"; "acc"]%string) S' [fold_fun]) settling _ Nil w);
    [apply settling_acts; [apply IN|reflexivity]|apply settled_fold|reflexivity|apply IN|auto|auto|].
  apply list3 with w w; [apply f_lambda; auto|arg|apply f_const; auto].
Qed.
End Cc3.

(** ** What the fold gives *)
Lemma equ_name : forall a b : symbol, (equ (Symb a) (Symb b) = true /\ a = b) \/ (equ (Symb a) (Symb b) = false /\ a <> b).
Proof.
  intros a b. destruct (equ (Symb a) (Symb b)) eqn:E; [left|right]; (split; [reflexivity|]).
  - apply equ_same in E. inversion E. reflexivity.
  - intros ->. assert (X : equ (Symb b) (Symb b) = true) by (apply equ_same, same_refl). congruence.
Qed.
Lemma settled_undef : forall m, settled (repeat (sy "UNDEF") (S m)) = undef.
Proof. induction m as [|m IH]; [reflexivity|]. change (settle undef (settled (repeat (sy "UNDEF") (S m))) = undef). rewrite IH. vm_compute. reflexivity. Qed.
Lemma settle_name : forall a b : symbol, settle (Symb a) (Symb b) = if (equ (Symb a) (Symb b) || equ (Symb b) undef)%bool then Symb a else error.
Proof. reflexivity. Qed.
Lemma settled_same : forall t n m, settled (repeat t (S n) ++ repeat (sy "UNDEF") m) = Symb t.
Proof.
  intros t n m. induction n as [|n IH].
  - change (settle (Symb t) (settled (repeat (sy "UNDEF") m)) = Symb t). destruct m as [|m]; [reflexivity|]. rewrite settled_undef, settle_name.
    replace (equ undef undef) with true by (vm_compute; reflexivity). rewrite orb_true_r. reflexivity.
  - change (settle (Symb t) (settled (repeat t (S n) ++ repeat (sy "UNDEF") m)) = Symb t). rewrite IH, settle_name.
    destruct (equ_name t t) as [[-> _]|[_ X]]; [reflexivity|congruence].
Qed.
Lemma settled_cases : forall l, l = [] \/ (exists t n m, l = repeat t (S n) ++ repeat (sy "UNDEF") m) \/ settled l = error.
Proof.
  induction l as [|a l IH]; [auto|]. right. destruct IH as [->|[[t [n [m ->]]]|E]].
  - left. exists a, 0, 0. reflexivity.
  - destruct (equ_name a t) as [[_ ->]|[X N]].
    + left. exists t, (S n), m. reflexivity.
    + destruct (equ_name t (sy "UNDEF")) as [[_ ->]|[Y _]].
      * left. exists a, 0, (S n + m). rewrite <- repeat_app. reflexivity.
      * right. cbn [settled]. rewrite settled_same, settle_name, X, Y. reflexivity.
  - right. cbn [settled]. rewrite E, settle_name. destruct (equ_name a (sy "ERROR")) as [[-> ->]|[-> _]]; [reflexivity|]. vm_compute. reflexivity.
Qed.
