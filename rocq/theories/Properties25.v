(** * Property C102: the type of an operand in the compiler (cps.l). *)
From Verif Require Import Base Value ValueSpec ValueProofs Tails Print Eval Sexp EvalSpec EvalProofs
  Sem1 Sem2 Sem3 Sem4 Sem5 TailsProofs TailsSem BuiltinSpec Sem6 Cases Lib LibSpec LibBase LibProofs LibDerived LibMore LibAssoc LibNum LibCases
  Install CcSpec CcProofs Cc2Spec Cc2Proofs Cc3Proofs Cc4Proofs Cc5Proofs.
From Verif Require Properties22 Properties23.
Open Scope nat_scope.
Open Scope list_scope.

(** Constants have the type of their kind, names what their marks give, ATOM without marks. *)
Theorem C102_get : forall O l v r c w, typed l -> operand l v r -> increasing c -> ready5 c w ->
  applied O c (lib5 "cps:type:get") [v; alist l] w (Ret r w).
Proof. intros O l v r c w T H I R. apply get_ok; auto. apply Properties23.typed_quiet. exact T. Qed.
Print Assumptions C102_get.
(** Each operand has exactly one type. *)
Theorem C102_one : forall l v, typed l -> (forall n, v <> Sym true n) -> exists r, operand l v r /\ forall r', operand l v r' -> r' = r.
Proof.
  intros l v T N.
  assert (U : forall k u u', finds k l u -> finds k l u' -> u' = u).
  { clear. intros k u u' F G. revert G. induction F as [|k1 v l E|k1 v l r E H IH]; intro G; inversion G; subst; auto; contradiction. }
  assert (MI : forall a b, mk_list (map (Sym false) a) = mk_list (map (Sym false) b) -> a = b).
  { clear. induction a as [|x a IH]; intros [|y b] E; try discriminate E; [reflexivity|]. cbn [map mk_list] in E. injection E as -> E. f_equal. auto. }
  destruct v as [| | |z|z|b k|t a d].
  - eexists. split; [apply operand_nil|]. intros r' H. inversion H; subst; try reflexivity; congruence.
  - eexists. split; [apply operand_true|]. intros r' H. inversion H as [| |v N1 N2 E| | | | | |]; subst; try reflexivity. inversion N2.
  - eexists. split; [apply operand_wild|]. intros r' H. inversion H as [| |v N1 N2 E| | | | | |]; subst; try reflexivity. inversion N2.
  - eexists. split; [apply operand_chr|]. intros r' H. inversion H as [| |v N1 N2 E| | | | | |]; subst; try reflexivity. inversion N2.
  - eexists. split; [apply operand_num|]. intros r' H. inversion H as [| |v N1 N2 E| | | | | |]; subst; try reflexivity. inversion N2.
  - destruct b; [exfalso; eapply N; reflexivity|]. destruct (finds_total (Symb k) l) as [v F].
    destruct (Properties23.finds_typed _ _ _ F T) as [ts ->]. destruct ts as [|a ts].
    + eexists. split; [apply operand_free; exact F|]. intros r' H. inversion H as [| |v N1 N2 E|k' F'|k' ts r N1 F' X| | | |]; subst; [inversion N2|reflexivity|].
      specialize (U _ _ _ F F'). exfalso. apply N1. apply MI. exact U.
    + exists (settled (a :: ts)). split; [eapply operand_name; [|exact F|apply settled_outcome]; discriminate|].
      intros r' H. inversion H as [| |v N1 N2 E|k' F'|k' ts' r N1 F' X| | | |]; subst; [inversion N2| |].
      * specialize (U _ _ _ F F'). discriminate U.
      * specialize (U _ _ _ F F'). apply MI in U. subst ts'. symmetry. apply outcome_settled. exact X.
  - destruct (is_string (Pair t a d)) eqn:S'.
    + apply text_is_string in S'. eexists. split; [apply operand_text; [discriminate|exact S']|].
      intros r' H. inversion H; subst; try reflexivity. contradiction.
    + assert (NS : ~ text_value (Pair t a d)) by (intro X; apply text_is_string in X; congruence).
      eexists. split; [apply operand_pair; exact NS|]. intros r' H. inversion H; subst; try reflexivity. contradiction.
Qed.
Print Assumptions C102_one.
(** After any marks, the type of a name that was marked is what its marks give together,
    that of any other name ATOM. *)
Theorem C102_marks : forall O ms, exists l,
  (forall c w, increasing c -> ready5 c w -> marked O c w ms (alist l)) /\
  forall k ts r c w, types_of k ms ts -> (ts <> [] /\ outcome ts r \/ ts = [] /\ r = Symb (sy "ATOM")) -> increasing c -> ready5 c w ->
    applied O c (lib5 "cps:type:get") [Symb k; alist l] w (Ret r w).
Proof.
  intros O ms. destruct (Properties23.C100_marks O ms) as [l [M [T F]]]. exists l. split; [exact M|].
  intros k ts r c w H [[N X]|[-> ->]] I R; apply C102_get; auto.
  - eapply operand_name; [exact N|apply F; exact H|exact X].
  - apply operand_free. exact (F k [] H).
Qed.
Print Assumptions C102_marks.

Example C102_case : ready5 here library3 /\ increasing here /\
  typed [(Symb (sy "x"), mk_list (map (Sym false) [sy "LIST"; sy "UNDEF"]))] /\
  operand [(Symb (sy "x"), mk_list (map (Sym false) [sy "LIST"; sy "UNDEF"]))] (Symb (sy "x")) (Symb (sy "LIST")) /\
  operand [] (mk_chars [97%Z]) (Symb (sy "STRING")) /\
  types_of (sy "x") [(sy "x", sy "UNDEF"); (sy "x", sy "LIST")] [sy "LIST"; sy "UNDEF"] /\
  value "(cps:type:get 'x '((x LIST UNDEF)))" library3 = Some (Symb (sy "LIST")) /\
  value "(cps:type:get 'y '((x LIST UNDEF)))" library3 = Some (Symb (sy "ATOM")) /\
  value "(cps:type:get 7 '((x LIST UNDEF)))" library3 = Some (Symb (sy "NUMBER")) /\
  value "(cps:type:get (str 'ab) NIL)" library3 = Some (Symb (sy "STRING")) /\
  value "(cps:type:get '(1 2) NIL)" library3 = Some (Symb (sy "ATOM")).
Proof.
  split; [exact Properties22.here_ready5|]. split; [exact here_increasing|]. split.
  - constructor; [|constructor]. split; [exists (sy "x"); reflexivity|exists [sy "LIST"; sy "UNDEF"]; reflexivity].
  - split; [|split; [|split]].
    + eapply (operand_name _ _ [sy "LIST"; sy "UNDEF"]); [discriminate|apply finds_here; apply same_refl|apply (outcome_type (sy "LIST") 0 1)].
    + apply operand_text; [discriminate|]. repeat constructor.
    + apply (types_same (sy "x") [(sy "x", sy "UNDEF")]). apply (types_same (sy "x") []). constructor.
    + ands; vm_compute; reflexivity.
Qed.
