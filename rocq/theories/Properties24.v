(** * Property C101: the types of a name taken together in the compiler (cps.l). *)
From Verif Require Import Base Value ValueSpec ValueProofs Tails Print Eval Sexp EvalSpec EvalProofs
  Sem1 Sem2 Sem3 Sem4 Sem5 TailsProofs TailsSem BuiltinSpec Sem6 Cases Lib LibSpec LibBase LibProofs LibDerived LibMore LibAssoc LibNum LibCases
  Install CcSpec CcProofs Cc2Spec Cc3Proofs Cc4Proofs.
From Verif Require Properties22.
Open Scope nat_scope.
Open Scope list_scope.

(** Marks that agree, after any number of marks that leave the type open (the last mark
    comes first in the list), give the type; no marks give NIL. Missing: marks that leave
    the type open after one that does not. *)
Theorem C101_agree_partial : forall O t n m c w, increasing c -> ready5 c w ->
  applied O c (lib5 "cps:type:fold1") [mk_list (map (Sym false) (repeat t (S n) ++ repeat (sy "UNDEF") m))] w (Ret (Symb t) w) /\
  applied O c (lib5 "cps:type:fold1") [Nil] w (Ret Nil w).
Proof.
  intros O t n m c w I R. split; [|exact (fold_ok O [] c w I R)].
  rewrite <- (settled_same t n m). apply fold_ok; auto.
Qed.
Print Assumptions C101_agree_partial.
(** All other marks give ERROR. *)
Theorem C101_conflict : forall O ts c w, ts <> [] -> (forall t n m, ts <> repeat t (S n) ++ repeat (sy "UNDEF") m) ->
  increasing c -> ready5 c w ->
  applied O c (lib5 "cps:type:fold1") [mk_list (map (Sym false) ts)] w (Ret (Symb (sy "ERROR")) w).
Proof.
  intros O ts c w N1 N2 I R. destruct (settled_cases ts) as [E|[[t [n [m E]]]|E]]; [contradiction|exfalso; eapply N2; exact E|].
  rewrite <- E. apply fold_ok; auto.
Qed.
Print Assumptions C101_conflict.
(** In particular two different types, none of them open. *)
Theorem C101_different : forall O ts t u c w, In t ts -> In u ts -> t <> u -> ~ In (sy "UNDEF") ts -> increasing c -> ready5 c w ->
  applied O c (lib5 "cps:type:fold1") [mk_list (map (Sym false) ts)] w (Ret (Symb (sy "ERROR")) w).
Proof.
  intros O ts t u c w A B D N I R. apply C101_conflict; auto; [intros ->; destruct A|]. intros v n m E. apply D.
  assert (M : m = 0). { destruct m as [|m]; [reflexivity|]. exfalso. apply N. rewrite E. apply in_or_app. right. left. reflexivity. }
  subst m. rewrite E in A, B. cbn [repeat] in A, B. rewrite app_nil_r in A, B.
  transitivity v; [apply (repeat_spec (S n) v t A)|symmetry; apply (repeat_spec (S n) v u B)].
Qed.
Print Assumptions C101_different.

(** cps:type:fold does this for each name of an association list, in its order. *)
Theorem C101_all : forall O (l : list (symbol * list symbol)), exists r,
  Forall2 (fun p q => fst q = Symb (fst p) /\ outcome (snd p) (snd q)) l r /\
  forall c w, increasing c -> ready5 c w ->
    applied O c (lib5 "cps:type:fold") [alist (map (fun p => (Symb (fst p), mk_list (map (Sym false) (snd p)))) l)] w (Ret (alist r) w).
Proof.
  intros O l. exists (map result l). split.
  - induction l as [|p l IH]; [constructor|]. cbn [map]. constructor; [|exact IH]. split; [reflexivity|apply settled_outcome].
  - intros c w I R. exact (all_ok O l c w I R).
Qed.
Print Assumptions C101_all.

(** A mark that leaves the type open is ignored before another mark but is an error after it. *)
Theorem C101_open_refuted :
  value "(cps:type:fold1 (assoc 'x (cps:type:mark 'x 'NUMBER (cps:type:mark 'x 'UNDEF NIL))))" library3 = Some (Symb (sy "NUMBER")) /\
  value "(cps:type:fold1 (assoc 'x (cps:type:mark 'x 'UNDEF (cps:type:mark 'x 'NUMBER NIL))))" library3 = Some (Symb (sy "ERROR")).
Proof. split; vm_compute; reflexivity. Qed.
Print Assumptions C101_open_refuted.

Example C101_case : ready5 here library3 /\ increasing here /\
  (forall t n m, [sy "NUMBER"; sy "LIST"; sy "NUMBER"] <> repeat t (S n) ++ repeat (sy "UNDEF") m) /\
  In (sy "NUMBER") [sy "NUMBER"; sy "LIST"] /\ In (sy "LIST") [sy "NUMBER"; sy "LIST"] /\ ~ In (sy "UNDEF") [sy "NUMBER"; sy "LIST"] /\
  value "(cps:type:fold1 '(NUMBER LIST NUMBER))" library3 = Some (Symb (sy "ERROR")) /\
  value "(cps:type:fold1 '(LIST LIST UNDEF))" library3 = Some (Symb (sy "LIST")) /\
  value "(cps:type:fold '((x NUMBER UNDEF) (y LIST NUMBER) (z)))" library3 = Some (rd "((x . NUMBER) (y . ERROR) (z))").
Proof.
  split; [exact Properties22.here_ready5|]. split; [exact here_increasing|]. split.
  - intros t n m E. destruct n as [|n].
    + destruct m as [|m]; [discriminate E|]. injection E as _ E _. vm_compute in E. discriminate E.
    + injection E as E1 E2 _. rewrite <- E1 in E2. vm_compute in E2. discriminate E2.
  - split; [cbn [In]; auto|]. split; [cbn [In]; auto|]. split.
    + intros [E|[E|[]]]; vm_compute in E; discriminate E.
    + ands; vm_compute; reflexivity.
Qed.
