(** * Property C100: marking types in the compiler (cps.l). *)
From Verif Require Import Base Value ValueSpec ValueProofs Tails Print Eval Sexp EvalSpec EvalProofs
  Sem1 Sem2 Sem3 Sem4 Sem5 TailsProofs TailsSem BuiltinSpec Sem6 Cases Lib LibSpec LibBase LibProofs LibDerived LibMore LibAssoc LibNum LibCases
  Install CcSpec CcProofs Cc2Spec Cc2Proofs.
From Verif Require Properties22.
Open Scope nat_scope.
Open Scope list_scope.

(** cps:replace puts the next continuation in the place of the last argument, if there is one. *)
Theorem C100_replace : forall O l a n c w, n <> Nil -> increasing c -> ready5 c w ->
  applied O c (lib5 "cps:replace") [n; mk_list (l ++ [a])] w (Ret (mk_list (l ++ [n])) w) /\
  applied O c (lib5 "cps:replace") [Nil; mk_list l] w (Ret (mk_list l) w).
Proof. intros. split; [apply next_ok; auto|apply next_none; auto]. Qed.
Print Assumptions C100_replace.

Lemma names_kept : forall ns, kept "value" (mk_list (map (Sym false) ns)).
Proof. intro ns. left. destruct ns as [|a [|b [|c ns]]]; reflexivity. Qed.
Lemma typed_quiet : forall l, typed l -> Forall (fun p : atom * atom => is_tail_call (fst p) = false /\ is_tail_call (snd p) = false) l.
Proof.
  intros l T. eapply Forall_impl; [|exact T]. intros [x v] [[k E1] [ns E2]]. cbn [fst snd] in *. subst. split; [reflexivity|apply mk_quiet].
Qed.
Lemma finds_typed : forall k l v, finds k l v -> typed l -> exists ns, v = mk_list (map (Sym false) ns).
Proof.
  intros k l v H. induction H as [|k1 v l E|k1 v l r E H IH]; intro T; [exists []; reflexivity| |]; inversion T; subst; [|auto].
  match goal with X : _ /\ _ |- _ => destruct X as [_ X]; exact X end.
Qed.
Lemma replaced_typed : forall k t ns l r, replaced (Symb k) (mk_list (map (Sym false) (t :: ns))) l r -> typed l -> typed r.
Proof.
  intros k t ns l r H. induction H as [|k1 v l r E H IH|k1 v l r E H IH]; intro T; [constructor| |]; inversion T; subst; constructor; try (apply IH; auto).
  - split; [exists k; reflexivity|exists (t :: ns); reflexivity].
  - auto.
Qed.

(** A type marked goes in front of those the name has; the other names keep theirs. *)
Theorem C100_mark : forall O k t l, typed l -> exists r, typed r /\
  (forall v, finds (Symb k) l v -> finds (Symb k) r (Cons (Symb t) v)) /\
  (forall j v, j <> k -> finds (Symb j) l v -> finds (Symb j) r v) /\
  forall c w, increasing c -> ready5 c w ->
    applied O c (lib5 "cps:type:mark") [Symb k; Symb t; alist l] w (Ret (alist r) w).
Proof.
  intros O k t l T. destruct (finds_total (Symb k) l) as [v F]. destruct (finds_typed _ _ _ F T) as [ns E].
  assert (U : forall v', finds (Symb k) l v' -> v' = v).
  { clear -F. intros v' G. revert G. induction F as [|k1 v l E|k1 v l r E H IH]; intro G; inversion G; subst; auto; contradiction. }
  assert (Q : kept "value" v) by (subst v; apply names_kept).
  destruct ns as [|n ns].
  - exists ((Symb k, mk_list [Symb t]) :: l). cbn [map mk_list] in E. split; [|split; [|split]].
    + constructor; [|exact T]. split; [exists k; reflexivity|exists [t]; reflexivity].
    + intros v' G. rewrite (U v' G), E. apply finds_here. apply same_refl.
    + intros j v' N G. apply finds_later; [|exact G]. intro X. inversion X. congruence.
    + intros c w I R. eapply mark_ok; [reflexivity|exact F|exact Q|apply typed_quiet; exact T| |exact I|exact R]. left. auto.
  - assert (N : v <> Nil) by (subst v; discriminate). destruct (replaced_total (Symb k) (Cons (Symb t) v) l) as [r H]. exists r. split; [|split; [|split]].
    + eapply (replaced_typed k t (n :: ns)); [|exact T]. subst v. exact H.
    + intros v' G. rewrite (U v' G). exact (replaced_finds _ _ _ _ _ H F N).
    + intros j v' D G. eapply replaced_others; [exact H| |exact G]. intro X. inversion X. congruence.
    + intros c w I R. eapply mark_ok; [reflexivity|exact F|exact Q|apply typed_quiet; exact T| |exact I|exact R]. right. auto.
Qed.
Print Assumptions C100_mark.
(** What is not a name is not marked. *)
Theorem C100_constant : forall O k t l c w, (forall b n, k <> Sym b n) -> increasing c -> ready5 c w ->
  applied O c (lib5 "cps:type:mark") [k; t; alist l] w (Ret (alist l) w).
Proof. intros O k t l c w N I R. apply mark_other; auto. destruct k; try reflexivity. exfalso. eapply N. reflexivity. Qed.
Print Assumptions C100_constant.

(** After any marks, each name has the types it was marked with, the last one first. *)
Theorem C100_marks : forall O ms, exists l, 
  (forall c w, increasing c -> ready5 c w -> marked O c w ms (alist l)) /\ typed l /\
  forall k ts, types_of k ms ts -> finds (Symb k) l (mk_list (map (Sym false) ts)).
Proof.
  intros O ms. induction ms as [|[k t] ms IH] using rev_ind.
  - exists []. split; [intros; constructor|]. split; [constructor|]. intros k ts H. inversion H; subst; [constructor| |]; destruct ms; discriminate.
  - destruct IH as [l [M [T F]]]. destruct (C100_mark O k t l T) as [r [T' [F1 [F2 A]]]]. exists r. split; [|split; [exact T'|]].
    + intros c w I R. apply marked_snoc with (alist l); auto.
    + intros j ts H. inversion H as [E|ms' u ts' H' E|ms' j' u ts' D H' E]; subst.
      * destruct ms; discriminate.
      * apply app_inj_tail in E. destruct E as [-> E]. injection E as -> ->. apply F1. apply F. exact H'.
      * apply app_inj_tail in E. destruct E as [-> E]. injection E as -> ->. apply F2; [congruence|]. apply F. exact H'.
Qed.
Print Assumptions C100_marks.

(** ** Cases *)
Example C100_case : ready5 here library3 /\ increasing here /\ 
  typed [(Symb (sy "x"), mk_list (map (Sym false) [sy "NUMBER"])); (Symb (sy "y"), Nil)] /\
  types_of (sy "x") [(sy "x", sy "LIST"); (sy "y", sy "LIST"); (sy "x", sy "NUMBER")] [sy "NUMBER"; sy "LIST"] /\
  value "(cps:replace 'k2 '(f 1 k1))" library3 = Some (rd "(f 1 k2)") /\ value "(cps:replace NIL '(f 1 k1))" library3 = Some (rd "(f 1 k1)") /\
  value "(cps:type:mark 'x 'NUMBER (cps:type:mark 'y 'LIST (cps:type:mark 'x 'LIST NIL)))" library3 =
    Some (rd "((y LIST) (x NUMBER LIST))") /\
  value "(cps:type:mark 7 'NUMBER '((y LIST)))" library3 = Some (rd "((y LIST))").
Proof.
  split; [exact Properties22.here_ready5|]. split; [exact here_increasing|]. split.
  - constructor; [|constructor; [|constructor]].
    + split; [exists (sy "x"); reflexivity|exists [sy "NUMBER"]; reflexivity].
    + split; [exists (sy "y"); reflexivity|exists []; reflexivity].
  - split.
    + apply (types_same (sy "x") [(sy "x", sy "LIST"); (sy "y", sy "LIST")]).
      apply (types_other (sy "x") [(sy "x", sy "LIST")]); [vm_compute; discriminate|]. apply (types_same (sy "x") []). constructor.
    + ands; vm_compute; reflexivity.
Qed.
