(** * LibCases: helpers for the concrete cases of the library properties, and the
    forms in which they are stated. *)
From Verif Require Import Base Value ValueSpec ValueProofs Tails Print Eval Sexp EvalSpec EvalProofs
  Sem1 Sem2 Sem3 Sem4 Sem5 TailsProofs TailsSem BuiltinSpec Sem6 Cases Lib LibSpec LibBase LibProofs LibDerived LibMore LibAssoc LibSort LibNum.
From Coq Require Import Sorted Permutation.
Open Scope nat_scope.
Open Scope list_scope.

(** ** The state after loading the library *)
Definition binds (e : env) (l : list string) : bool :=
  forallb (fun s => match env_get e (sy s) with Some _ => true | None => false end) l.
Definition avoids (e : env) (l : list string) : bool :=
  forallb (fun s => match env_get e (sy s) with Some _ => false | None => true end) l.
Lemma binds_means : forall c w l s, avoids c l = true -> binds (globals w) l = true -> In s l ->
  means c w (sy s) (match env_get (globals w) (sy s) with Some v => v | None => Nil end).
Proof.
  intros c w l s H G I. unfold avoids, binds in *. rewrite forallb_forall in H, G. specialize (H s I). specialize (G s I).
  apply means_lookup. unfold lookup. destruct (env_get c (sy s)); [discriminate|].
  destruct (env_get (globals w) (sy s)); [auto|discriminate].
Qed.
Lemma library_binds : binds (globals library) (used ++ given) = true.
Proof. vm_compute. reflexivity. Qed.
Lemma ready_scope : forall c, avoids c (used ++ given) = true -> ready c library.
Proof. intros c H s I. exact (binds_means c library (used ++ given) s H library_binds I). Qed.
(** A scope of the caller used in the cases. *)
Definition here : env := [(sy "k", Num 10); (sy "xs", mk_list [Num 3; Num 1; Num 2])].
Lemma here_ready : ready here library.
Proof. apply ready_scope. vm_compute. reflexivity. Qed.
Lemma here_increasing : increasing here.
Proof. repeat constructor. Qed.

(** ** Functions given as arguments *)
(** [(\ (x) (+ x k))] in the scope [here]. *)
Definition adder : atom := lam (pars ["x"]%string) here [(| sym "+"; sym "x"; sym "k" |)].
Definition adds : behaviour := pure (fun vs b => exists z, vs = [Num z] /\ b = Num (z + 10) /\ int64 (z + 10)).
Lemma adder_acts : forall O hid, clear_of hid (used ++ given) = true -> acts O here hid adder adds.
Proof.
  intros O hid C. apply acts_fun; auto.
  - apply increasing_NoDup, here_increasing.
  - discriminate.
  - intros vs w b w' [[z [-> [-> _]]] ->]. auto.
  - intros S S' vs w b w' I AP IN RC R [[z [-> [-> B]]] ->]. apply body_one.
    eapply (f_arith O "+"%string S') with (v1 := Num z) (w1 := w) (v2 := Num 10) (a := z) (b := 10%Z);
      [cbn; tauto|auto|arg|cap; reflexivity|reflexivity|reflexivity|constructor; auto].
Qed.
(** [(\ (a b) (+ a b))] in the scope [here]. *)
Definition summer : atom := lam (pars ["a"; "b"]%string) here [(| sym "+"; sym "a"; sym "b" |)].
Definition sums : behaviour := pure (fun vs b => exists x y, vs = [Num x; Num y] /\ b = Num (x + y) /\ int64 (x + y)).
Lemma summer_acts : forall O hid, clear_of hid (used ++ given) = true -> acts O here hid summer sums.
Proof.
  intros O hid C. apply acts_fun; auto.
  - apply increasing_NoDup, here_increasing.
  - discriminate.
  - intros vs w b w' [[x [y [-> [-> _]]]] ->]. auto.
  - intros S S' vs w b w' I AP IN RC R [[x [y [-> [-> B]]]] ->]. apply body_one.
    eapply (f_arith O "+"%string S') with (v1 := Num x) (w1 := w) (v2 := Num y) (a := x) (b := y);
      [cbn; tauto|auto|arg|arg|reflexivity|reflexivity|constructor; auto].
Qed.
(** The builtin [<], on numbers. *)
Definition number (v : atom) : Prop := exists z, v = Num z.
Definition number_lt (x y : atom) : atom :=
  match x, y with Num a, Num b => if (a <? b)%Z then Tru else Nil | _, _ => Nil end.
Lemma less_acts : forall O c hid, acts O c hid (the "<") (compares number number_lt).
Proof.
  intros O c hid. split.
  - intros S vs w b w' I AP R [[x [y [-> [[a ->] [[b' ->] ->]]]]] ->].
    eapply (apply_two O "<" 43%Z Plt); try reflexivity. apply conv_ret. reflexivity.
  - intros vs w b w' [[x [y [-> [[a ->] [[b' ->] ->]]]]] ->]. split; auto. cbn. destruct (a <? b')%Z; auto.
Qed.
Lemma less_weak : weak_order number number_lt.
Proof.
  split.
  - intros x y [a ->] [b ->]. cbn. destruct (Z.ltb_spec a b), (Z.ltb_spec b a); congruence || lia.
  - intros x y z [a ->] [b ->] [d ->]. cbn.
    destruct (Z.ltb_spec a b), (Z.ltb_spec b d), (Z.ltb_spec a d); congruence || lia.
Qed.
(** [strlt], on strings. *)
Definition text (v : atom) : Prop := exists l, v = mk_chars l.
Fixpoint chars_of (v : atom) : list Z :=
  match v with Pair _ (Chr c) d => c :: chars_of d | _ => [] end.
Lemma chars_of_mk : forall l, chars_of (mk_chars l) = l.
Proof. induction l as [|z l IH]; cbn; f_equal; auto. Qed.
Definition text_lt (x y : atom) : atom := truth (dictb (chars_of x) (chars_of y)).
Lemma strlt_acts : forall O c hid, clear_of hid (used ++ given) = true -> acts O c hid (lib "strlt") (compares text text_lt).
Proof.
  intros O c hid C. split.
  - intros S vs w b w' I AP R [[x [y [-> [[a ->] [[b' ->] ->]]]]] ->].
    unfold text_lt. rewrite !chars_of_mk. apply strlt_ok; auto. eapply ready_apart; eauto.
  - intros vs w b w' [[x [y [-> [_ [_ ->]]]]] ->]. split; auto. unfold text_lt. destruct dictb; auto.
Qed.
Lemma dictb_weak : (forall a b, dictb a b = true -> dictb b a = false) /\
  (forall a b d, dictb a b = false -> dictb b d = false -> dictb a d = false).
Proof.
  split.
  - induction a as [|x a IH]; intros [|y b]; cbn; auto; try discriminate.
    destruct (Z.ltb_spec x y), (Z.ltb_spec y x), (Z.eqb_spec x y), (Z.eqb_spec y x); cbn; try lia; auto; discriminate.
  - induction a as [|x a IH]; intros [|y b] [|z d]; cbn; auto; try discriminate.
    destruct (Z.ltb_spec x y), (Z.ltb_spec y z), (Z.ltb_spec x z), (Z.eqb_spec x y), (Z.eqb_spec y z), (Z.eqb_spec x z);
      cbn; try lia; auto; try discriminate; apply IH.
Qed.
Lemma strlt_weak : weak_order text text_lt.
Proof.
  destruct dictb_weak as [A T]. split.
  - intros x y _ _ H. unfold text_lt in *. destruct (dictb (chars_of x) (chars_of y)) eqn:E; [|cbn in H; congruence].
    rewrite (A _ _ E). auto.
  - intros x y z _ _ _. unfold text_lt. intros H1 H2. rewrite (T (chars_of x) (chars_of y) (chars_of z)); auto;
      match goal with |- ?b = false => destruct b; auto; discriminate end.
Qed.

(** ** Statements *)
Lemma pairs_combine : forall a b, mk_list (pairs a b) = alist (combine a b).
Proof.
  intros a b. unfold alist. f_equal. revert b. induction a as [|x a IH]; intros [|y b]; cbn; auto. rewrite IH. auto.
Qed.
Lemma prefix_pad : forall m l, prefix m l = firstn m l ++ repeat Nil (m - length l).
Proof. induction m as [|m IH]; intros [|a l]; cbn; auto; rewrite IH; auto. rewrite firstn_nil, Nat.sub_0_r. auto. Qed.
Lemma rev_prefix : forall m l, rev (prefix m (rev l)) = repeat Nil (m - length l) ++ skipn (length l - m) l.
Proof.
  intros m l. rewrite prefix_pad, rev_app_distr, rev_length. f_equal.
  - generalize (m - length l). induction n as [|n IH]; cbn; auto. rewrite IH.
    clear. induction n as [|n IH]; cbn; auto. rewrite IH. auto.
  - rewrite firstn_rev, rev_involutive. auto.
Qed.
Lemma builtin_alias : forall O s i h p, the s = builtin i h -> prim_of_addr i = Some p ->
  forall c k1 k2 t u1 u2 es w o, means c w k1 (the s) -> means c w k2 (the s) ->
  (runs O c (Pair t (Sym u1 k1) es) w o <-> runs O c (Pair t (Sym u2 k2) es) w o).
Proof.
  intros O s i h p E P c k1 k2 t u1 u2 es w o M1 M2. rewrite E in *.
  rewrite (runs_head O _ _ _ _ _ _ _ _ M1 (builtin_func i h)), (runs_head O _ _ _ _ _ _ _ _ M2 (builtin_func i h)).
  rewrite !(builtin_call O _ _ _ _ p) by auto. tauto.
Qed.
Lemma strlt_answer : forall O a b S w, increasing S -> ready S w ->
  exists v, answer (dictionary a b) v /\ applied O S (lib "strlt") [mk_chars a; mk_chars b] w (Ret v w).
Proof.
  intros O a b S w I R. exists (truth (dictb a b)). split; [|apply strlt_ok; auto].
  destruct (dictb a b) eqn:E; [left|right]; (split; [|reflexivity]).
  - apply dict_iff; auto.
  - rewrite <- dict_iff, E. discriminate.
Qed.
Lemma truncl_padded : forall O z l S w, int64 z -> increasing S -> ready S w ->
  applied O S (lib "truncl") [Num z; mk_list l] w
    (Ret (mk_list (firstn (Z.to_nat z) l ++ repeat Nil (Z.to_nat z - length l))) w).
Proof. intros. rewrite <- prefix_pad. apply truncl_ok; auto. Qed.
Lemma truncr_padded : forall O z l S w, int64 z -> increasing S -> ready S w ->
  applied O S (lib "truncr") [Num z; mk_list l] w
    (Ret (mk_list (repeat Nil (Z.to_nat z - length l) ++ skipn (length l - Z.to_nat z) l)) w).
Proof. intros. rewrite <- rev_prefix. apply truncr_ok; auto. Qed.
Lemma zip_combine : forall O S a b w, increasing S -> ready S w ->
  applied O S (lib "zip") [mk_list a; mk_list b] w (Ret (alist (combine a b)) w).
Proof. intros. rewrite <- pairs_combine. apply zip_ok; auto. Qed.
