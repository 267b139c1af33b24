(** * Property C104: the placeholders of the CPS conversion (cps.l). *)
From Verif Require Import Base Value ValueSpec ValueProofs Tails Print Eval Sexp EvalSpec EvalProofs
  Sem1 Sem2 Sem3 Sem4 Sem5 TailsProofs TailsSem BuiltinSpec Sem6 Cases Lib LibSpec LibBase LibProofs LibDerived LibMore LibAssoc LibNum LibCases
  Install CcSpec CcProofs Cc7Spec Cc7Proofs Cc8Proofs Cc9Proofs Cc10Proofs.
From Verif Require Properties22.
Open Scope nat_scope.
Open Scope list_scope.

(** ** Where it fails *)

Ltac find_unbound := first [apply unbound_here
  | apply unbound_under; [let M := fresh in intro M; repeat match goal with H : mentioned _ _ |- _ => inversion H; clear H end|find_unbound]
  | apply unbound_car; [discriminate|find_unbound] | apply unbound_cdr; [discriminate|find_unbound]].
Ltac not_mentioned := let M := fresh in intro M; vm_compute in M;
  repeat match goal with H : mentioned _ _ |- _ => inversion H; clear H; subst end.

(** A function whose conversion by [>&] uses a placeholder that nothing binds: neither the
    parameters of the result nor any lambda around it, nor was it in the function given.
    An [if] with a list for a branch, to the right of another list, does that: cps:swap
    counts the branch (share/mnml/cps.l:26-30), cps:lift-ite does not
    (share/mnml/cps.l:46-53). *)
Theorem C104_refuted : exists ps closure body x,
  value "(>& '(\ (a) (+ (f 1) (if a (g 2) 3))))" library3 = Some (mk_list [ps; closure; body]) /\
  placeholder 4 (Symb x) /\ unbound x body /\ ~ mentioned x ps /\ ~ mentioned x (rd "(\ (a) (+ (f 1) (if a (g 2) 3)))").
Proof.
  exists (rd "(a _1)"), (rd "((fsym . (\ (a) (+ (f 1) (if a (g 2) 3)))))"),
    (rd "(f 1 (\ (_3) (if a (g 2 (\ (_2) (+ _4 _2 _1))) ((\ (_2) (+ _4 _2 _1)) 3))))"), (sy "_4").
  split; [vm_compute; reflexivity|]. split.
  - exists [52%Z]. split; [|vm_compute; reflexivity]. split; [|right; exists 52%Z, []; split; [reflexivity|lia]].
    apply (reads_snoc [] 0%Z 52%Z); [unfold digit; lia|constructor].
  - split; [vm_compute; find_unbound|]. split; not_mentioned.
Qed.
Print Assumptions C104_refuted.
(** An operand NIL becomes a call of a function of one parameter with no operand. *)
Theorem C104_nil_refuted : exists ps closure f n body,
  value "(>& '(\ (a) (+ (f 1) NIL)))" library3 = Some (mk_list [ps; closure; mk_list [f; n; mk_list [sym "\"; rd "(_3)"; mk_list [mk_list [sym "\"; rd "(_2)"; body]]]]]) /\
  mentioned (sy "_2") body.
Proof.
  exists (rd "(a _1)"), (rd "((fsym . (\ (a) (+ (f 1) NIL))))"), (rd "f"), (rd "1"), (rd "(+ _3 _2 _1)").
  split; [vm_compute; reflexivity|]. apply mentioned_cdr, mentioned_cdr, mentioned_car, mentioned_here.
Qed.
Print Assumptions C104_nil_refuted.

(** ** What holds: the numbering of the placeholders of a call *)

(** cps:swap exchanges the lists among the elements of a call for placeholders, appends
    the continuation, and gives the next number not used.  That cps:lift binds these
    placeholders is [C104_bound_partial], for calls without conditionals. *)
Theorem C104_swap_partial : forall O c es k n r, swaps c es k n r -> (0 <= c)%Z -> (n < 2 ^ 63)%Z ->
  forall S w, increasing S -> ready5 S w -> shows S (sy "descend") None ->
  applied O S (lib5 "cps:swap") [mk_list k; Num c; mk_list es] w (Ret (Cons (Num n) (mk_list r)) w).
Proof. intros. eapply swap_ok; eauto. Qed.
Print Assumptions C104_swap_partial.

Lemma number_written : forall i, (0 <= i)%Z -> exists p, placeholder i p.
Proof. intros i P. destruct (digits_exist i) as [l W]. eexists. exists l. split; [apply digits_write; auto|reflexivity]. Qed.
Lemma nested_up : forall es m, nested es m -> (0 <= m)%Z.
Proof. intros es m H. induction H; lia. Qed.
(** Every call whose operands are made of proper lists is numbered so, and the number of
    placeholders taken is the number of lists in it, at every depth. *)
Theorem C104_total : forall es m, nested es m -> forall c k, (0 <= c)%Z -> exists r, swaps c es k (c + m) r.
Proof.
  intros es m H. induction H as [|e es m N1 N2 H IH|es1 es m1 m H1 IH1 H IH]; intros c k C.
  - exists k. rewrite Z.add_0_r. constructor.
  - destruct (IH c k C) as [r S]. exists (e :: r). constructor; auto.
  - pose proof (nested_up _ _ H) as U. pose proof (nested_up _ _ H1) as U1.
    destruct (IH c k C) as [r S]. destruct (IH1 (c + m + 1)%Z k ltac:(lia)) as [r1 S1].
    destruct (number_written (c + m) ltac:(lia)) as [p P]. exists (p :: r).
    eapply swaps_list; [exact S|exact P|]. replace (c + (m + 1 + m1))%Z with (c + m + 1 + m1)%Z by lia. exact S1.
Qed.
Print Assumptions C104_total.

(** The placeholders of one call have different numbers, all from the counter on and
    before the number given back. *)
Theorem C104_numbers : forall c es k n r, swaps c es k n r ->
  exists is, stand k es is r /\ NoDup is /\ Forall (fun i => c <= i < n)%Z is.
Proof.
  intros c es k n r H. induction H as [c k|c e es k i r N1 N2 H IH|c es1 es k i r n r1 p H IH P H1 IH1].
  - exists []. repeat constructor.
  - destruct IH as [is [A [B C]]]. exists is. split; [constructor; auto|]. auto.
  - destruct IH as [is [A [B C]]]. pose proof (swaps_up _ _ _ _ _ H). pose proof (swaps_up _ _ _ _ _ H1).
    exists (i :: is). split; [constructor; auto|]. split.
    + constructor; [|exact B]. intro J. rewrite Forall_forall in C. specialize (C i J). lia.
    + constructor; [lia|]. eapply Forall_impl; [|exact C]. cbn. lia.
Qed.
Print Assumptions C104_numbers.
(** Different numbers below 10^15 have different placeholders: a name keeps 16 characters. *)
Theorem C104_distinct : forall i j p, placeholder i p -> placeholder j p -> (i < 10 ^ 15)%Z -> (j < 10 ^ 15)%Z -> i = j.
Proof.
  assert (K : forall n l, writes_number n l -> (n < 10 ^ 15)%Z -> str_of (sym_of (mk_chars (95%Z :: l))) = Some (mk_chars (95%Z :: l))).
  { intros n l W B. apply str_sym_inverse; [constructor; [lia|apply (Properties22.digit_bytes l n), W]|]. cbn [length].
    pose proof (Properties22.short_number n l W B). lia. }
  assert (M : forall a b, mk_chars a = mk_chars b -> a = b).
  { induction a as [|x a IH]; intros [|y b] E; try discriminate E; [reflexivity|]. injection E as -> E. f_equal. apply IH. exact E. }
  assert (F : forall l n, reads l n -> forall m, reads l m -> n = m).
  { intros l n H. induction H as [|l n d D H IH]; intros m H'.
    - remember [] as q eqn:Q. destruct H' as [|q' ? ? ? ?]; [reflexivity|destruct q'; discriminate Q].
    - remember (l ++ [d]) as q eqn:Q. destruct H' as [|q' n' d' D' H']; [destruct l; discriminate Q|].
      apply app_inj_tail in Q. destruct Q as [-> ->]. rewrite (IH _ H'). reflexivity. }
  intros i j p [l [W E]] [l' [W' E']] B B'. pose proof (K _ _ W B) as X. pose proof (K _ _ W' B') as X'.
  rewrite <- E in X. rewrite <- E' in X'. rewrite X in X'. injection X' as X'. apply M in X'. subst l'. eapply F; [apply W|apply W'].
Qed.
Print Assumptions C104_distinct.

(** ** What holds: calls without conditionals *)

Lemma lifts_exist :
  (forall b m, plain b m -> (forall es, b = mk_list es -> nested es m) /\ forall c k, (0 <= c)%Z -> exists r, lifts c b k (c + m) r) /\
  (forall es m, plains es m -> nested es m /\ forall c sw, (0 <= c)%Z -> exists r, wraps c es sw (c + m) r).
Proof.
  apply plain_both.
  - intros b N1 N2. split.
    + intros es ->. exfalso. destruct es; [apply N1; reflexivity|eapply N2; reflexivity].
    + intros c k C. rewrite Z.add_0_r. eexists. apply lifts_atom; auto.
  - intros o es m N1 N2 N3 _ [NE IH]. assert (N : nested (Symb o :: es) m) by (apply nested_atom; [discriminate|discriminate|exact NE]). split.
    + intros es' E. change (mk_list (Symb o :: es) = mk_list es') in E. apply mk_list_inj in E. subst es'. exact N.
    + intros c k C. destruct (C104_total _ _ N c k C) as [sw SW]. destruct (IH c sw C) as [r W]. exists r. eapply lifts_call; eauto.
  - split; [constructor|]. intros c sw C. rewrite Z.add_0_r. eexists. constructor.
  - intros e es m N1 N2 _ [NE IH]. split; [constructor; auto|]. intros c sw C. destruct (IH c sw C) as [r W]. exists r. constructor; auto.
  - intros es1 es m1 m P1 [NE1 IH1] P [NE IH]. pose proof (proj1 plain_up _ _ P1) as U1. pose proof (proj2 plain_up _ _ P) as U.
    split; [apply nested_list; auto|]. intros c sw C. destruct (IH c sw C) as [r W]. destruct (number_written (c + m) ltac:(lia)) as [p PH].
    destruct (IH1 (c + m + 1)%Z [mk_list [Symb (sy "\"); mk_list [p]; mk_list r]] ltac:(lia)) as [r1 L]. exists r1.
    eapply wraps_list; [exact W|exact PH|]. replace (c + (m + 1 + m1))%Z with (c + m + 1 + m1)%Z by lia. exact L.
Qed.
(** cps:lift converts every expression without conditionals, and a name that stands in
    the result unbound stood in the expression, or unbound in the continuation: all
    placeholders are bound.  Conversely all these names stand in the result unbound, but
    for those that are themselves placeholders of the numbers taken: nothing is lost and
    nothing captured (the expression has no [\] of its own).  The counter moves on by the number of calls among the
    operands.  Missing: conditionals, for which it is false, and heads that are lists. *)
Theorem C104_bound_partial : forall O b m, plain b m -> forall c k, (0 <= c)%Z -> (c + m < 2 ^ 63)%Z -> exists r,
  (forall S w, increasing S -> ready5 S w -> shows S (sy "descend") None ->
     applied O S (lib5 "cps:lift") [mk_list k; Num c; b] w (Ret (Cons (Num (c + m)) (mk_list r)) w)) /\
  (forall x, unbound x (mk_list r) -> mentioned x b \/ exists e, In e k /\ unbound x e) /\
  (~ mentioned (sy "\") b -> ~ In (Symb (sy "\")) k -> forall x, (forall i, (c <= i < c + m)%Z -> ~ placeholder i (Symb x)) ->
     mentioned x b \/ (exists e, In e k /\ unbound x e) -> unbound x (mk_list r)).
Proof.
  intros O b m P c k C B. destruct (proj2 (proj1 lifts_exist b m P) c k C) as [r L]. exists r.
  split; [|split; [apply (proj1 bound_both _ _ _ _ _ L)|apply (proj1 stays_both _ _ _ _ _ L)]].
  intros S w I R D. apply (proj1 (lifts_runs O) _ _ _ _ _ L C B). split; [exact I|]. split; [exact R|]. apply env_get_shows. exact D.
Qed.
Print Assumptions C104_bound_partial.
(** [>&] converts a function without conditionals that a name has for its value: the result has
    the parameters of the function and one more, the continuation, and the closure of the
    function; a name that stands unbound in its body stood in the body of the function or is the
    continuation, which is a parameter; and the names of the body and the continuation do
    stand there unbound, with the same exception.  Missing: the same as in [C104_bound_partial]. *)
Theorem C104_convert_partial : forall O f xs cl b m S w, f <> sy "fsym" ->
  means S w f (mk_list [mk_list (map (Sym false) xs); cl; b]) -> plain b m -> (Z.of_nat (length xs) + 1 + m < 2 ^ 63)%Z ->
  increasing S -> ready5 S w -> shows S (sy "descend") None ->
  exists k r, placeholder (Z.of_nat (length xs)) (Symb k) /\
    applied O S (lib5 ">&") [Symb f] w (Ret (mk_list [mk_list (map (Sym false) (xs ++ [k])); cl; mk_list r]) w) /\
    (forall x, unbound x (mk_list r) -> mentioned x b \/ x = k) /\
    (~ mentioned (sy "\") b -> forall x, (forall i, (Z.of_nat (length xs) < i <= Z.of_nat (length xs) + m)%Z -> ~ placeholder i (Symb x)) ->
       mentioned x b -> unbound x (mk_list r)) /\
    (~ mentioned (sy "\") b -> (Z.of_nat (length xs) + m < 10 ^ 15)%Z -> unbound k (mk_list r)).
Proof.
  intros O f xs cl b m S w NF MF P B I R D.
  destruct (number_written (Z.of_nat (length xs)) ltac:(lia)) as [p PH].
  destruct (placeholder_symbol _ _ PH) as [k [-> NK]].
  destruct (proj2 (proj1 lifts_exist b m P) (Z.of_nat (length xs) + 1)%Z [Symb k] ltac:(lia)) as [r L]. exists k, r.
  split; [exact PH|]. split.
  - rewrite map_app. cbn [map]. eapply cps_ok; eauto.
  - assert (NI : ~ In (Symb (sy "\")) [Symb k]) by (intros [E|[]]; injection E as E; auto). split; [|split].
    + intros x U. destruct (proj1 bound_both _ _ _ _ _ L x U) as [M|[e [[<-|[]] V]]]; [left; exact M|right]. inversion V; reflexivity.
    + intros NB x F M. apply (proj1 stays_both _ _ _ _ _ L NB NI); [intros i J; apply F; lia|left; exact M].
    + intros NB BD. apply (proj1 stays_both _ _ _ _ _ L NB NI).
      * intros i J Q. assert (E : i = Z.of_nat (length xs)) by (eapply C104_distinct; [exact Q|exact PH|lia|lia]). lia.
      * right. exists (Symb k). split; [left; reflexivity|constructor].
Qed.
Print Assumptions C104_convert_partial.
(** A head that is a list is exchanged for a placeholder, too, and that is never bound. *)
Theorem C104_head_refuted : exists ps closure body x,
  value "(>& '(\ (a) ((f a) 2)))" library3 = Some (mk_list [ps; closure; body]) /\
  placeholder 2 (Symb x) /\ unbound x body /\ ~ mentioned x ps /\ ~ mentioned x (rd "(\ (a) ((f a) 2))").
Proof.
  exists (rd "(a _1)"), (rd "((fsym . (\ (a) ((f a) 2))))"), (rd "(_2 2 _1)"), (sy "_2").
  split; [vm_compute; reflexivity|]. split.
  - exists [50%Z]. split; [|vm_compute; reflexivity]. split; [|right; exists 50%Z, []; split; [reflexivity|lia]].
    apply (reads_snoc [] 0%Z 50%Z); [unfold digit; lia|constructor].
  - split; [vm_compute; find_unbound|]. split; not_mentioned.
Qed.
Print Assumptions C104_head_refuted.

Lemma digit_number : forall z, (1 <= z <= 9)%Z -> writes_number z [48 + z]%Z.
Proof.
  intros z B. split.
  - replace z with (10 * 0 + (48 + z - 48))%Z at 2 by lia. apply (reads_snoc [] 0%Z (48 + z)%Z); [unfold digit; lia|constructor].
  - right. exists (48 + z)%Z, []. split; [reflexivity|lia].
Qed.
Example C104_case : ready5 here library3 /\ increasing here /\ shows here (sy "descend") None /\
  nested [Symb (sy "+"); rd "(f 1)"; rd "(h 1 (g 2) 3)"] 3 /\
  swaps 2 [Symb (sy "+"); rd "(f 1)"; rd "(h 1 (g 2) 3)"] [Symb (sy "_1")] 5 [Symb (sy "+"); Symb (sy "_4"); Symb (sy "_2"); Symb (sy "_1")] /\
  value "(cps:swap '(_1) 2 '(+ (f 1) (h 1 (g 2) 3)))" library3 = Some (rd "(5 + _4 _2 _1)").
Proof.
  split; [exact Properties22.here_ready5|]. split; [exact here_increasing|]. split; [apply env_get_shows; vm_compute; reflexivity|].
  assert (P2 : placeholder 2 (Symb (sy "_2"))) by (exists [50%Z]; split; [apply (digit_number 2); lia|vm_compute; reflexivity]).
  assert (P3 : placeholder 3 (Symb (sy "_3"))) by (exists [51%Z]; split; [apply (digit_number 3); lia|vm_compute; reflexivity]).
  assert (P4 : placeholder 4 (Symb (sy "_4"))) by (exists [52%Z]; split; [apply (digit_number 4); lia|vm_compute; reflexivity]).
  change (rd "(f 1)") with (mk_list [Symb (sy "f"); Num 1]).
  change (rd "(h 1 (g 2) 3)") with (mk_list [Symb (sy "h"); Num 1; mk_list [Symb (sy "g"); Num 2]; Num 3]).
  split; [|split; [|vm_compute; reflexivity]].
  - apply nested_atom; [discriminate|discriminate|]. apply (nested_list _ _ 0%Z 2%Z); [repeat (apply nested_atom; [discriminate|discriminate|]); constructor|].
    apply (nested_list _ _ 1%Z 0%Z); [|constructor]. do 2 (apply nested_atom; [discriminate|discriminate|]).
    apply (nested_list _ _ 0%Z 0%Z); repeat (apply nested_atom; [discriminate|discriminate|]); constructor.
  - apply swaps_atom; [discriminate|discriminate|].
    eapply (swaps_list 2 _ _ _ 4 _ 5 _ (Symb (sy "_4"))); [|exact P4|].
    + eapply (swaps_list 2 _ _ _ 2 _ 4 _ (Symb (sy "_2"))); [constructor|exact P2|].
      do 2 (apply swaps_atom; [discriminate|discriminate|]).
      eapply (swaps_list 3 _ _ _ 3 _ 4 _ (Symb (sy "_3"))); [apply swaps_atom; [discriminate|discriminate|]; constructor|exact P3|].
      repeat (apply swaps_atom; [discriminate|discriminate|]). constructor.
    + repeat (apply swaps_atom; [discriminate|discriminate|]). constructor.
Qed.
Example C104_bound_case : plain (rd "(+ (f 1) (h 1 (g 2) 3))") 3 /\
  value "(cps:lift '(_1) 2 '(+ (f 1) (h 1 (g 2) 3)))" library3 =
    Some (rd "(5 f 1 (\ (_4) (g 2 (\ (_3) (h 1 _3 3 (\ (_2) (+ _4 _2 _1)))))))") /\
  ~ unbound (sy "_4") (rd "(f 1 (\ (_4) (g 2 (\ (_3) (h 1 _3 3 (\ (_2) (+ _4 _2 _1)))))))").
Proof.
  split; [|split; [vm_compute; reflexivity|]].
  - change (rd "(+ (f 1) (h 1 (g 2) 3))") with (mk_list [Symb (sy "+"); mk_list [Symb (sy "f"); Num 1];
      mk_list [Symb (sy "h"); Num 1; mk_list [Symb (sy "g"); Num 2]; Num 3]]).
    apply plain_call; try discriminate. apply (plains_call _ _ 0%Z 2%Z).
    + apply plain_call; try discriminate. apply plains_atom; [discriminate|discriminate|constructor].
    + apply (plains_call _ _ 1%Z 0%Z); [|constructor]. apply plain_call; try discriminate. apply plains_atom; [discriminate|discriminate|].
      apply (plains_call _ _ 0%Z 0%Z); [|apply plains_atom; [discriminate|discriminate|constructor]].
      apply plain_call; try discriminate. apply plains_atom; [discriminate|discriminate|constructor].
  - intro U. vm_compute in U. repeat match goal with
      | H : unbound _ _ |- _ => inversion H; clear H; subst
      | H : _ <> _ |- _ => solve [exfalso; apply H; vm_compute; reflexivity]
      | H : ~ mentioned ?x (Pair _ (Symb ?x) _) |- _ => exfalso; apply H; apply mentioned_car, mentioned_here
      end.
Qed.
(** A function of two parameters with calls for operands, the value of a local name. *)
Definition with_twice : env := [(sy "twice", rd "((a b) NIL (+ (f a) (h 1 (g b) 3)))")].
Example C104_convert_case : ready5 with_twice library3 /\ increasing with_twice /\ shows with_twice (sy "descend") None /\ sy "twice" <> sy "fsym" /\
  means with_twice library3 (sy "twice") (mk_list [mk_list (map (Sym false) [sy "a"; sy "b"]); Nil; rd "(+ (f a) (h 1 (g b) 3))"]) /\
  eval yes 200 with_twice (rd "(>& 'twice)") library3 =
    Ret (rd "((a b _2) NIL (f a (\ (_5) (g b (\ (_4) (h 1 _4 3 (\ (_3) (+ _5 _3 _2))))))))") library3 /\
  ~ mentioned (sy "\") (rd "(+ (f a) (h 1 (g b) 3))") /\
  plain (rd "(+ (f a) (h 1 (g b) 3))") 3.
Proof.
  split; [apply Properties22.ready5_scope; vm_compute; reflexivity|]. split; [repeat constructor|]. split; [apply env_get_shows; vm_compute; reflexivity|].
  split; [discriminate|]. split; [apply means_get; vm_compute; reflexivity|]. split; [vm_compute; reflexivity|].
  split; [not_mentioned|].
  change (rd "(+ (f a) (h 1 (g b) 3))") with (mk_list [Symb (sy "+"); mk_list [Symb (sy "f"); Symb (sy "a")];
    mk_list [Symb (sy "h"); Num 1; mk_list [Symb (sy "g"); Symb (sy "b")]; Num 3]]).
  apply plain_call; try discriminate. apply (plains_call _ _ 0%Z 2%Z).
  - apply plain_call; try discriminate. apply plains_atom; [discriminate|discriminate|constructor].
  - apply (plains_call _ _ 1%Z 0%Z); [|constructor]. apply plain_call; try discriminate. apply plains_atom; [discriminate|discriminate|].
    apply (plains_call _ _ 0%Z 0%Z); [|apply plains_atom; [discriminate|discriminate|constructor]].
    apply plain_call; try discriminate. apply plains_atom; [discriminate|discriminate|constructor].
Qed.
