(** * LibNum: aton and ntoa. *)
From Verif Require Import Base Value ValueSpec ValueProofs Tails Print Eval EvalSpec EvalProofs
  Sem1 Sem2 Sem3 Sem4 Sem5 TailsProofs TailsSem BuiltinSpec Sem6 Cases Lib LibSpec LibBase LibProofs LibDerived LibMore LibAssoc LibSort.
Open Scope nat_scope.

Notation aton_fun :=
  (| sym "+"; (| sym "*"; Num 10; sym "acc" |); (| sym "-"; sym "v"; Chr 48 |) |).
Notation aton_body :=
  (| sym "foldl"; Cons (sym "\") (Cons (pars ["acc"; "v"]%string) (mk_list [aton_fun])); Num 0; sym "STR" |).
Lemma lib_aton : lib "aton" = lam (pars ["STR"]%string) [] [aton_body].
Proof. vm_compute. reflexivity. Qed.
Notation descend_with h :=
  (| sym "if"; (| sym "="; sym "n"; Num 0 |); sym "res";
     (| h; (| sym "/"; sym "n"; Num 10 |);
        (| sym "cons"; (| sym "chr"; (| sym "+"; (| sym "%"; sym "n"; Num 10 |); Chr 48 |) |); sym "res" |) |) |).
Notation descend_lambda := (Cons (sym "\") (Cons (pars ["n"; "res"]%string) (mk_list [descend_with (sym "descend")]))).
Notation ntoa_body :=
  (Cons (sym "let") (Cons (bindings [(sym "descend", descend_lambda)])
     (mk_list [(| sym "if"; (| sym "="; sym "n"; Num 0 |); mk_chars [48%Z]; (| sym "descend"; sym "n"; Nil |) |)]))).
Lemma lib_ntoa : lib "ntoa" = lam (pars ["n"]%string) [] [ntoa_body].
Proof. vm_compute. reflexivity. Qed.
Lemma descend_marked : mark_body (sy "descend") (pars ["n"; "res"]%string) (mk_list [descend_with (sym "descend")]) =
  Some (mk_list [descend_with (Sym true (sy "descend"))]).
Proof. vm_compute. reflexivity. Qed.

(** ** Numbers and digits *)
(** Quotients and remainders truncated towards 0; digits of negative numbers are
    negative. *)
Definition split10 (n q r : Z) : Prop := n = (10 * q + r)%Z /\ (Z.abs r < 10)%Z /\ (0 <= r * n)%Z.
Lemma split10_exists : forall n, exists q r, split10 n q r.
Proof.
  intro n. exists (Z.quot n 10), (Z.rem n 10). unfold split10.
  assert (E := Z.quot_rem' n 10). assert (B := Z.rem_bound_abs n 10 ltac:(lia)).
  assert (S := Z.rem_sign_mul n 10 ltac:(lia)). split; [lia|split; [lia|lia]].
Qed.
Lemma split10_small : forall n q r, split10 n q r -> n <> 0%Z -> (Z.abs q < Z.abs n)%Z /\ (0 <= q * n)%Z.
Proof.
  intros n q r [E [B S]] N. assert (0 <= q * n)%Z; [|split; auto; nia].
  destruct (Z_lt_le_dec n 0); [assert (r <= 0)%Z by nia; assert (q <= 0)%Z by lia; nia|
    assert (0 <= r)%Z by nia; assert (0 <= q)%Z by lia; nia].
Qed.
Lemma split10_int64 : forall n q r, split10 n q r -> n <> 0%Z -> int64 n -> int64 q /\ int64 (10 * q) /\ int64 r.
Proof.
  intros n q r H N B. destruct (split10_small n q r H N) as [L P]. destruct H as [E [R S]]. unfold int64 in *.
  split; [lia|split; [|lia]].
  destruct (Z_lt_le_dec n 0); [assert (r <= 0)%Z by nia; assert (q <= 0)%Z by nia; lia|
    assert (0 <= r)%Z by nia; assert (0 <= q)%Z by nia; lia].
Qed.
Inductive numeral : Z -> list Z -> Prop :=
| numeral_0 : numeral 0 []
| numeral_next : forall n q r l, n <> 0%Z -> split10 n q r -> numeral q l -> numeral n (l ++ [(48 + r)%Z]).
Lemma numeral_exists : forall m n, (Z.abs_nat n <= m)%nat -> exists l, numeral n l.
Proof.
  induction m as [|m IH]; intros n L.
  - assert (n = 0%Z) by lia. subst. exists []. constructor.
  - destruct (Z.eq_dec n 0) as [->|N]; [exists []; constructor|].
    destruct (split10_exists n) as [q [r H]]. assert (D := split10_small n q r H N).
    destruct (IH q) as [l K]; [lia|]. eexists. econstructor; eauto.
Qed.
Lemma numeral_reads : forall n l, numeral n l -> (0 <= n)%Z -> reads l n.
Proof.
  intros n l H. induction H as [|n q r l N S H IH]; intro P; [constructor|].
  assert (D := split10_small n q r S N). destruct S as [E [B S]].
  assert (0 <= r)%Z by nia. assert (0 <= q)%Z by nia.
  replace n with (10 * q + (48 + r - 48))%Z by lia.
  apply reads_snoc; auto. unfold digit. lia.
Qed.
Lemma numeral_first : forall n l, numeral n l -> (0 < n)%Z -> exists d r, l = d :: r /\ d <> 48%Z.
Proof.
  intros n l H. induction H as [|n q r l N S H IH]; intro P; [lia|].
  assert (D := split10_small n q r S N). destruct S as [E [B S]].
  assert (0 <= r)%Z by nia. assert (0 <= q)%Z by nia.
  destruct (Z.eq_dec q 0) as [->|Z0].
  - inversion H as [E0|]; subst; [|lia]. exists (48 + r)%Z, []. split; auto. lia.
  - destruct IH as [d [m [-> M]]]; [lia|]. exists d, (m ++ [(48 + r)%Z]). auto.
Qed.
Lemma numeral_writes : forall n l, numeral n l -> (0 < n)%Z -> writes_number n l.
Proof. intros n l H P. split; [apply numeral_reads; auto; lia|]. right. eapply numeral_first; eauto. Qed.

Definition value_from (z : Z) (l : list Z) : Z := fold_left (fun n d => 10 * n + (d - 48))%Z l z.
Fixpoint small_steps (z : Z) (l : list Z) : Prop :=
  match l with
  | [] => True
  | d :: l' => int64 (d - 48) /\ int64 (10 * z) /\ int64 (10 * z + (d - 48)) /\ small_steps (10 * z + (d - 48)) l'
  end.
Lemma small_snoc : forall l z d, small_steps z l -> int64 (d - 48) -> int64 (10 * value_from z l) ->
  int64 (10 * value_from z l + (d - 48)) -> small_steps z (l ++ [d]).
Proof.
  induction l as [|x l IH]; intros z d H A B C; cbn [app small_steps] in *; auto.
  destruct H as [H1 [H2 [H3 H4]]]. repeat split; auto; try apply H1; try apply H2; try apply H3.
Qed.
Lemma value_snoc : forall l z d, value_from z (l ++ [d]) = (10 * value_from z l + (d - 48))%Z.
Proof. intros. unfold value_from. rewrite fold_left_app. reflexivity. Qed.
Lemma reads_value : forall l n, reads l n -> Forall digit l /\ n = value_from 0 l.
Proof.
  intros l n H. induction H as [|l n d D H [F E]]; [split; [constructor|reflexivity]|]. split.
  - apply Forall_app. split; auto.
  - rewrite value_snoc, <- E. reflexivity.
Qed.
Lemma value_grows : forall l z, Forall digit l -> (0 <= z)%Z -> (z <= value_from z l)%Z.
Proof.
  induction l as [|d l IH]; intros z F P; unfold value_from; cbn [fold_left]; [lia|].
  inversion F as [|? ? D F']; subst. unfold digit in D.
  specialize (IH (10 * z + (d - 48))%Z F' ltac:(lia)). unfold value_from in IH. lia.
Qed.
Lemma digits_small : forall l z, Forall digit l -> (0 <= z)%Z -> int64 (value_from z l) -> small_steps z l.
Proof.
  induction l as [|d l IH]; intros z F P B; cbn [small_steps]; auto.
  inversion F as [|? ? D F']; subst. assert (D' := D). unfold digit in D'.
  change (value_from z (d :: l)) with (value_from (10 * z + (d - 48)) l) in *.
  assert (G := value_grows l (10 * z + (d - 48))%Z F' ltac:(lia)).
  assert (X : small_steps (10 * z + (d - 48)) l) by (apply IH; auto; lia).
  unfold int64 in *. repeat split; auto; lia.
Qed.
Lemma numeral_small : forall n l, numeral n l -> int64 n -> value_from 0 l = n /\ small_steps 0 l.
Proof.
  intros n l H. induction H as [|n q r l N S H IH]; intro B; [split; [reflexivity|exact I]|].
  destruct (split10_int64 n q r S N B) as [Q [Q10 R]]. destruct (IH Q) as [V M]. rewrite value_snoc, V.
  replace (48 + r - 48)%Z with r by lia. destruct S as [E _]. split; [lia|].
  apply small_snoc; auto; rewrite ?V; replace (48 + r - 48)%Z with r by lia; auto. rewrite <- E. auto.
Qed.

Section Num.
Variable O : oracle.
Notation Runs := (runs O).

(** ** aton *)
Definition adding : behaviour := pure (fun vs b => exists z d, vs = [Num z; Chr d] /\ b = Num (10 * z + (d - 48)) /\
  int64 (d - 48) /\ int64 (10 * z) /\ int64 (10 * z + (d - 48))).
Lemma aton_fold : forall l z w, small_steps z l -> folds_left adding (map Chr l) (Num z) w (Num (value_from z l)) w.
Proof.
  induction l as [|d l IH]; intros z w H; cbn [map]; [constructor|]. destruct H as [H1 [H2 [H3 H4]]].
  change (value_from z (d :: l)) with (value_from (10 * z + (d - 48)) l) in *.
  econstructor; [split; [|reflexivity]|apply IH; auto].
  exists z, d. split; [reflexivity|]. split; [reflexivity|]. split; [|split]; auto.
Qed.
Lemma aton_steps : forall l, small_steps 0 l -> forall S w, increasing S -> ready S w ->
  applied O S (lib "aton") [mk_chars l] w (Ret (Num (value_from 0 l)) w).
Proof.
  intros l H S w I R. rewrite lib_aton.
  apply apply_fun0; [auto|auto|reflexivity|]. intros S' IN. assert (R' : ready S' w) by (eapply inside_ready0; eauto).
  change (Runs S' (Pair false (sym "foldl") (mk_list
    [Cons (sym "\") (Cons (pars ["acc"; "v"]%string) (mk_list [aton_fun])); Num 0; sym "STR"])) w (Ret (Num (value_from 0 l)) w)).
  eapply (call_foldl O S' (lam (pars ["acc"; "v"]%string) S' [aton_fun]) adding (map Chr l) (Num 0) w);
    [|apply aton_fold; auto|reflexivity|apply IN|auto|auto|].
  - apply acts_fun; auto; [apply increasing_NoDup, IN|discriminate| |].
    + intros vs w1 b w2 [[z [d [-> [-> _]]]] ->]. auto.
    + intros T T' vs w1 b w2 IT AP INT Rc RT [[z [d [-> [-> [P [D Q]]]]]] ->]. apply body_one.
      eapply (f_arith O "+"%string T') with (v1 := Num (10 * z)) (w1 := w1) (v2 := Num (d - 48)) (a := (10 * z)%Z) (b := (d - 48)%Z);
        [cbn; tauto|auto| | |reflexivity|reflexivity|constructor; auto].
      * eapply (f_arith O "*"%string T') with (v1 := Num 10) (w1 := w1) (v2 := Num z) (a := 10%Z) (b := z);
          [cbn; tauto|auto|apply f_const; auto|arg|reflexivity|reflexivity|constructor; auto].
      * eapply (f_arith O "-"%string T') with (v1 := Chr d) (w1 := w1) (v2 := Chr 48) (a := d) (b := 48%Z);
          [cbn; tauto|auto|arg|apply f_const; auto|reflexivity|reflexivity|constructor; auto].
  - apply list3 with w w; [apply f_lambda; auto|apply f_const; auto|arg].
Qed.
Lemma aton_ok : forall l n, reads l n -> int64 n -> forall S w, increasing S -> ready S w ->
  applied O S (lib "aton") [mk_chars l] w (Ret (Num n) w).
Proof.
  intros l n H B S w I R. apply reads_value in H. destruct H as [F ->].
  apply aton_steps; auto. apply digits_small; auto. lia.
Qed.

(** ** ntoa *)
Lemma f_chr : forall S t u t1 e w z w1, calls S w "chr" -> Runs S e w (Ret (Num z) w1) -> (0 <= z < 128)%Z ->
  Runs S (Pair t (Sym u (sy "chr")) (Pair t1 e Nil)) w (Ret (Chr z) w1).
Proof.
  intros S t u t1 e w z w1 R E B.
  destruct (chr_runs O S t u t1 e w z w1) as [k [K X]]; [auto|auto|].
  assert (k = z); [|subst; auto]. revert K. unfold as_char. intros [H1 [q H2]]. lia.
Qed.
Section Ntoa.
(** [S1]: the scope of the call of [ntoa]; [S2]: with [descend]. *)
Variables (S1 S2 : env) (w : world).
Notation descend_fun := (lam (pars ["n"; "res"]%string) S1 [descend_with (Sym true (sy "descend"))]).
Hypothesis I1 : increasing S1.
Hypothesis I2 : increasing S2.
Hypothesis R1 : ready S1 w.
Hypothesis R2 : ready S2 w.
Hypothesis C1 : calls S1 w "chr".
Hypothesis C2 : calls S2 w "chr".
Hypothesis D1 : env_get S1 (sy "descend") = None.
Hypothesis D2 : env_get S2 (sy "descend") = Some descend_fun.
Lemma descend_turns : forall n l, numeral n l -> int64 n -> forall ds,
  turns O S2 S1 (sy "descend") ["n"; "res"]%string [descend_with (Sym true (sy "descend"))] [Num n; mk_chars ds] w
    (mk_chars (l ++ ds)) w.
Proof.
  intros n l H. induction H as [|n q r l P S10 H IH]; intros B ds.
  - apply turn_done; auto; [apply increasing_NoDup; auto|apply mk_quiet|]. intros S' IN.
    assert (R' : ready S' w) by (eapply inside_ready; [exact IN|reflexivity|auto|auto]).
    apply body_one. eapply f_if; [auto|two "="%string; [arg|apply f_const; auto]|].
    change (is_null (val2 "=" (Num 0) (Num 0))) with false. cbn [car cdr app]. arg.
  - destruct (split10_int64 n q r S10 P B) as [BQ [_ BR]]. destruct S10 as [E [M SG]].
    rewrite <- app_assoc. cbn [app].
    eapply turn_next; [auto|apply increasing_NoDup; auto|auto| |apply (IH BQ ((48 + r)%Z :: ds))].
    intros S' IN.
    assert (R' : ready S' w) by (eapply inside_ready; [exact IN|reflexivity|auto|auto]).
    apply body_one. eapply f_if; [auto|two "="%string; [arg|apply f_const; auto]|].
    assert (NE : is_null (val2 "=" (Num n) (Num 0)) = true).
    { cbn [val2 String.eqb Ascii.eqb Bool.eqb]. destruct (equ (Num n) (Num 0)) eqn:X; auto.
      apply equ_same in X. inversion X. lia. }
    rewrite NE. cbn [car cdr].
    change (Runs S' (Pair false (Sym true (sy "descend")) (mk_list [(| sym "/"; sym "n"; Num 10 |);
      (| sym "cons"; (| sym "chr"; (| sym "+"; (| sym "%"; sym "n"; Num 10 |); Chr 48 |) |); sym "res" |)])) w
      (Ret (again (sy "descend") ["n"; "res"]%string [Num q; mk_chars ((48 + r)%Z :: ds)]) w)).
    apply (marked_call O S' false S1 (sy "descend") ["n"; "res"]%string [descend_with (Sym true (sy "descend"))]);
      [discriminate|auto| |].
    + apply means_get. destruct IN as [_ G]. rewrite G. cbn [lget].
      rewrite combine_none by (intros s J; repeat (destruct J as [<-|J]; [vm_compute; discriminate|]); destruct J).
      rewrite D1, D2. reflexivity.
    + apply list2 with w.
      * eapply (f_arith O "/"%string S') with (v1 := Num n) (w1 := w) (v2 := Num 10) (a := n) (b := 10%Z);
          [cbn; tauto|auto|arg|apply f_const; auto|reflexivity|reflexivity|].
        apply c_div with r; auto; lia.
      * change (mk_chars ((48 + r)%Z :: ds)) with (val2 "cons" (Chr (48 + r)) (mk_chars ds)).
        eapply (f_two O "cons" S' _ _ _ _ _ _ w _ w); [cbn; tauto|auto| |arg].
        apply f_chr; [eapply inside_means; [exact IN|reflexivity|exact C1|exact C2]| |lia].
        replace (48 + r)%Z with (r + 48)%Z by lia.
        eapply (f_arith O "+"%string S') with (v1 := Num r) (w1 := w) (v2 := Chr 48) (a := r) (b := 48%Z);
          [cbn; tauto|auto| |apply f_const; auto|reflexivity|reflexivity|constructor; unfold int64; lia].
        eapply (f_arith O "%"%string S') with (v1 := Num n) (w1 := w) (v2 := Num 10) (a := n) (b := 10%Z);
          [cbn; tauto|auto|arg|apply f_const; auto|reflexivity|reflexivity|].
        apply c_mod with q; auto; lia.
Qed.
End Ntoa.
Definition digits_of (n : Z) (l : list Z) : Prop := n = 0%Z /\ l = [48%Z] \/ n <> 0%Z /\ numeral n l.
Lemma digits_exist : forall n, exists l, digits_of n l.
Proof.
  intro n. destruct (Z.eq_dec n 0) as [->|N]; [exists [48%Z]; left; auto|].
  destruct (numeral_exists (Z.abs_nat n) n (le_n _)) as [l H]. exists l. right. auto.
Qed.
Lemma digits_write : forall n l, digits_of n l -> (0 <= n)%Z -> writes_number n l.
Proof.
  intros n l [[-> ->]|[N H]] P; [|apply numeral_writes; auto; lia].
  split; [|left; auto]. apply (reads_snoc [] 0 48); [unfold digit; lia|constructor].
Qed.
Lemma digits_small_steps : forall n l, digits_of n l -> int64 n -> value_from 0 l = n /\ small_steps 0 l.
Proof.
  intros n l [[-> ->]|[N H]] B; [|apply numeral_small; auto].
  split; [reflexivity|]. cbn [small_steps]. unfold int64. repeat split; lia.
Qed.
Lemma ntoa_digits : forall n l, digits_of n l -> int64 n -> forall S w, increasing S -> ready S w -> calls S w "chr" -> shows S (sy "descend") None ->
  applied O S (lib "ntoa") [Num n] w (Ret (mk_chars l) w).
Proof.
  intros n l H B.
  intros S w I R C ND. rewrite lib_ntoa. apply apply_fun0; [auto|auto|apply mk_quiet|]. intros S1 IN.
  assert (R1 : ready S1 w) by (eapply inside_ready0; [exact IN|reflexivity|auto]).
  assert (I1 : increasing S1) by apply IN.
  assert (C1 : calls S1 w "chr") by (eapply inside_means0; [exact IN|reflexivity|exact C]).
  assert (D1 : env_get S1 (sy "descend") = None).
  { apply env_get_shows in ND. destruct IN as [_ G]. rewrite G. cbn [lget].
    rewrite combine_none by (intros s J; repeat (destruct J as [<-|J]; [vm_compute; discriminate|]); destruct J).
    cbn [env_get]. rewrite ND. auto. }
  set (df := lam (pars ["n"; "res"]%string) S1 [descend_with (Sym true (sy "descend"))]).
  destruct (scope_exists ([[(sy "descend", df)]] ++ [S1])) as [S2 SC].
  assert (G2 : increasing S2 /\ forall k, env_get S2 k = lget ([[(sy "descend", df)]] ++ [S1]) k) by (apply scope_iff; auto).
  destruct G2 as [I2 G2]. cbn [app] in G2.
  assert (N2 : env_get S2 (sy "n") = Some (Num n)).
  { rewrite G2. destruct IN as [_ G]. cbn [lget env_get].
    replace (sym_match (sy "descend") (sy "n")) with false by reflexivity. rewrite G. reflexivity. }
  assert (R2 : ready S2 w).
  { apply (ready_apart ["descend"]%string S1 S2); [|reflexivity|auto]. apply apart_get. intros k N. rewrite G2. cbn [lget env_get].
    destruct (sym_match (sy "descend") k) eqn:X; [apply sym_match_eq in X; exfalso; apply (N "descend"%string); cbn; auto|].
    destruct (env_get S1 k); auto. }
  assert (C2 : calls S2 w "chr").
  { eapply means_same; [|exact C1]. rewrite G2. cbn [lget env_get]. destruct (env_get S1 (sy "chr")); reflexivity. }
  eapply (let_runs O S1 false [(sym "descend", descend_lambda)]
    [(| sym "if"; (| sym "="; sym "n"; Num 0 |); mk_chars [48%Z]; (| sym "descend"; sym "n"; Nil |) |)] w
    [[(sy "descend", df)]] w S2); [known|auto| |exact SC|].
  - eapply bindings_step with (v := lam (pars ["n"; "res"]%string) S1 [descend_with (sym "descend")]) (v' := df)
      (b := [(sy "descend", df)]) (S := S1).
    + apply linear_sym.
    + apply scope_iff. split; auto. intro k. cbn [app lget]. destruct (env_get S1 k); auto.
    + apply (f_lambda O S1 false (pars ["n"; "res"]%string) [descend_with (sym "descend")] w R1).
    + apply (stored_marked S1 false (sy "descend") false (pars ["n"; "res"]%string) false (atom_of_env S1)
        (mk_list [descend_with (sym "descend")]) (mk_list [descend_with (Sym true (sy "descend"))])).
      * apply env_get_shows. auto.
      * apply (lam_func [sym "n"; sym "res"] Nil S1 [descend_with (sym "descend")]); [auto|discriminate].
      * apply descend_marked.
    + apply (layer_bind (sym "descend")), linear_sym.
    + constructor.
  - apply body_one. eapply f_if; [auto|two "="%string; [apply f_sym, means_get; exact N2|apply f_const; auto]|].
    assert (NE : is_null (val2 "=" (Num n) (Num 0)) = negb (n =? 0)%Z).
    { cbn [val2 String.eqb Ascii.eqb Bool.eqb]. destruct (Z.eqb_spec n 0) as [->|X]; [reflexivity|].
      destruct (equ (Num n) (Num 0)) eqn:Y; auto. apply equ_same in Y. inversion Y. lia. }
    rewrite NE. destruct H as [[-> ->]|[N0 H]].
    + cbn [Z.eqb negb car cdr]. apply f_text.
    + apply Z.eqb_neq in N0. rewrite N0. cbn [negb car cdr].
      change (Runs S2 (Pair false (sym "descend") (mk_list [sym "n"; Nil])) w (Ret (mk_chars l) w)).
      assert (T := descend_turns S1 S2 w I1 I2 R1 R2 C1 C2 D1 ltac:(rewrite G2; reflexivity) n l H B []).
      rewrite app_nil_r in T.
      assert (X := turns_answer O S2 S1 (sy "descend") ["n"; "res"]%string [descend_with (Sym true (sy "descend"))]
        [Num n; mk_chars []] w (mk_chars l) w ltac:(discriminate) eq_refl T).
      apply (X false [sym "n"; Nil] w); [apply means_get; rewrite G2; reflexivity|].
      apply list2 with w; [apply f_sym, means_get; exact N2|apply f_const; auto].
Qed.
Lemma ntoa_ok : forall n, (0 <= n)%Z -> int64 n -> exists l, writes_number n l /\
  forall S w, increasing S -> ready S w -> calls S w "chr" -> shows S (sy "descend") None ->
  applied O S (lib "ntoa") [Num n] w (Ret (mk_chars l) w).
Proof.
  intros n P B. destruct (digits_exist n) as [l H]. exists l. split; [apply digits_write; auto|].
  intros. apply ntoa_digits; auto.
Qed.
(** Writing a number and reading it back. *)
Lemma ntoa_aton : forall n S t e w0 w, int64 n -> increasing S -> ready S w0 -> ready S w ->
  calls S w "chr" -> shows S (sy "descend") None -> Runs S e w0 (Ret (Num n) w) ->
  Runs S (Pair t (sym "aton") (Cons (Cons (sym "ntoa") (Cons e Nil)) Nil)) w0 (Ret (Num n) w).
Proof.
  intros n S t e w0 w B I R0 R C ND E. destruct (digits_exist n) as [l H].
  destruct (digits_small_steps n l H B) as [V M]. assert (X := aton_steps l M S w I R). rewrite V in X.
  change (Runs S (Pair t (sym "aton") (mk_list [Pair false (sym "ntoa") (mk_list [e])])) w0 (Ret (Num n) w)).
  apply X; [apply ready_means; [auto|cbn; tauto]|].
  apply list1. apply (ntoa_digits n l H B S w I R C ND); [apply ready_means; [auto|cbn; tauto]|]. apply list1; auto.
Qed.
End Num.
