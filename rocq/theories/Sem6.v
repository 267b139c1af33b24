(** * Sem6: the remaining builtins. *)
From Verif Require Import Value ValueSpec ValueProofs Tails Print PrintSpec PrintProofs Eval EvalSpec EvalProofs
  Sem1 Sem2 Sem3 Sem4 Sem5 TailsProofs TailsSem BuiltinSpec.
Open Scope nat_scope.

Section Sem.
Variable O : oracle.
Notation Runs := (runs O).

Lemma one_ret : forall s i p c t u t1 e w o (f : atom -> atom), the s = builtin i One ->
  prim_of_addr i = Some p -> pops_two p = false ->
  (forall n full x, prim1 (eval O n) n p full c x = ret (f x)) -> calls c w s ->
  (Runs c (Pair t (Sym u (sy s)) (Pair t1 e Nil)) w o <->
   andthen (Runs c e w) (fun v w1 o => o = Ret (f v) w1) o).
Proof.
  intros s i p c t u t1 e w o f E P T F C. rewrite (call_one O s i p) by auto.
  apply andthen_iff; [tauto|]. intros v w1 o1. unfold Rprim, run_prim. rewrite T.
  rewrite (conv_ext _ (fun _ => ret (f v) w1)); [apply conv_ret|]. intro n. rewrite F. auto.
Qed.

Lemma text_is_string : forall v, is_string v = true <-> text_value v.
Proof.
  induction v; cbn; split; intro H; try discriminate; try (inversion H; fail); try constructor; auto.
  - apply andb_true_iff in H. destruct H as [H1 H2]. destruct v1; try discriminate. constructor. tauto.
  - inversion H; subst. cbn. tauto.
Qed.

Definition test_of (s : string) : atom -> bool :=
  if String.eqb s "nil?" then is_null else if String.eqb s "not" then is_null
  else if String.eqb s "tru?" then is_true else if String.eqb s "chr?" then is_char
  else if String.eqb s "num?" then is_numb else if String.eqb s "sym?" then is_symb
  else if String.eqb s "lst?" then is_list else if String.eqb s "atm?" then is_atom else is_string.
Lemma test_is : forall s P v, predicate s P -> (test_of s v = true <-> P v).
Proof.
  intros s P v H. inversion H; subst.
  9: exact (text_is_string v).
  all: destruct v; cbv -[Z.add Z.mul]; split; intro X; try discriminate X; eauto;
    try (split; intros; discriminate);
    repeat match goal with
      | X : _ \/ _ |- _ => destruct X
      | X : exists _, _ |- _ => destruct X
      | X : _ /\ _ |- _ => destruct X
      end; try discriminate; try congruence; auto;
    exfalso; match goal with X : forall t a d, _ -> False |- _ => eapply X; reflexivity end.
Qed.
Lemma predicate_runs : forall s P c t u t1 e w o, predicate s P -> calls c w s ->
  (Runs c (Pair t (Sym u (sy s)) (Pair t1 e Nil)) w o <->
   andthen (Runs c e w) (fun v w1 o => exists r, answer (P v) r /\ o = Ret r w1) o).
Proof.
  intros s P c t u t1 e w o H C.
  assert (X : Runs c (Pair t (Sym u (sy s)) (Pair t1 e Nil)) w o <->
     andthen (Runs c e w) (fun v w1 o => o = Ret (truth (test_of s v)) w1) o).
  { inversion H; subst;
    [ eapply (one_ret "nil?" 13%Z Pnil) | eapply (one_ret "not" 35%Z Pnot)
    | eapply (one_ret "tru?" 17%Z Ptru) | eapply (one_ret "chr?" 11%Z Pischr)
    | eapply (one_ret "num?" 14%Z Pnum) | eapply (one_ret "sym?" 16%Z Pissym)
    | eapply (one_ret "lst?" 12%Z Plst) | eapply (one_ret "atm?" 10%Z Patm)
    | eapply (one_ret "str?" 15%Z Pisstr) ]; auto; try reflexivity. }
  rewrite X. apply andthen_iff; [tauto|]. intros v w1 o1.
  assert (T := test_is s P v H). unfold answer. destruct (test_of s v); cbn [truth]; split.
  - intros ->. exists Tru. split; auto. left. split; auto. apply T; auto.
  - intros [r [[[_ ->]|[N _]] ->]]; auto. exfalso. apply N, T; auto.
  - intros ->. exists Nil. split; auto. right. split; auto. intro N. apply T in N. discriminate.
  - intros [r [[[N _]|[_ ->]] ->]]; auto. apply T in N. discriminate.
Qed.

(** ** Pairs *)
Lemma half_runs : forall s c t u t1 e w o, In s ["car"; "cdr"]%string -> calls c w s ->
  (Runs c (Pair t (Sym u (sy s)) (Pair t1 e Nil)) w o <->
   andthen (Runs c e w) (fun v w1 o => exists r, half s v r /\ o = Ret r w1) o).
Proof.
  intros s c t u t1 e w o [<-|[<-|[]]] C.
  - rewrite (one_ret "car" 1%Z Pcar c t u t1 e w o car); auto; try reflexivity.
    apply andthen_iff; [tauto|]. intros v w1 o1. split.
    + intros ->. exists (car v). split; auto. destruct v; constructor; intros; discriminate.
    + intros [r [H ->]]. inversion H; subst; auto. destruct v; auto. exfalso; eapply H0; eauto.
  - rewrite (one_ret "cdr" 2%Z Pcdr c t u t1 e w o cdr); auto; try reflexivity.
    apply andthen_iff; [tauto|]. intros v w1 o1. split.
    + intros ->. exists (cdr v). split; auto. destruct v; constructor; intros; discriminate.
    + intros [r [H ->]]. inversion H; subst; auto. destruct v; auto. exfalso; eapply H0; eauto.
Qed.
Lemma cons_runs : forall c t u t1 e1 t2 e2 w o, calls c w "cons" ->
  (Runs c (Pair t (Sym u (sy "cons")) (Pair t1 e1 (Pair t2 e2 Nil))) w o <->
   andthen (Runs c e1 w) (fun v1 w1 => andthen (Runs c e2 w1) (fun v2 w2 o => o = Ret (Cons v1 v2) w2)) o).
Proof.
  intros. rewrite (prim2_runs O "cons" 6%Z Pcons); auto; try reflexivity.
  apply andthen_iff; [tauto|]. intros. apply andthen_iff; [tauto|]. intros. cbn [prim2]. apply conv_ret.
Qed.
Lemma car_cons : forall s c t u t1 t2 u2 t3 e1 t4 e2 w o, In s ["car"; "cdr"]%string ->
  calls c w s -> calls c w "cons" ->
  (Runs c (Pair t (Sym u (sy s)) (Pair t1 (Pair t2 (Sym u2 (sy "cons")) (Pair t3 e1 (Pair t4 e2 Nil))) Nil)) w o <->
   andthen (Runs c e1 w) (fun v1 w1 => andthen (Runs c e2 w1) (fun v2 w2 o =>
     o = Ret (if String.eqb s "car" then v1 else v2) w2)) o).
Proof.
  intros s c t u t1 t2 u2 t3 e1 t4 e2 w o I C1 C2. rewrite half_runs by auto.
  rewrite (andthen_iff _ _ _ _ o (fun x => cons_runs c t2 u2 t3 e1 t4 e2 w x C2) (fun a w o => iff_refl _)).
  rewrite andthen_assoc. apply andthen_iff; [tauto|]. intros v1 w1 o1.
  rewrite andthen_assoc. apply andthen_iff; [tauto|]. intros v2 w2 o2. rewrite andthen_ret.
  destruct I as [<-|[<-|[]]]; cbn [String.eqb Ascii.eqb Bool.eqb]; split.
  - intros [r [H ->]]. inversion H; subst; auto. exfalso. eapply H0; reflexivity.
  - intros ->. eexists; split; [apply half_car|auto].
  - intros [r [H ->]]. inversion H; subst; auto. exfalso. eapply H0; reflexivity.
  - intros ->. eexists; split; [apply half_cdr|auto].
Qed.
Lemma spine_len : forall v, spine v (pairs_len v).
Proof. induction v; cbn [pairs_len]; try (apply spine_end; intros; discriminate). constructor; auto. Qed.
Lemma spine_unique : forall v n m, spine v n -> spine v m -> n = m.
Proof.
  intros v n m H. revert m. induction H; intros m X; inversion X; subst; auto.
  - exfalso; eapply H; eauto.
  - exfalso; eapply H0; eauto.
Qed.
Lemma len_runs : forall c t u t1 e w o, calls c w "len" ->
  (Runs c (Pair t (Sym u (sy "len")) (Pair t1 e Nil)) w o <->
   andthen (Runs c e w) (fun v w1 o => exists r, length_of v r /\ o = Ret r w1) o).
Proof.
  intros c t u t1 e w o C.
  rewrite (one_ret "len" 19%Z Plen c t u t1 e w o
    (fun x => if is_list x then Num (Z.of_nat (pairs_len x)) else Nil)); auto; try reflexivity.
  apply andthen_iff; [tauto|]. intros v w1 o1. split.
  - intros ->. eexists. split; [|reflexivity]. destruct v; cbn [is_list is_pair is_null orb];
      try (apply length_atom; intros; discriminate); apply length_list; eauto using spine_len.
  - intros [r [H ->]]. f_equal. inversion H; subst.
    + rewrite (spine_unique _ _ _ H1 (spine_len v)).
      destruct H0 as [->|[? [? [? ->]]]]; reflexivity.
    + destruct v; auto; congruence.
Qed.
Lemma chr_runs : forall c t u t1 e w z w1, calls c w "chr" -> Runs c e w (Ret (Num z) w1) ->
  exists k, as_char z k /\ Runs c (Pair t (Sym u (sy "chr")) (Pair t1 e Nil)) w (Ret (Chr k) w1).
Proof.
  intros c t u t1 e w z w1 C R. exists (schar (byte_of_char z)). split.
  - unfold as_char, schar, byte_of_char. cbv zeta.
    assert (B := Z.mod_pos_bound z 256 ltac:(lia)). assert (D := Z_div_mod_eq_full z 256).
    rewrite Z2N.id by lia. destruct (Z.ltb_spec (z mod 256) 128).
    + split; [lia|]. exists (z / 256)%Z. lia.
    + split; [lia|]. exists (z / 256 + 1)%Z. lia.
  - rewrite (call_one O "chr" 3%Z Pchr); auto; try reflexivity.
    left. exists (Num z), w1. split; auto. unfold Rprim, run_prim. cbn [pops_two prim1 num_field].
    rewrite bind_opt. apply conv_ret. auto.
Qed.
Lemma eval_runs : forall c t u t1 e w o, calls c w "eval" ->
  (Runs c (Pair t (Sym u (sy "eval")) (Pair t1 e Nil)) w o <->
   andthen (Runs c e w) (fun v w1 => Runs c v w1) o).
Proof.
  intros. rewrite (call_one O "eval" 8%Z Peval) by (auto; reflexivity).
  apply andthen_iff; [tauto|]. intros v w1 o1. unfold Rprim, run_prim. cbn [pops_two prim1].
  rewrite runs_conv. tauto.
Qed.

(** ** Logic *)
Lemma and_runs : forall c t u t1 e1 t2 e2 w o, calls c w "and" ->
  (Runs c (Pair t (Sym u (sy "and")) (Pair t1 e1 (Pair t2 e2 Nil))) w o <->
   andthen (Runs c e1 w) (fun v1 w1 => andthen (Runs c e2 w1) (fun v2 w2 o =>
     exists r, answer (v1 <> Nil /\ v2 <> Nil) r /\ o = Ret r w2)) o).
Proof.
  intros. rewrite (prim2_runs O "and" 33%Z Pand); auto; try reflexivity.
  apply andthen_iff; [tauto|]. intros v1 w1 o1. apply andthen_iff; [tauto|]. intros v2 w2 o2. cbn [prim2].
  rewrite conv_ret. unfold answer. split.
  - intros ->. eexists. split; [|reflexivity].
    destruct v1, v2; cbn; ((left; split; [split; discriminate|auto]) || (right; split; [intros [? ?]; congruence|auto])).
  - intros [r [X ->]]. f_equal. destruct X as [[[N1 N2] ->]|[N ->]].
    + destruct v1, v2; cbn; congruence.
    + destruct v1, v2; cbn; auto; exfalso; apply N; split; discriminate.
Qed.
Lemma or_runs : forall c t u t1 e1 t2 e2 w o, calls c w "or" ->
  (Runs c (Pair t (Sym u (sy "or")) (Pair t1 e1 (Pair t2 e2 Nil))) w o <->
   andthen (Runs c e1 w) (fun v1 w1 o =>
     (v1 <> Nil /\ o = Ret Tru w1) \/
     (v1 = Nil /\ andthen (Runs c e2 w1) (fun v2 w2 o => exists r, answer (v2 <> Nil) r /\ o = Ret r w2) o)) o).
Proof.
  intros. rewrite (call_rest O "or" 34%Z Por); auto; try reflexivity.
  unfold Rprim, run_prim. cbn [pops_two prim1]. unfold run_or. cbn [car cdr].
  rewrite (conv_bind (fun n => eval O n c e1) (fun n r => if negb (is_null r) then ret Tru
     else mbind (eval O n c e2) (fun r1 => ret (if is_null r1 then Nil else Tru)))).
  - apply andthen_iff; [intro; rewrite runs_conv; tauto|]. intros v1 w1 o1.
    destruct (is_null v1) eqn:N; cbn [negb].
    + destruct v1; try discriminate.
      rewrite (conv_bind (fun n => eval O n c e2) (fun n r1 => ret (if is_null r1 then Nil else Tru))).
      2: apply eval_monof. 2: intros; apply const_monof.
      assert (X : forall o, andthen (conv (fun n => eval O n c e2 w1)) (fun a w2 => conv (fun _ => ret (if is_null a then Nil else Tru) w2)) o <->
        andthen (Runs c e2 w1) (fun v2 w2 o => exists r, answer (v2 <> Nil) r /\ o = Ret r w2) o).
      { intro o2. apply andthen_iff; [intro; rewrite runs_conv; tauto|]. intros v2 w2 o3. rewrite conv_ret.
        unfold answer. split.
        - intros ->. eexists. split; [|reflexivity]. destruct v2; cbn; auto; left; split; auto; discriminate.
        - intros [r [[[Y ->]|[Y ->]] ->]]; destruct v2; cbn; auto; try congruence; exfalso; apply Y; discriminate. }
      rewrite X. split; [auto|]. intros [[Y _]|[_ Y]]; auto. congruence.
    + rewrite conv_ret. split; [left; split; auto; intros ->; discriminate|]. intros [[_ Y]|[Y _]]; auto. subst; discriminate.
  - apply eval_monof.
  - intros a w1. destruct (negb (is_null a)); [apply const_monof|]. apply bind_monof; [apply eval_monof|intros; apply const_monof].
Qed.

Lemma equal_runs : forall s c t u t1 e1 t2 e2 w o, In s ["="; "<>"]%string -> calls c w s ->
  (Runs c (Pair t (Sym u (sy s)) (Pair t1 e1 (Pair t2 e2 Nil))) w o <->
   andthen (Runs c e1 w) (fun v1 w1 => andthen (Runs c e2 w1) (fun v2 w2 o =>
     exists r, answer (if String.eqb s "=" then same v1 v2 else ~ same v1 v2) r /\ o = Ret r w2)) o).
Proof.
  intros s c t u t1 e1 t2 e2 w o [<-|[<-|[]]] C.
  - rewrite (prim2_runs O "=" 36%Z Pequ); auto; try reflexivity.
    apply andthen_iff; [tauto|]. intros v1 w1 o1. apply andthen_iff; [tauto|]. intros v2 w2 o2. cbn [prim2].
    rewrite conv_ret. cbn [String.eqb Ascii.eqb Bool.eqb]. assert (E := equ_same v1 v2). unfold answer.
    destruct (equ v1 v2); cbn [truth]; split.
    + intros ->. exists Tru. split; auto. left. split; auto. apply E; auto.
    + intros [r [[[_ ->]|[N _]] ->]]; auto. exfalso. apply N, E; auto.
    + intros ->. exists Nil. split; auto. right. split; auto. intro N. apply E in N. discriminate.
    + intros [r [[[N _]|[_ ->]] ->]]; auto. apply E in N. discriminate.
  - rewrite (prim2_runs O "<>" 37%Z Pneq); auto; try reflexivity.
    apply andthen_iff; [tauto|]. intros v1 w1 o1. apply andthen_iff; [tauto|]. intros v2 w2 o2. cbn [prim2].
    rewrite conv_ret. cbn [String.eqb Ascii.eqb Bool.eqb]. assert (E := neq_same v1 v2). unfold answer.
    destruct (neq v1 v2); cbn [truth]; split.
    + intros ->. exists Tru. split; auto. left. split; auto. apply E; auto.
    + intros [r [[[_ ->]|[N _]] ->]]; auto. exfalso. apply N, E; auto.
    + intros ->. exists Nil. split; auto. right. split; auto. intro N. apply E in N. discriminate.
    + intros [r [[[N _]|[_ ->]] ->]]; auto. apply E in N. discriminate.
Qed.

(** ** [list] *)
Lemma Rlist_pair : forall c t a d w o, Rlist O c (Pair t a d) w o <->
  andthen (Rlist O c d w) (fun r w1 => andthen (Runs c a w1) (fun v w2 o => o = Ret (Cons v r) w2)) o.
Proof.
  intros. unfold Rlist. cbn [list_loop].
  rewrite (conv_bind (fun n => list_loop (eval O n) c d)
    (fun n r => mbind (eval O n c a) (fun v => ret (Cons v r))) w o).
  - apply andthen_iff; [tauto|]. intros r w1 o1.
    rewrite (conv_bind (fun n => eval O n c a) (fun n v => ret (Cons v r)) w1 o1).
    + apply andthen_iff; [intro; rewrite runs_conv; tauto|]. intros. apply conv_ret.
    + apply eval_monof.
    + intros; apply const_monof.
  - apply list_monof.
  - intros. apply bind_monof; [apply eval_monof|intros; apply const_monof].
Qed.
Lemma runs_list_app : forall c l1 l2 w o, runs_list O c (l1 ++ l2) w o <->
  andthen (runs_list O c l1 w) (fun v1 w1 => andthen (runs_list O c l2 w1) (fun v2 w2 o => o = Ret (v1 ++ v2) w2)) o.
Proof.
  intros c l1 l2. induction l1 as [|x l1 IH]; intros w o; cbn [app].
  - split.
    + intro H. left. exists [], w. split; [constructor|]. destruct o as [v w1|s|].
      * left. exists v, w1. auto.
      * right. exists s. auto.
      * inversion H.
    + intros [[v [w1 [H [[v2 [w2 [H2 ->]]]|[s [H2 ->]]]]]]|[s [H ->]]]; inversion H; subst; auto.
  - split.
    + intro H. inversion H; subst.
      * apply IH in H5. destruct H5 as [[v1 [w3 [H5 [[v2 [w4 [H6 E]]]|[s [H6 E]]]]]]|[s [H5 E]]]; try discriminate.
        inversion E; subst. left. exists (v :: v1), w3. split; [econstructor; eauto|].
        left. exists v2, w4. auto.
      * right. exists e. split; auto. constructor; auto.
      * apply IH in H5. destruct H5 as [[v1 [w3 [H5 [[v2 [w4 [H6 E]]]|[s [H6 E]]]]]]|[s [H5 E]]]; try discriminate.
        -- inversion E; subst. left. exists (v :: v1), w3. split; [econstructor; eauto|]. right. exists s; auto.
        -- inversion E; subst. right. exists s. split; auto. eapply list_stop2; eauto.
    + intros [[v [w1 [H [[v2 [w2 [H2 ->]]]|[s [H2 ->]]]]]]|[s [H ->]]]; inversion H; subst.
      * cbn [app]. econstructor; eauto. apply IH. left. do 2 eexists. split; eauto. left. eauto.
      * eapply list_stop2; eauto. apply IH. left. do 2 eexists. split; eauto. right. eauto.
      * apply list_stop1; auto.
      * eapply list_stop2; eauto. apply IH. right. eauto.
Qed.
Lemma Rlist_runs : forall es c w o, Rlist O c (mk_list es) w o <->
  andthen (runs_list O c (rev es) w) (fun vs w1 o => o = Ret (mk_list (rev vs)) w1) o.
Proof.
  induction es as [|x es IH]; intros c w o; cbn [mk_list rev].
  - unfold Rlist. cbn [list_loop]. rewrite conv_ret. split.
    + intros ->. left. exists [], w. split; [constructor|auto].
    + intros [[v [w1 [H ->]]]|[s [H ->]]]; inversion H; subst; auto.
  - rewrite Rlist_pair.
    rewrite (andthen_iff _ _ _ _ o (fun x => IH c w x) (fun a w o => iff_refl _)).
    rewrite (andthen_iff _ _ _ _ o (fun y => runs_list_app c (rev es) [x] w y) (fun a w o => iff_refl _)).
    rewrite !andthen_assoc. apply andthen_iff; [tauto|]. intros vs w1 o1. rewrite andthen_ret.
    rewrite andthen_assoc. split.
    + intros [[v [w2 [H ->]]]|[s [H ->]]].
      * left. exists [v], w2. split; [econstructor; eauto; constructor|]. rewrite andthen_ret.
        rewrite rev_app_distr. reflexivity.
      * right. exists s. split; auto. apply list_stop1; auto.
    + intros [[v [w2 [H E]]]|[s [H ->]]].
      * rewrite andthen_ret in E. subst o1. inversion H; subst. match goal with X : runs_list _ _ [] _ _ |- _ => inversion X; subst end.
        left. eexists; eexists. split; [eassumption|]. rewrite rev_app_distr. reflexivity.
      * right. exists s. split; auto. inversion H; subst; auto.
        match goal with X : runs_list _ _ [] _ _ |- _ => inversion X end.
Qed.
Lemma list_runs : forall c t u es w o, calls c w "list" ->
  (Runs c (Pair t (Sym u (sy "list")) (mk_list es)) w o <->
   andthen (runs_list O c (rev es) w) (fun vs w1 o => o = Ret (mk_list (rev vs)) w1) o).
Proof.
  intros. rewrite (call_rest O "list" 21%Z Plist); auto; try reflexivity.
  rewrite <- Rlist_runs. unfold Rprim, run_prim. cbn [pops_two prim1]. unfold Rlist. tauto.
Qed.

(** ** [cond] *)
Lemma wild_dec : forall a, {a = Wild} + {a <> Wild}.
Proof. destruct a; auto; right; discriminate. Qed.
Lemma Rcond_runs : forall l c e w o, Rcond O c e (clauses l) w o <-> cond_runs O c e l w o.
Proof.
  unfold clauses. induction l as [|[p x] l IH]; intros c e w o; cbn [map mk_list fst snd].
  - rewrite Rcond_end by (intros; discriminate). split.
    + intros ->. constructor.
    + intro H; inversion H; auto.
  - destruct (wild_dec p) as [->|N].
    + rewrite Rcond_wild. split.
      * intro H. constructor; auto.
      * intro H; inversion H; subst; auto; congruence.
    + rewrite Rcond_clause by auto. split.
      * intros [[v [w1 [H X]]]|[s [H ->]]].
        -- destruct (is_true v) eqn:T.
           ++ destruct v; try discriminate. eapply cond_yes; eauto.
           ++ eapply cond_no; eauto. { intros ->; discriminate. } apply IH; auto.
        -- apply cond_stop; auto.
      * intro H; inversion H; subst; try congruence.
        -- left. do 2 eexists. split; eauto.
        -- left. do 2 eexists. split; eauto. destruct v; cbn; try (apply IH; auto; fail). congruence.
        -- right. eauto.
Qed.
Lemma cond_call_runs : forall c t u t1 e l w o, calls c w "cond" ->
  (Runs c (Pair t (Sym u (sy "cond")) (Pair t1 e (clauses l))) w o <-> cond_runs O c e l w o).
Proof. intros. rewrite cond_call by auto. apply Rcond_runs. Qed.

(** ** [match] *)
Lemma Rmatch_runs : forall l c v w o, Rmatch O c v (clauses l) w o <->
  exists x, chosen v l x /\ Runs c x w o.
Proof.
  unfold clauses. induction l as [|[p x] l IH]; intros c v w o; cbn [map mk_list fst snd].
  - rewrite Rmatch_end by (intros; discriminate). split.
    + intros ->. exists Nil. split; [constructor|]. apply runs_const; auto.
    + intros [x [H R]]. inversion H; subst. apply runs_const in R; auto.
  - rewrite Rmatch_clause. assert (M := atom_match_instance p v). destruct (atom_match p v); split.
    + intro R. exists x. split; auto. apply chosen_here. apply M; auto.
    + intros [y [H R]]. inversion H; subst; auto. exfalso. match goal with N : ~ _ |- _ => apply N, M; auto end.
    + intro R. apply IH in R. destruct R as [y [H R]]. exists y. split; auto. apply chosen_next; auto.
      intro N. apply M in N. discriminate.
    + intros [y [H R]]. inversion H; subst.
      * match goal with N : instance _ _ |- _ => apply M in N; discriminate end.
      * apply IH. exists y. auto.
Qed.
Lemma match_call_runs : forall c t u t1 e l w o, calls c w "match" ->
  (Runs c (Pair t (Sym u (sy "match")) (Pair t1 e (clauses l))) w o <->
   andthen (Runs ((sy "ANY", Pair t1 e (clauses l)) :: c) e w)
     (fun v w1 o => exists x, chosen v l x /\ Runs c x w1 o) o).
Proof.
  intros. rewrite match_call' by auto. apply andthen_iff; [tauto|]. intros. apply Rmatch_runs.
Qed.
Lemma prog_runs : forall c t u es w o, calls c w "prog" ->
  (Runs c (Pair t (Sym u (sy "prog")) (mk_list es)) w o <-> runs_body O c es Nil w o).
Proof. intros. rewrite prog_call by auto. apply Rprog_list. Qed.

(** ** [while] *)
Lemma while_sound : forall n c e body r w o, o <> NoFuel ->
  while_loop (eval O n) n c e (mk_list body) r w = o -> while_runs O c e body r w o.
Proof.
  intros n c e body. assert (L := fun m (H : m <= n) => H).
  assert (G : forall m r w o, o <> NoFuel -> while_loop (eval O n) m c e (mk_list body) r w = o ->
    while_runs O c e body r w o).
  { induction m as [|m IH]; intros r w o N E; cbn [while_loop] in E; [subst; exfalso; apply N; reflexivity|].
    unfold mbind at 1 in E. destruct (eval O n c e w) as [v w1|s|] eqn:E1.
    - assert (R1 : Runs c e w (Ret v w1)) by (split; [discriminate|exists n; auto]).
      destruct (is_null v) eqn:V.
      + destruct v; try discriminate. unfold ret in E. subst o. constructor; auto.
      + assert (V' : v <> Nil) by (intros ->; discriminate).
        unfold mbind in E. destruct (prog (eval O n) c (mk_list body) Nil w1) as [r1 w2|s|] eqn:E2.
        * eapply while_turn; eauto. apply Rprog_list. split; [discriminate|exists n; auto].
        * subst o. eapply while_stop2; eauto. apply Rprog_list. split; [discriminate|exists n; auto].
        * congruence.
    - subst o. apply while_stop1. split; [discriminate|exists n; auto].
    - congruence. }
  apply G.
Qed.
Lemma while_complete : forall c e body r w o, while_runs O c e body r w o ->
  Rwhile O c e (mk_list body) r w o.
Proof.
  intros c e body r w o H. induction H.
  - destruct H as [_ [n H]]. split; [discriminate|]. exists (S n). cbn [while_loop]. unfold mbind.
    rewrite (more_budget O n (S n)) by (try lia; congruence). rewrite H. reflexivity.
  - apply Rprog_list in H1. destruct H as [_ [n H]], H1 as [_ [m H1]], IHwhile_runs as [N [p IH]].
    split; auto. exists (S (n + m + p)). cbn [while_loop]. unfold mbind.
    rewrite (more_budget O n (S (n + m + p))) by (try lia; congruence). rewrite H.
    assert (V : is_null v = false) by (destruct v; auto; congruence). rewrite V.
    rewrite (conv_at _ _ m (prog_monof O c (mk_list body) Nil w1) H1) by (try discriminate; lia).
    assert (L := while_mono (eval O p) (eval O (S (n + m + p)))
       (fun c x => eval_mono O p (S (n + m + p)) ltac:(lia) c x) p (n + m + p) c e (mk_list body) r1 ltac:(lia) w2).
    destruct L as [L|L]; congruence.
  - destruct H as [_ [n H]]. split; [discriminate|]. exists (S n). cbn [while_loop]. unfold mbind.
    rewrite (more_budget O n (S n)) by (try lia; congruence). rewrite H. reflexivity.
  - apply Rprog_list in H1. destruct H as [_ [n H]], H1 as [_ [m H1]].
    split; [discriminate|]. exists (S (n + m)). cbn [while_loop]. unfold mbind.
    rewrite (more_budget O n (S (n + m))) by (try lia; congruence). rewrite H.
    assert (V : is_null v = false) by (destruct v; auto; congruence). rewrite V.
    rewrite (conv_at _ _ m (prog_monof O c (mk_list body) Nil w1) H1) by (try discriminate; lia). reflexivity.
Qed.
Lemma while_call_runs : forall c t u t1 e body w o, calls c w "while" ->
  (Runs c (Pair t (Sym u (sy "while")) (Pair t1 e (mk_list body))) w o <->
   while_runs O c e body Nil w o).
Proof.
  intros. rewrite (call_rest O "while" 32%Z Pwhile); auto; try reflexivity.
  unfold Rprim, run_prim. cbn [pops_two prim1 car cdr]. split.
  - intros [N [n E]]. eapply while_sound; eauto.
  - apply while_complete.
Qed.

(** ** [|>] *)
Lemma Rstream_pair : forall c t f l x w o, Rstream O c (Pair t f l) x w o <->
  andthen (Runs c x w) (fun v w1 => Rstream O c l (mk_list [f; Cons (Symb (sy "quote")) v]) w1) o.
Proof.
  intros. unfold Rstream. cbn [stream_loop].
  rewrite (conv_bind (fun n => eval O n c x)
    (fun n r => stream_loop (eval O n) c l (Cons f (Cons (Cons (Symb (sy "quote")) r) Nil))) w o).
  - apply andthen_iff; [intro; rewrite runs_conv|]; tauto.
  - apply eval_monof.
  - intros; apply stream_monof.
Qed.
Lemma Rstream_nil : forall c x w o, Rstream O c Nil x w o <-> Runs c x w o.
Proof.
  intros. unfold Rstream. cbn [stream_loop].
  rewrite (conv_bind (fun n => eval O n c x) (fun n r => ret r) w o).
  - split.
    + intros [[v [w1 [H X]]]|[s [H ->]]].
      * apply conv_ret in X. subst. apply runs_conv; auto.
      * apply runs_conv; auto.
    + intro H. destruct o as [v w1|s|]; [left|right|destruct H; congruence].
      * exists v, w1. split; [apply runs_conv; auto|apply conv_ret; auto].
      * exists s. split; auto.
  - apply eval_monof.
  - intros; apply const_monof.
Qed.
Lemma Rstream_runs : forall l c x w o, Rstream O c (mk_list l) x w o <-> pipe_runs O c x l w o.
Proof.
  induction l as [|f l IH]; intros c x w o; cbn [mk_list].
  - rewrite Rstream_nil. split; [constructor; auto|]. intro H; inversion H; auto.
  - rewrite Rstream_pair. split.
    + intros [[v [w1 [H X]]]|[s [H ->]]].
      * eapply pipe_next; eauto. apply IH; auto.
      * apply pipe_stop; auto.
    + intro H; inversion H; subst.
      * left. do 2 eexists. split; eauto. apply IH; auto.
      * right. eauto.
Qed.
Lemma pipe_call_runs : forall c t u t1 x l w o, calls c w "|>" ->
  (Runs c (Pair t (Sym u (sy "|>")) (Pair t1 x (mk_list l))) w o <-> pipe_runs O c x l w o).
Proof.
  intros. rewrite (call_rest O "|>" 28%Z Pstream); auto; try reflexivity.
  rewrite <- Rstream_runs. unfold Rprim, run_prim. cbn [pops_two prim1 car cdr]. unfold Rstream. tauto.
Qed.

(** ** Printing *)
Lemma emit_sent : forall t w w', sent t w w' -> emit t w = Ret tt w'.
Proof.
  intros t w w' [h [H [E1 [E2 [E3 [E4 E5]]]]]]. unfold emit. destruct (ochan w) as [|h' r] eqn:C; [discriminate|].
  inversion H; subst h'. destruct w'; cbn in *. subst. reflexivity.
Qed.
Lemma leaves_unique : forall v t u, leaves v t -> leaves v u -> t = u.
Proof.
  intros v t u H. revert u. induction H; intros u X; inversion X; subst; auto.
  - eapply decimal_fun; eauto.
  - match goal with A : name16 _ _ _, B : name16 _ _ _ |- _ => apply name16_fun in A, B end. congruence.
  - f_equal; auto.
Qed.
Definition prints (text : atom -> bytes -> Prop) (b : bool) : Prop :=
  forall v t w w', text v t -> sent t w w' -> print_atom v b w = Ret tt w'.
Lemma leaf_prints : prints leaf_text false.
Proof.
  intros v t w w' [C [N L]] S. unfold print_atom.
  destruct (prin_symbolic_partial [] (fun _ => 0%N) v C N) as [t' [L' E]]. rewrite E. cbn [app].
  rewrite (leaves_unique _ _ _ L' L). apply emit_sent; auto.
Qed.
Lemma literal_prints : prints literal_text true.
Proof.
  intros v t w w' [C L] S. unfold print_atom.
  destruct (literal_print [] (fun _ => 0%N) v C) as [t' [_ [U E]]]. rewrite E. cbn [app].
  rewrite <- (U t L). apply emit_sent; auto.
Qed.
Lemma writes_run : forall text b sep c es r w v w', prints text b ->
  sep = (if b then Some (bs " ") else None) -> writes O c text sep es r w v w' ->
  Rprin O b c (mk_list es) r w (Ret v w').
Proof.
  intros text b sep c es r w v w' P Hs H. induction H; cbn [mk_list].
  - unfold Rprin. cbn [prin_all]. apply conv_ret. auto.
  - split; [discriminate|]. destruct H as [_ [n H]]. exists n. cbn [prin_all is_null negb]. unfold mbind.
    rewrite H, (P v t w1 w2) by auto. rewrite andb_false_r. reflexivity.
  - split; [discriminate|]. destruct H as [_ [n H]], IHwrites as [_ [m IH]].
    exists (n + m). cbn [prin_all]. change (Cons y (mk_list l)) with (mk_list (y :: l)). unfold mbind at 1.
    rewrite (more_budget O n (n + m)) by (try lia; congruence). rewrite H.
    unfold mbind at 1. rewrite (P v t w1 w2) by auto.
    assert (E : (if b && negb (is_null (mk_list (y :: l))) then emit (bs " ") else ret tt) w2 = Ret tt w3).
    { cbn [mk_list is_null negb]. destruct b; subst sep; cbn [andb].
      - apply emit_sent; auto.
      - subst; reflexivity. }
    unfold mbind at 1. rewrite E.
    exact (conv_at _ _ m (prin_monof O b c (mk_list (y :: l)) v w3) IH ltac:(discriminate) (n + m) ltac:(lia)).
Qed.
Lemma print_runs : forall s text sep nl c t u es w v w1 w2, printer s text sep nl -> calls c w s ->
  writes O c text sep es Nil w v w1 -> (if nl then sent [10%N] w1 w2 else w2 = w1) ->
  Runs c (Pair t (Sym u (sy s)) (mk_list es)) w (Ret v w2).
Proof.
  intros s text sep nl c t u es w v w1 w2 P C H N. inversion P; subst; cbv iota in N; try subst w2.
  - apply (call_rest O "prin" 49%Z Pprin); auto; try reflexivity.
    apply (writes_run leaf_text false None); auto using leaf_prints.
  - apply (call_rest O "prinl" 50%Z Pprinl); auto; try reflexivity.
    apply (writes_run leaf_text false None) in H; auto using leaf_prints.
    destruct H as [_ [n H]]. split; [discriminate|]. exists n. unfold run_prim. cbn [pops_two prim1].
    unfold mbind. rewrite H, (emit_sent _ _ _ N). reflexivity.
  - apply (call_rest O "print" 51%Z Pprint); auto; try reflexivity.
    apply (writes_run literal_text true (Some (bs " "))); auto using literal_prints.
  - apply (call_rest O "printl" 52%Z Pprintl); auto; try reflexivity.
    apply (writes_run literal_text true (Some (bs " "))) in H; auto using literal_prints.
    destruct H as [_ [n H]]. split; [discriminate|]. exists n. unfold run_prim. cbn [pops_two prim1].
    unfold mbind. rewrite H, (emit_sent _ _ _ N). reflexivity.
Qed.
End Sem.
