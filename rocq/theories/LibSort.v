(** * LibSort: isort, insert, strlt. *)
From Verif Require Import Base Value ValueSpec ValueProofs Tails Print Eval EvalSpec EvalProofs
  Sem1 Sem2 Sem3 Sem4 Sem5 TailsProofs TailsSem BuiltinSpec Sem6 Cases Lib LibSpec LibBase LibProofs LibDerived LibMore LibAssoc.
From Coq Require Import Sorted Permutation.
Open Scope nat_scope.

(** ** Insertion sort on lists *)
Section Order.
Variables (dom : atom -> Prop) (cmp : atom -> atom -> atom).
Hypothesis W : weak_order dom cmp.
Fixpoint place (e : atom) (l : list atom) : list atom :=
  match l with [] => [e] | y :: r => if is_null (cmp e y) then y :: place e r else e :: l end.
Definition place_all (z l : list atom) : list atom := fold_left (fun acc e => place e acc) l z.

Lemma place_perm : forall e l, Permutation (e :: l) (place e l).
Proof.
  induction l as [|y r IH]; cbn [place]; auto. destruct (is_null (cmp e y)); auto.
  eapply perm_trans; [apply perm_swap|]. apply perm_skip. auto.
Qed.
Lemma place_dom : forall e l, dom e -> Forall dom l -> Forall dom (place e l).
Proof.
  intros e l D F. eapply Permutation_Forall; [apply place_perm|]. constructor; auto.
Qed.
Lemma null_nil : forall a, is_null a = true <-> a = Nil.
Proof. destruct a; cbn; split; intro; congruence. Qed.
Lemma place_sorted : forall e l, dom e -> Forall dom l -> StronglySorted (fine cmp) l -> StronglySorted (fine cmp) (place e l).
Proof.
  intros e l D. induction l as [|y r IH]; intros F S; cbn [place].
  - repeat constructor.
  - inversion F as [|? ? Dy Fr]; subst. inversion S as [|? ? Sr Fy]; subst.
    destruct (is_null (cmp e y)) eqn:E.
    + apply null_nil in E. constructor; auto.
      eapply Permutation_Forall; [apply place_perm|]. constructor; auto.
    + assert (N : cmp e y <> Nil) by (intro X; apply null_nil in X; congruence).
      assert (Y : cmp y e = Nil) by (apply (proj1 W); auto).
      constructor; [constructor; auto|]. constructor; auto.
      rewrite Forall_forall in Fy, Fr |- *. intros z J. unfold fine in *. apply (proj2 W z y e); auto.
Qed.
Lemma place_tied : forall x e l, dom x -> dom e -> Forall dom l -> StronglySorted (fine cmp) l ->
  filter (tied cmp x) (place e l) = filter (tied cmp x) l ++ (if tied cmp x e then [e] else []).
Proof.
  intros x e l Dx De. induction l as [|y r IH]; intros F S; cbn [place filter app].
  - destruct (tied cmp x e); auto.
  - inversion F as [|? ? Dy Fr]; subst. inversion S as [|? ? Sr Fy]; subst.
    destruct (is_null (cmp e y)) eqn:E.
    + cbn [filter]. rewrite IH by auto. destruct (tied cmp x y); auto.
    + cbn [filter]. destruct (tied cmp x e) eqn:T; [|rewrite app_nil_r; auto].
      assert (Z : forall z, In z (y :: r) -> tied cmp x z = false).
      { intros z J. destruct (tied cmp x z) eqn:Tz; auto. exfalso.
        unfold tied in T, Tz. apply andb_prop in T, Tz. destruct T as [T1 T2], Tz as [Z1 Z2].
        apply null_nil in T1, T2, Z1, Z2.
        assert (Dz : dom z). { destruct J as [<-|J]; auto. rewrite Forall_forall in Fr. auto. }
        assert (X1 : cmp e z = Nil) by (apply (proj2 W e x z); auto).
        assert (X2 : cmp e y = Nil).
        { destruct J as [<-|J]; auto. rewrite Forall_forall in Fy. apply (proj2 W e z y); auto. apply Fy; auto. }
        apply null_nil in X2. congruence. }
      assert (N : forall l', incl l' (y :: r) -> filter (tied cmp x) l' = []).
      { induction l' as [|a l' IHl]; intros IC; auto. cbn [filter]. rewrite Z by (apply IC; cbn; auto).
        apply IHl. intros b J. apply IC; cbn; auto. }
      rewrite (Z y) by (cbn; auto). rewrite N by (intros b J; cbn; auto). auto.
Qed.
Lemma place_all_ok : forall l z, Forall dom l -> Forall dom z -> StronglySorted (fine cmp) z ->
  Permutation (z ++ l) (place_all z l) /\ StronglySorted (fine cmp) (place_all z l) /\
  forall x, dom x -> filter (tied cmp x) (place_all z l) = filter (tied cmp x) (z ++ l).
Proof.
  induction l as [|e l IH]; intros z Fl Fz S; unfold place_all; cbn [fold_left].
  - rewrite app_nil_r. auto.
  - inversion Fl as [|? ? De Fl']; subst.
    destruct (IH (place e z) Fl' (place_dom e z De Fz) (place_sorted e z De Fz S)) as [P [S' T]].
    fold (place_all (place e z) l). split; [|split; auto].
    + eapply perm_trans; [|exact P]. eapply perm_trans; [apply Permutation_sym, Permutation_middle|].
      change (e :: z ++ l) with ((e :: z) ++ l). apply Permutation_app_tail, place_perm.
    + intros x Dx. rewrite T by auto. rewrite !filter_app. rewrite place_tied by auto.
      rewrite <- app_assoc. f_equal. cbn [filter app]. destruct (tied cmp x e); auto.
Qed.
Lemma place_all_sorts : forall l, Forall dom l -> sorts cmp l (place_all [] l).
Proof.
  intros l F. destruct (place_all_ok l [] F (Forall_nil _) (SSorted_nil _)) as [P [S T]]. split; auto. split; auto.
  intros x J. apply T. rewrite Forall_forall in F. auto.
Qed.
End Order.

Definition ins_text : atom := Eval vm_compute in
  car (cdr (cdr (cdr (car (car (cdr (car (cdr (cdr (lib "isort")))))))))).
Notation ins_expr :=
  (| sym "if"; (| sym "or"; (| sym "nil?"; sym "LST" |); (| sym "LESS"; sym "E"; (| sym "car"; sym "LST" |) |) |);
     (| sym "cons"; sym "E"; sym "LST" |);
     (| sym "cons"; (| sym "car"; sym "LST" |); (| sym "ins"; (| sym "cdr"; sym "LST" |); sym "E" |) |) |).
Notation ins_lambda := (Cons (sym "\") (Cons (pars ["LST"; "E"]%string) (mk_list [ins_text; ins_expr]))).
Notation isort_body :=
  (Cons (sym "let") (Cons (bindings [(sym "ins", ins_lambda)]) (mk_list [(| sym "foldl"; sym "ins"; Nil; sym "LST" |)]))).
Lemma lib_isort : lib "isort" = lam (pars ["LESS"; "LST"]%string) [] [isort_body].
Proof. vm_compute. reflexivity. Qed.

Section Isort.
Variable O : oracle.
Notation Runs := (runs O).
Variables (c : env) (f : atom) (dom : atom -> Prop) (cmp : atom -> atom -> atom).
Notation hid := ["LESS"; "LST"; "E"; "ins"; "fun"; "acc"; "lst"]%string.
Hypothesis A : acts O c hid f (compares dom cmp).
(** [S1]: the scope of the call of [isort]. *)
Variable S1 : env.
Hypothesis I1 : increasing S1.
Hypothesis AP1 : apart hid c S1.
Hypothesis LESS1 : env_get S1 (sy "LESS") = Some f.
Hypothesis INS1 : env_get S1 (sy "ins") = None.
Notation ins_fun := (lam (pars ["LST"; "E"]%string) S1 [ins_text; ins_expr]).

Lemma body_last : forall S x u w v w', Runs S x w (Ret v w') -> runs_body O S [x] u w (Ret v w').
Proof. intros. econstructor; eauto. constructor. Qed.
Lemma ins_text_runs : forall S w, Runs S ins_text w (Ret ins_text w).
Proof. intros S w. apply f_text. Qed.

Lemma ins_ok : forall e l w, dom e -> Forall dom l -> ready c w -> forall T, increasing T -> apart hid c T ->
  env_get T (sy "ins") = Some ins_fun -> applied O T ins_fun [mk_list l; e] w (Ret (mk_list (place cmp e l)) w).
Proof.
  intros e l w De Dl R. induction l as [|y r IH]; intros T IT APT INS.
  - apply apply_fun; [auto|apply increasing_NoDup; auto|discriminate|auto|apply mk_quiet|].
    intros T' IN. assert (APT' : apart hid c T') by (eapply inside_apart_d; [exact IN|intros s; cbn; tauto|auto|auto]).
    assert (R' : ready T' w) by (eapply ready_apart; [exact APT'|reflexivity|auto]).
    econstructor; [apply ins_text_runs|]. eapply body_last.
    eapply f_if; [auto| |].
    + eapply f_or; [auto|one "nil?"%string; arg|]. cbn. auto.
    + cbn [is_null car]. change (mk_list (place cmp e [])) with (val2 "cons" e (mk_list [])). two "cons"%string; arg.
  - inversion Dl as [|? ? Dy Dr]; subst.
    apply apply_fun; [auto|apply increasing_NoDup; auto|discriminate|auto|apply mk_quiet|].
    intros T' IN. assert (APT' : apart hid c T') by (eapply inside_apart_d; [exact IN|intros s; cbn; tauto|auto|auto]).
    assert (R' : ready T' w) by (eapply ready_apart; [exact APT'|reflexivity|auto]).
    assert (INS' : env_get T' (sy "ins") = Some ins_fun).
    { destruct IN as [_ G]. rewrite G. cbn [lget]. rewrite combine_none, INS1, INS; auto.
      intros s J. repeat (destruct J as [<-|J]; [vm_compute; discriminate|]). destruct J. }
    econstructor; [apply ins_text_runs|]. eapply body_last.
    eapply f_if with (v := truth (negb (is_null (cmp e y)))) (w1 := w); [auto| |].
    + eapply f_or; [auto|one "nil?"%string; arg|]. cbn [val1 String.eqb Ascii.eqb Bool.eqb truth is_null mk_list].
      exists (cmp e y). split; auto.
      change (Runs T' (Pair false (sym "LESS") (mk_list [sym "E"; (| sym "car"; sym "LST" |)])) w (Ret (cmp e y) w)).
      eapply call_acts; [exact A| |apply IN|exact APT'|exact R| |].
      * split; [|reflexivity]. exists e, y. auto.
      * eapply inside_cap; [exact IN|reflexivity|exact LESS1].
      * apply list2 with w; [arg|]. change y with (val1 "car" (mk_list (y :: r))). one "car"%string. arg.
    + cbn [place]. destruct (is_null (cmp e y)); cbn [negb truth is_null car cdr].
      * change (mk_list (y :: place cmp e r)) with (val2 "cons" (val1 "car" (mk_list (y :: r))) (mk_list (place cmp e r))).
        two "cons"%string; [one "car"%string; arg|].
        change (Runs T' (Pair false (sym "ins") (mk_list [(| sym "cdr"; sym "LST" |); sym "E"])) w (Ret (mk_list (place cmp e r)) w)).
        apply (IH Dr T' (proj1 IN) APT' INS'); [apply means_get; auto|].
        apply list2 with w; [|arg]. change (mk_list r) with (val1 "cdr" (mk_list (y :: r))). one "cdr"%string. arg.
      * change (mk_list (e :: y :: r)) with (val2 "cons" e (mk_list (y :: r))). two "cons"%string; arg.
Qed.

Definition placing : behaviour := pure (fun vs b => exists e l, dom e /\ Forall dom l /\ vs = [mk_list l; e] /\ b = mk_list (place cmp e l)).
Lemma isort_fold : forall l z w, Forall dom l -> Forall dom z ->
  folds_left placing l (mk_list z) w (mk_list (place_all cmp z l)) w.
Proof.
  induction l as [|e l IH]; intros z w Dl Dz; unfold place_all; cbn [fold_left]; [constructor|].
  inversion Dl; subst. econstructor.
  - split; [|reflexivity]. exists e, z. auto.
  - apply IH; auto. apply place_dom; auto.
Qed.
(** [S2]: the scope of the body of [let]. *)
Lemma ins_acts : forall S2, increasing S2 -> apart hid c S2 -> env_get S2 (sy "ins") = Some ins_fun ->
  acts O S2 ["fun"; "acc"; "lst"]%string ins_fun placing.
Proof.
  intros S2 I2 AP2 INS2.
  assert (BACK : forall w, ready S2 w -> ready c w).
  { intros w R. eapply (ready_apart hid S2 c); [apply apart_sym; auto|reflexivity|auto]. }
  split.
  - intros T vs w b w' IT APT R [[e [l [De [Dl [-> ->]]]]] ->]. apply ins_ok; auto.
    + eapply apart_trans; [exact AP2|]. eapply apart_incl; [|exact APT]. intros s; cbn; tauto.
    + rewrite apart_get in APT. rewrite APT; auto.
      intros s J. repeat (destruct J as [<-|J]; [vm_compute; discriminate|]). destruct J.
  - intros vs w b w' [[e [l [De [Dl [-> ->]]]]] ->]. split; [apply mk_quiet|auto].
Qed.
Lemma ins_marked : mark_body (sy "ins") (pars ["LST"; "E"]%string) (mk_list [ins_text; ins_expr]) = Some (mk_list [ins_text; ins_expr]).
Proof. vm_compute. reflexivity. Qed.
Lemma isort_let : forall l w, Forall dom l -> ready c w -> env_get S1 (sy "LST") = Some (mk_list l) ->
  Runs S1 isort_body w (Ret (mk_list (place_all cmp [] l)) w).
Proof.
  intros l w Dl R LST1. assert (R1 : ready S1 w) by (eapply ready_apart; [exact AP1|reflexivity|auto]).
  destruct (scope_exists ([[(sy "ins", ins_fun)]] ++ [S1])) as [S2 SC].
  assert (G2 : increasing S2 /\ forall k, env_get S2 k = lget ([[(sy "ins", ins_fun)]] ++ [S1]) k) by (apply scope_iff; auto).
  destruct G2 as [I2 G2]. cbn [app] in G2.
  assert (AP2 : apart hid c S2).
  { apply apart_get. intros k N. rewrite G2. cbn [lget env_get].
    destruct (sym_match (sy "ins") k) eqn:E; [apply sym_match_eq in E; exfalso; apply (N "ins"%string); cbn; auto|].
    rewrite apart_get in AP1. rewrite AP1 by auto. destruct (env_get c k); auto. }
  assert (R2 : ready S2 w) by (eapply ready_apart; [exact AP2|reflexivity|auto]).
  eapply (let_runs O S1 false [(sym "ins", ins_lambda)] [(| sym "foldl"; sym "ins"; Nil; sym "LST" |)] w
    [[(sy "ins", ins_fun)]] w S2); [known|auto| |exact SC|].
  - eapply bindings_step with (v := ins_fun) (v' := ins_fun) (b := [(sy "ins", ins_fun)]) (S := S1).
    + apply linear_sym.
    + apply scope_iff. split; auto. intro k. cbn [app lget]. destruct (env_get S1 k); auto.
    + apply (f_lambda O S1 false (pars ["LST"; "E"]%string) [ins_text; ins_expr] w R1).
    + apply (stored_marked S1 false (sy "ins") false (pars ["LST"; "E"]%string) false (atom_of_env S1) (mk_list [ins_text; ins_expr])).
      * apply env_get_shows. auto.
      * apply (lam_func [sym "LST"; sym "E"] Nil S1 [ins_text; ins_expr]); [auto|discriminate].
      * apply ins_marked.
    + apply (layer_bind (sym "ins")), linear_sym.
    + constructor.
  - apply body_one.
    change (Runs S2 (Pair false (sym "foldl") (mk_list [sym "ins"; Nil; sym "LST"])) w (Ret (mk_list (place_all cmp [] l)) w)).
    eapply (call_foldl O S2 ins_fun placing l Nil w);
      [apply ins_acts; [auto|auto|rewrite G2; reflexivity]|apply (isort_fold l []); auto|reflexivity|auto|auto|auto|].
    apply list3 with w w; [|apply f_const; auto|]; apply f_sym, means_get; rewrite G2; [reflexivity|].
    cbn [lget env_get]. replace (sym_match (sy "ins") (sy "LST")) with false by reflexivity. rewrite LST1. reflexivity.
Qed.
End Isort.

Section Sort.
Variable O : oracle.
Notation Runs := (runs O).
Notation hid := ["LESS"; "LST"; "E"; "ins"; "fun"; "acc"; "lst"]%string.
Lemma isort_ok : forall c f dom cmp, acts O c hid f (compares dom cmp) -> weak_order dom cmp ->
  forall l w, Forall dom l -> ready c w -> forall S, increasing S -> apart hid c S -> shows S (sy "ins") None ->
  exists l', sorts cmp l l' /\ applied O S (lib "isort") [f; mk_list l] w (Ret (mk_list l') w).
Proof.
  intros c f dom cmp A W l w Dl R S I AP NI. exists (place_all cmp [] l). split; [eapply place_all_sorts; eauto|].
  rewrite lib_isort. apply apply_fun0; [auto|auto|apply mk_quiet|]. intros S1 IN.
  assert (AP1 : apart hid c S1).
  { eapply apart_trans; [exact AP|]. eapply apart_incl; [|apply (inside_apart _ _ _ _ IN)]. intros s; cbn; tauto. }
  apply env_get_shows in NI. destruct IN as [I1 G].
  eapply (isort_let O c f dom cmp A S1); auto.
  - rewrite G. reflexivity.
  - rewrite G. cbn [lget]. rewrite combine_none, NI; auto.
    intros s J. repeat (destruct J as [<-|J]; [vm_compute; discriminate|]). destruct J.
  - rewrite G. reflexivity.
Qed.
End Sort.

(** ** insert and strlt *)
Notation insert_body :=
  (| sym "if"; (| sym "nil?"; sym "lst" |); (| sym "list"; sym "a" |);
     Cons (sym "let") (Cons (bindings [(sym "cur", (| sym "car"; sym "lst" |)); (sym "nxt", (| sym "cdr"; sym "lst" |))])
       (mk_list [(| sym "if"; (| sym "cmp"; sym "a"; sym "cur" |);
          (| sym "cons"; sym "a"; (| sym "cons"; sym "cur"; sym "nxt" |) |);
          (| sym "cons"; sym "cur"; (| sym "insert"; sym "cmp"; sym "a"; sym "nxt" |) |) |)])) |).
Lemma lib_insert : lib "insert" = lam (pars ["cmp"; "a"; "lst"]%string) [] [insert_body].
Proof. vm_compute. reflexivity. Qed.
Notation strlt_body :=
  (| sym "and"; (| sym "not"; (| sym "nil?"; sym "STRB" |) |);
     (| sym "or"; (| sym "nil?"; sym "STRA" |);
        Cons (sym "let") (Cons (bindings [(sym "A", (| sym "car"; sym "STRA" |)); (sym "B", (| sym "car"; sym "STRB" |))])
          (mk_list [(| sym "or"; (| sym "<"; sym "A"; sym "B" |);
             (| sym "and"; (| sym "="; sym "A"; sym "B" |);
                (| sym "strlt"; (| sym "cdr"; sym "STRA" |); (| sym "cdr"; sym "STRB" |) |) |) |)])) |) |).
Lemma lib_strlt : lib "strlt" = lam (pars ["STRA"; "STRB"]%string) [] [strlt_body].
Proof. vm_compute. reflexivity. Qed.

Lemma kept_stored : forall S s v, kept s v -> stored S (Symb (sy s)) v v.
Proof.
  intros S s v K. destruct (env_get S (sy s)) as [u|] eqn:E.
  - eapply stored_shadow. apply env_get_shows. eauto.
  - destruct (is_func v) eqn:F.
    + destruct K as [K|K]; [congruence|].
      destruct v as [ | | | | | |t1 a r]; try discriminate. destruct r as [ | | | | | |t2 d b]; try discriminate; try (cbn in F; destruct (is_list a || is_symb a); discriminate).
      cbn [car cdr] in K. apply stored_marked; auto. apply env_get_shows; auto.
    + apply stored_value; auto.
Qed.

Section Insert.
Variable O : oracle.
Notation Runs := (runs O).

Lemma f_let2 : forall S t k1 k2 e1 e2 body w v1 w1 v2 w2 o, increasing S -> ready S w -> sy k1 <> sy k2 ->
  Runs S e1 w (Ret v1 w1) -> kept k1 v1 ->
  (forall S', inside [k1] [v1] [] S S' -> Runs S' e2 w1 (Ret v2 w2)) -> kept k2 v2 ->
  (forall S', inside [k1; k2] [v1; v2] [] S S' -> runs_body O S' body Nil w2 o) ->
  Runs S (Pair t (sym "let") (Cons (bindings [(sym k1, e1); (sym k2, e2)]) (mk_list body))) w o.
Proof.
  intros S t k1 k2 e1 e2 body w v1 w1 v2 w2 o I R N E1 K1 E2 K2 B.
  destruct (scope_exists ([[(sy k1, v1)]] ++ [S])) as [T SCT].
  assert (GT : increasing T /\ forall k, env_get T k = lget ([[(sy k1, v1)]] ++ [S]) k) by (apply scope_iff; auto).
  destruct GT as [IT GT]. cbn [app] in GT.
  destruct (scope_exists ([[(sy k1, v1)]; [(sy k2, v2)]] ++ [S])) as [U SCU].
  assert (GU : increasing U /\ forall k, env_get U k = lget ([[(sy k1, v1)]; [(sy k2, v2)]] ++ [S]) k) by (apply scope_iff; auto).
  destruct GU as [IU GU]. cbn [app] in GU.
  assert (INT : inside [k1] [v1] [] S T).
  { split; auto. }
  assert (INU : inside [k1; k2] [v1; v2] [] S U).
  { split; auto. intro k. rewrite GU. cbn [map combine lget env_get]. destruct (sym_match (sy k1) k); auto. }
  eapply (let_runs O S t [(sym k1, e1); (sym k2, e2)] body w [[(sy k1, v1)]; [(sy k2, v2)]] w2 U);
    [known|auto| |exact SCU|apply B; auto].
  eapply bindings_step with (S := S) (v := v1) (v' := v1) (b := [(sy k1, v1)]);
    [apply linear_sym| |exact E1|apply kept_stored; auto|apply (layer_bind (sym k1)), linear_sym|].
  { apply scope_iff. split; auto. intro k. cbn [app lget]. destruct (env_get S k); auto. }
  eapply bindings_step with (S := T) (v := v2) (v' := v2) (b := [(sy k2, v2)]);
    [apply linear_sym|exact SCT|apply E2; auto|apply kept_stored; auto|apply (layer_bind (sym k2)), linear_sym|].
  constructor.
Qed.

(** ** insert *)
Section Ins.
Variables (c : env) (f : atom) (dom : atom -> Prop) (cmp : atom -> atom -> atom).
Notation hid := ["cmp"; "a"; "lst"; "cur"; "nxt"]%string.
Hypothesis A : acts O c hid f (compares dom cmp).
Lemma insert_ok : forall e l l', inserts cmp e l l' -> dom e -> Forall dom l -> Forall (kept "cur") l ->
  (forall l1 l2, l = l1 ++ l2 -> kept "nxt" (mk_list l2)) -> forall w, ready c w ->
  forall S, increasing S -> apart hid c S -> applied O S (lib "insert") [f; e; mk_list l] w (Ret (mk_list l') w).
Proof.
  intros e l l' H De. induction H as [|y l N|y l l' N H IH]; intros Dl Kl Kn w R S I AP;
    rewrite lib_insert; (apply apply_fun0; [auto|auto|apply mk_quiet|]); intros S1 IN;
    (assert (AP1 : apart hid c S1) by
      (eapply apart_trans; [exact AP|]; eapply apart_incl; [|apply (inside_apart _ _ _ _ IN)]; intros s; cbn; tauto));
    (assert (R1 : ready S1 w) by (eapply ready_apart; [exact AP1|reflexivity|auto])).
  - eapply f_if; [auto|one "nil?"%string; arg|]. cbn [val1 String.eqb Ascii.eqb Bool.eqb truth is_null mk_list car cdr].
    change (Runs S1 (Pair false (sym "list") (mk_list [sym "a"])) w (Ret (mk_list [e]) w)).
    apply list_runs; [known|]. left. exists [e], w. split; auto. apply list1. arg.
  - eapply f_if; [auto|one "nil?"%string; arg|]. change (is_null (val1 "nil?" (mk_list (y :: l)))) with true. cbn [car cdr].
    inversion Dl as [|? ? Dy Dr]; subst. inversion Kl as [|? ? Ky Kr]; subst.
    eapply f_let2 with (v1 := y) (w1 := w) (v2 := mk_list l) (w2 := w); [apply IN|auto|vm_compute; discriminate
      |change y with (val1 "car" (mk_list (y :: l))); one "car"%string; arg|auto| |apply (Kn [y]); auto|].
    + intros S2 IN2. change (mk_list l) with (val1 "cdr" (mk_list (y :: l))).
      assert (R2 : ready S2 w) by (eapply inside_ready0; [exact IN2|reflexivity|auto]).
      one "cdr"%string. apply f_sym, means_get. destruct IN2 as [_ G2], IN as [_ G]. rewrite G2. cbn [lget].
      rewrite combine_none by (intros s J; repeat (destruct J as [<-|J]; [vm_compute; discriminate|]); destruct J).
      cbn [env_get]. rewrite G. reflexivity.
    + intros S2 IN2.
      assert (AP2 : apart hid c S2).
      { eapply apart_trans; [exact AP1|]; eapply apart_incl; [|apply (inside_apart _ _ _ _ IN2)]; intros s; cbn; tauto. }
      assert (R2 : ready S2 w) by (eapply ready_apart; [exact AP2|reflexivity|auto]).
      assert (GO : forall k v, env_get S1 k = Some v -> (forall s, In s ["cur"; "nxt"]%string -> k <> sy s) -> means S2 w k v).
      { intros k v E NK. apply means_get. destruct IN2 as [_ G2]. rewrite G2. cbn [lget].
        rewrite combine_none by auto. cbn [env_get]. rewrite E. auto. }
      assert (GA : means S2 w (sy "a") e).
      { apply GO; [destruct IN as [_ G]; rewrite G; reflexivity|intros s J; repeat (destruct J as [<-|J]; [vm_compute; discriminate|]); destruct J]. }
      assert (GC : means S2 w (sy "cmp") f).
      { apply GO; [destruct IN as [_ G]; rewrite G; reflexivity|intros s J; repeat (destruct J as [<-|J]; [vm_compute; discriminate|]); destruct J]. }
      apply body_one. eapply f_if with (v := cmp e y) (w1 := w); [auto| |].
      * change (Runs S2 (Pair false (sym "cmp") (mk_list [sym "a"; sym "cur"])) w (Ret (cmp e y) w)).
        eapply call_acts; [exact A| |apply IN2|exact AP2|exact R|exact GC|].
        -- split; [|reflexivity]. exists e, y. auto.
        -- apply list2 with w; [apply f_sym; auto|arg].
      * replace (is_null (cmp e y)) with false by (destruct (is_null (cmp e y)) eqn:X; auto; apply null_nil in X; tauto).
        cbn [car cdr]. change (mk_list (e :: y :: l)) with (val2 "cons" e (val2 "cons" y (mk_list l))).
        two "cons"%string; [apply f_sym; auto|]. two "cons"%string; arg.
  - eapply f_if; [auto|one "nil?"%string; arg|]. change (is_null (val1 "nil?" (mk_list (y :: l)))) with true. cbn [car cdr].
    inversion Dl as [|? ? Dy Dr]; subst. inversion Kl as [|? ? Ky Kr]; subst.
    eapply f_let2 with (v1 := y) (w1 := w) (v2 := mk_list l) (w2 := w); [apply IN|auto|vm_compute; discriminate
      |change y with (val1 "car" (mk_list (y :: l))); one "car"%string; arg|auto| |apply (Kn [y]); auto|].
    + intros S2 IN2. change (mk_list l) with (val1 "cdr" (mk_list (y :: l))).
      assert (R2 : ready S2 w) by (eapply inside_ready0; [exact IN2|reflexivity|auto]).
      one "cdr"%string. apply f_sym, means_get. destruct IN2 as [_ G2], IN as [_ G]. rewrite G2. cbn [lget].
      rewrite combine_none by (intros s J; repeat (destruct J as [<-|J]; [vm_compute; discriminate|]); destruct J).
      cbn [env_get]. rewrite G. reflexivity.
    + intros S2 IN2.
      assert (AP2 : apart hid c S2).
      { eapply apart_trans; [exact AP1|]; eapply apart_incl; [|apply (inside_apart _ _ _ _ IN2)]; intros s; cbn; tauto. }
      assert (R2 : ready S2 w) by (eapply ready_apart; [exact AP2|reflexivity|auto]).
      assert (GO : forall k v, env_get S1 k = Some v -> (forall s, In s ["cur"; "nxt"]%string -> k <> sy s) -> means S2 w k v).
      { intros k v E NK. apply means_get. destruct IN2 as [_ G2]. rewrite G2. cbn [lget].
        rewrite combine_none by auto. cbn [env_get]. rewrite E. auto. }
      assert (GA : means S2 w (sy "a") e).
      { apply GO; [destruct IN as [_ G]; rewrite G; reflexivity|intros s J; repeat (destruct J as [<-|J]; [vm_compute; discriminate|]); destruct J]. }
      assert (GC : means S2 w (sy "cmp") f).
      { apply GO; [destruct IN as [_ G]; rewrite G; reflexivity|intros s J; repeat (destruct J as [<-|J]; [vm_compute; discriminate|]); destruct J]. }
      apply body_one. eapply f_if with (v := cmp e y) (w1 := w); [auto| |].
      * change (Runs S2 (Pair false (sym "cmp") (mk_list [sym "a"; sym "cur"])) w (Ret (cmp e y) w)).
        eapply call_acts; [exact A| |apply IN2|exact AP2|exact R|exact GC|].
        -- split; [|reflexivity]. exists e, y. auto.
        -- apply list2 with w; [apply f_sym; auto|arg].
      * rewrite N. cbn [is_null car cdr].
        change (mk_list (y :: l')) with (val2 "cons" y (mk_list l')).
        eapply (f_two O "cons" S2 _ _ _ _ _ _ w y w); [cbn; tauto|auto|arg|].
        change (Runs S2 (Pair false (sym "insert") (mk_list [sym "cmp"; sym "a"; sym "nxt"])) w (Ret (mk_list l') w)).
        eapply (IH Dr Kr); [|exact R|apply IN2|exact AP2|apply ready_means; [auto|cbn; tauto]|].
        -- intros l1 l2 ->. apply (Kn (y :: l1)). auto.
        -- apply list3 with w w; [apply f_sym; auto|apply f_sym; auto|arg].
Qed.
End Ins.

Lemma inserts_place : forall cmp e l, inserts cmp e l (place cmp e l).
Proof.
  induction l as [|y l IH]; cbn [place]; [constructor|]. destruct (is_null (cmp e y)) eqn:E.
  - apply null_nil in E. constructor; auto.
  - constructor. intro X. apply null_nil in X. congruence.
Qed.
Lemma inserts_fun : forall cmp e l l', inserts cmp e l l' -> l' = place cmp e l.
Proof.
  intros cmp e l l' H. induction H as [|y l N|y l l' N H IH]; cbn [place]; auto.
  - destruct (is_null (cmp e y)) eqn:E; auto. apply null_nil in E. tauto.
  - rewrite N. cbn. congruence.
Qed.
(** In a sorted list the result is sorted. *)
Lemma inserts_sorted : forall dom cmp e l l', weak_order dom cmp -> inserts cmp e l l' -> dom e -> Forall dom l ->
  StronglySorted (fine cmp) l -> Permutation (e :: l) l' /\ StronglySorted (fine cmp) l'.
Proof.
  intros dom cmp e l l' W H De Dl S. apply inserts_fun in H. subst. split; [apply place_perm|eapply place_sorted; eauto].
Qed.

(** ** strlt *)
Lemma f_less : forall S t u t1 e1 t2 e2 w v1 w1 v2 w2 a b, ready S w ->
  Runs S e1 w (Ret v1 w1) -> Runs S e2 w1 (Ret v2 w2) -> num_field v1 = Some a -> num_field v2 = Some b ->
  Runs S (Pair t (Sym u (sy "<")) (Pair t1 e1 (Pair t2 e2 Nil))) w (Ret (truth (a <? b)%Z) w2).
Proof.
  intros S t u t1 e1 t2 e2 w v1 w1 v2 w2 a b R E1 E2 N1 N2.
  apply (prim2_runs O "<" 43%Z Plt); try reflexivity; [known|].
  left. exists v1, w1. split; auto. left. exists v2, w2. split; auto.
  split; [discriminate|]. exists 0. cbn [prim2]. rewrite N1, N2. reflexivity.
Qed.
Fixpoint dictb (a b : list Z) : bool :=
  match b with
  | [] => false
  | y :: b' => match a with [] => true | x :: a' => (x <? y)%Z || ((x =? y)%Z && dictb a' b') end
  end.
Lemma dict_iff : forall a b, dictb a b = true <-> dictionary a b.
Proof.
  induction a as [|x a IH]; intros [|y b]; cbn [dictb].
  - split; intro H; [discriminate|inversion H].
  - split; intro H; [constructor|auto].
  - split; intro H; [discriminate|inversion H].
  - rewrite Bool.orb_true_iff, Bool.andb_true_iff, Z.ltb_lt, Z.eqb_eq, IH. split.
    + intros [H|[<- H]]; [apply dict_lt|apply dict_eq]; auto.
    + intro H. inversion H; subst; auto.
Qed.
Lemma chars_kept : forall s v z, v = Chr z \/ v = Nil -> kept s v.
Proof. intros s v z [-> | ->]; left; reflexivity. Qed.
Lemma strlt_ok : forall a b S w, increasing S -> ready S w ->
  applied O S (lib "strlt") [mk_chars a; mk_chars b] w (Ret (truth (dictb a b)) w).
Proof.
  induction a as [|x a IH]; intros b S w I R; rewrite lib_strlt;
    (apply apply_fun0; [auto|auto|destruct (dictb _ b); reflexivity|]); intros S1 IN;
    assert (R1 : ready S1 w) by (eapply inside_ready0; [exact IN|reflexivity|auto]).
  - replace (truth (dictb [] b)) with (val2 "and" (val1 "not" (val1 "nil?" (mk_chars b))) Tru) by (destruct b; reflexivity).
    two "and"%string; [one "not"%string; one "nil?"%string; arg|].
    eapply f_or; [auto|one "nil?"%string; arg|]. cbn. auto.
  - set (y := car (mk_chars b)). set (yz := match b with [] => 0%Z | z :: _ => z end).
    assert (KY : exists z, y = Chr z \/ y = Nil) by (exists yz; destruct b; cbn; auto).
    assert (NY : num_field y = Some yz) by (destruct b; reflexivity).
    assert (TB : mk_chars (tl b) = cdr (mk_chars b)) by (destruct b; reflexivity).
    set (r := truth ((x <? yz)%Z || (equ (Chr x) y && dictb a (tl b)))).
    replace (truth (dictb (x :: a) b)) with (val2 "and" (val1 "not" (val1 "nil?" (mk_chars b))) r).
    2: { unfold r, y, yz. destruct b as [|z b]; [reflexivity|]. cbn [dictb tl map mk_chars mk_list car].
         replace (equ (Chr x) (Chr z)) with (x =? z)%Z by reflexivity.
         destruct ((x <? z)%Z || ((x =? z)%Z && dictb a b)); reflexivity. }
    two "and"%string; [one "not"%string; one "nil?"%string; arg|].
    eapply f_or; [auto|one "nil?"%string; arg|]. change (is_null (val1 "nil?" (mk_chars (x :: a)))) with true. cbv iota.
    exists r. split; [|unfold r; destruct ((x <? yz)%Z || (equ (Chr x) y && dictb a (tl b))); reflexivity].
    eapply f_let2 with (v1 := Chr x) (w1 := w) (v2 := y) (w2 := w); [apply IN|auto|vm_compute; discriminate
      |change (Chr x) with (val1 "car" (mk_chars (x :: a))); one "car"%string; arg|eapply chars_kept; eauto| |destruct KY as [z KY]; eapply chars_kept; eauto|].
    + intros S2 IN2. change y with (val1 "car" (mk_chars b)).
      assert (R2 : ready S2 w) by (eapply inside_ready0; [exact IN2|reflexivity|auto]).
      one "car"%string. apply f_sym, means_get. destruct IN2 as [_ G2], IN as [_ G]. rewrite G2. cbn [lget].
      rewrite combine_none by (intros s J; repeat (destruct J as [<-|J]; [vm_compute; discriminate|]); destruct J).
      cbn [env_get]. rewrite G. reflexivity.
    + intros S2 IN2.
      assert (R2 : ready S2 w) by (eapply inside_ready0; [exact IN2|reflexivity|auto]).
      assert (GO : forall k v, env_get S1 k = Some v -> (forall s, In s ["A"; "B"]%string -> k <> sy s) -> means S2 w k v).
      { intros k v E NK. apply means_get. destruct IN2 as [_ G2]. rewrite G2. cbn [lget].
        rewrite combine_none by auto. cbn [env_get]. rewrite E. auto. }
      assert (GA : means S2 w (sy "STRA") (mk_chars (x :: a))).
      { apply GO; [destruct IN as [_ G]; rewrite G; reflexivity|intros s J; repeat (destruct J as [<-|J]; [vm_compute; discriminate|]); destruct J]. }
      assert (GB : means S2 w (sy "STRB") (mk_chars b)).
      { apply GO; [destruct IN as [_ G]; rewrite G; reflexivity|intros s J; repeat (destruct J as [<-|J]; [vm_compute; discriminate|]); destruct J]. }
      apply body_one. eapply f_or; [auto|eapply f_less; [auto|arg|arg|reflexivity|exact NY]|].
      unfold r. destruct (x <? yz)%Z; cbn [truth is_null orb]; [auto|].
      exists (truth (equ (Chr x) y && dictb a (tl b))). split; [|destruct (equ (Chr x) y && dictb a (tl b)); reflexivity].
      replace (truth (equ (Chr x) y && dictb a (tl b))) with (val2 "and" (val2 "=" (Chr x) y) (truth (dictb a (tl b))))
        by (cbn [val2 String.eqb Ascii.eqb Bool.eqb]; destruct (equ (Chr x) y), (dictb a (tl b)); reflexivity).
      eapply (f_two O "and" S2 _ _ _ _ _ _ w _ w); [cbn; tauto|auto|two "="%string; arg|].
      change (Runs S2 (Pair false (sym "strlt") (mk_list [(| sym "cdr"; sym "STRA" |); (| sym "cdr"; sym "STRB" |)])) w
        (Ret (truth (dictb a (tl b))) w)).
      apply (IH (tl b) S2 w (proj1 IN2) R2); [apply ready_means; [auto|cbn; tauto]|].
      apply list2 with w.
      * change (mk_chars a) with (val1 "cdr" (mk_chars (x :: a))). one "cdr"%string. apply f_sym; auto.
      * rewrite TB. change (cdr (mk_chars b)) with (val1 "cdr" (mk_chars b)). one "cdr"%string. apply f_sym; auto.
Qed.
End Insert.
