(** * Properties12: more of the bundled library (C85, C86, C87).

    As in Properties8; [ready2] says that the names of the files of [Lib2.v] also have
    the values they have once these files are loaded. *)
From Verif Require Import Base Value ValueSpec ValueProofs Tails Print Eval Sexp EvalSpec EvalProofs
  Sem1 Sem2 Sem3 Sem4 Sem5 TailsProofs TailsSem BuiltinSpec Sem6 Cases Lib LibSpec LibBase LibProofs LibDerived LibMore LibAssoc LibSort LibNum LibCases
  Lib2 Lib2Spec Lib2Proofs.
Open Scope nat_scope.
Open Scope list_scope.

(** ** The state after loading the files *)
Lemma same_values : map (fun s => env_get (globals library2) (sy s)) (used ++ given) = map (fun s => Some (lib s)) (used ++ given).
Proof. vm_compute. reflexivity. Qed.
Lemma new_values : map (fun s => env_get (globals library2) (sy s)) given2 = map (fun s => Some (lib2 s)) given2.
Proof. vm_compute. reflexivity. Qed.
Lemma in_maps : forall A B (f g : A -> B) l x, map f l = map g l -> In x l -> f x = g x.
Proof.
  induction l as [|y l IH]; intros x E I; [destruct I|]. cbn in E. inversion E. destruct I as [<-|I]; auto.
Qed.
Lemma avoids_means : forall c w l s v, avoids c l = true -> In s l -> env_get (globals w) (sy s) = Some v -> means c w (sy s) v.
Proof.
  intros c w l s v H I E. unfold avoids in H. rewrite forallb_forall in H. specialize (H s I). apply means_lookup. unfold lookup.
  destruct (env_get c (sy s)); [discriminate|]. rewrite E. auto.
Qed.
Lemma ready2_scope : forall c, avoids c (used ++ given) = true -> avoids c given2 = true -> ready2 c library2.
Proof.
  intros c H1 H2. split; intros s I.
  - exact (avoids_means c library2 (used ++ given) s (lib s) H1 I (in_maps _ _ _ _ _ s same_values I)).
  - exact (avoids_means c library2 given2 s (lib2 s) H2 I (in_maps _ _ _ _ _ s new_values I)).
Qed.
Example library2_case : ready2 [] library2 /\ ready2 here library2.
Proof. split; apply ready2_scope; vm_compute; reflexivity. Qed.
Lemma here_ready2 : ready2 here library2.
Proof. apply library2_case. Qed.

(** ** C85: iteration *)
(** For answers that [let] does not mark (C37), and for [iter2] also such elements and
    lists.  What happens with the others is below. *)
Theorem C85_iter_partial : forall O c f F l w v w', acts2 O c ["fun"; "lst"; "rslt"; "tail"]%string f F -> increasing c -> ready2 c w ->
  visits F l w v w' -> applied O c (lib2 "iter") [f; mk_list l] w (Ret v w').
Proof. intros. eapply iter_ok; eauto. apply apart_refl. Qed.
Print Assumptions C85_iter_partial.
Theorem C85_iter2_partial : forall O c f F l m w v w',
  acts2 O c ["fun"; "lst1"; "lst2"; "car1"; "car2"; "cdr1"; "cdr2"; "rslt"]%string f F -> increasing c -> ready2 c w ->
  visits2 F l m w v w' -> applied O c (lib2 "iter2") [f; mk_list l; mk_list m] w (Ret v w').
Proof. intros. eapply iter2_ok; eauto. apply apart_refl. Qed.
Print Assumptions C85_iter2_partial.
Lemma adder_acts2 : acts2 yes here ["fun"; "lst"; "rslt"; "tail"]%string adder adds.
Proof. split; [apply adder_acts; reflexivity|]. intros vs w b w' [_ ->]. auto. Qed.
Lemma summer_acts2 : acts2 yes here ["fun"; "lst1"; "lst2"; "car1"; "car2"; "cdr1"; "cdr2"; "rslt"]%string summer sums.
Proof. split; [apply summer_acts; reflexivity|]. intros vs w b w' [_ ->]. auto. Qed.
Example C85_example : acts2 yes here ["fun"; "lst"; "rslt"; "tail"]%string adder adds /\
  visits adds [Num 3; Num 1; Num 2] library2 (Num 12) library2 /\
  runs yes here (rd "(iter (\ (x) (+ x k)) xs)") library2 (Ret (Num 12) library2) /\
  acts2 yes here ["fun"; "lst1"; "lst2"; "car1"; "car2"; "cdr1"; "cdr2"; "rslt"]%string summer sums /\
  visits2 sums [Num 3; Num 1] [Num 5; Num 6; Num 7] library2 (Num 7) library2 /\
  (exists w, runs yes [] (rd "(iter (\ (x) (prin x)) '(1 2 3))") library2 (Ret (Num 3) w) /\
     outs w = [(1%N, [51%N]); (1%N, [50%N]); (1%N, [49%N])]) /\
  (exists w, runs yes [] (rd "(iter2 (\ (x y) (prin x y)) '(1 2 3) '(4 5))") library2 (Ret (Num 5) w) /\
     outs w = [(1%N, [53%N]); (1%N, [50%N]); (1%N, [52%N]); (1%N, [49%N])]).
Proof.
  assert (V : visits adds [Num 3; Num 1; Num 2] library2 (Num 12) library2).
  { eapply visits_next with (b := Num 13) (w1 := library2); [split; [eexists; ands; [reflexivity|reflexivity|unfold int64; lia]|reflexivity]|left; reflexivity|].
    eapply visits_next with (b := Num 11) (w1 := library2); [split; [eexists; ands; [reflexivity|reflexivity|unfold int64; lia]|reflexivity]|left; reflexivity|].
    apply visits_last; [split; [eexists; ands; [reflexivity|reflexivity|unfold int64; lia]|reflexivity]|left; reflexivity]. }
  split; [apply adder_acts2|]. split; [exact V|]. split; [|split; [apply summer_acts2|split; [|split]]].
  - apply (C85_iter_partial yes here adder adds _ library2 _ library2 adder_acts2 here_increasing here_ready2 V (sy "iter") false
      [rd "(\ (x) (+ x k))"; rd "xs"] library2); [apply ready2_means; [apply here_ready2|cbn; tauto]|].
    apply list2 with library2; [|apply f_sym, means_get; reflexivity].
    apply (f_lambda yes here false (pars ["x"]%string) [(| sym "+"; sym "x"; sym "k" |)] library2 (proj1 here_ready2)).
  - eapply visits2_next with (r := Num 8) (w1 := library2);
      [split; [do 2 eexists; ands; [reflexivity|reflexivity|unfold int64; lia]|reflexivity]
      |left; reflexivity|left; reflexivity|left; reflexivity|left; reflexivity|left; reflexivity|discriminate|discriminate|].
    apply visits2_last; [split; [do 2 eexists; ands; [reflexivity|reflexivity|unfold int64; lia]|reflexivity]
      |left; reflexivity|left; reflexivity|left; reflexivity|left; reflexivity|left; reflexivity|left; reflexivity].
  - eexists. split; [computed|reflexivity].
  - eexists. split; [computed|reflexivity].
Qed.

(** An answer of the shape of a function that calls [rslt] comes back flagged; with a
    builtin for answer [iter] uses a null pointer. *)
Theorem C85_refuted :
  (exists v, runs yes [] (rd "(iter (\ (x) '((y) NIL (rslt y))) '(1))") library2 (Ret v library2) /\
     runs yes [] (rd "((\ (x) '((y) NIL (rslt y))) 1)") library2 (Ret (rd "((y) NIL (rslt y))") library2) /\
     v <> rd "((y) NIL (rslt y))") /\
  runs yes [] (rd "(iter (\ (x) car) '(1))") library2 (Stop UB) /\
  runs yes [] (rd "(iter2 (\ (x y) x) (list car) '(1))") library2 (Stop UB).
Proof. split; [eexists; split; [computed|split; [computed|discriminate]]|split; computed]. Qed.
Print Assumptions C85_refuted.

(** ** C86: trimming *)
(** [whitespace?] answers something else than NIL for every value. *)
Theorem C86_whitespace_refuted : forall O c v w, increasing c -> ready c w ->
  exists r, r <> Nil /\ applied O c (lib2 "whitespace?") [v] w (Ret r w).
Proof. intros O c v w I R. exists (white_answer v). split; [discriminate|]. apply whitespace_ok; auto. Qed.
Print Assumptions C86_whitespace_refuted.
(** Trimming a string, or any list, does not end. *)
Theorem C86_trim_refuted : forall O c s t e w0 l w, In s ["triml"; "trimr"; "trim"]%string -> increasing c ->
  ready2 c w0 -> ready2 c w -> runs O c e w0 (Ret (mk_list l) w) ->
  forall o, ~ runs O c (Pair t (Symb (sy s)) (mk_list [e])) w0 o.
Proof.
  intros O c s t e w0 l w H I R0 R E o. assert (L := list1 O c e w0 _ w E).
  destruct H as [<-|[<-|[<-|[]]]]; [eapply triml_stuck|eapply trimr_stuck|eapply trim_stuck];
    try exact L; auto; apply ready2_means; auto; cbn; tauto.
Qed.
Print Assumptions C86_trim_refuted.
Example C86_example : ready2 here library2 /\ ~ white 97 /\
  value "(whitespace? ^a)" library2 = Some (rd "(NIL '(NIL '(NIL 'NIL)))") /\
  runs yes here (Cons (sym "quote") (mk_chars [97; 32]%Z)) library2 (Ret (mk_chars [97; 32]%Z) library2).
Proof.
  split; [apply here_ready2|]. split; [unfold white; lia|]. split; [vm_compute; reflexivity|].
  apply f_quote, here_ready2.
Qed.

(** ** C87: join, merge, dedup, args:skip *)
Theorem C87_join : forall O c x ls r w, joined x (map (map Chr) ls) r -> increasing c -> ready c w ->
  applied O c (lib2 "join") [mk_list (map mk_chars ls); x] w (Ret (mk_list r) w).
Proof.
  intros O c x ls r w J I R.
  replace (map mk_chars ls) with (map mk_list (map (map Chr) ls)) by (rewrite map_map; auto).
  apply join_ok; auto. rewrite <- map_rev, map_map. apply (kept_texts "rlst" (rev ls)).
Qed.
Print Assumptions C87_join.
(** Lists of other values: when the list of lists is one that [let] does not mark. *)
Theorem C87_join_lists_partial : forall O c x ls r w, joined x ls r -> kept "rlst" (mk_list (map mk_list (rev ls))) ->
  increasing c -> ready c w -> applied O c (lib2 "join") [mk_list (map mk_list ls); x] w (Ret (mk_list r) w).
Proof. intros. apply join_ok; auto. Qed.
Print Assumptions C87_join_lists_partial.
Theorem C87_merge : forall O c ded ins D I a z w v w',
  acts O c ["ded"; "ins"; "lstA"; "lstB"; "acc"; "e"; "fun"; "lst"]%string ded D ->
  acts O c ["ded"; "ins"; "lstA"; "lstB"; "acc"; "e"; "fun"; "lst"]%string ins I ->
  is_tail_call z = false -> increasing c -> ready c w -> merged I D a z w v w' ->
  applied O c (lib2 "merge") [ded; ins; mk_list a; z] w (Ret v w').
Proof. intros. eapply merge_ok; eauto. apply apart_refl. Qed.
Print Assumptions C87_merge.
Theorem C87_dedup : forall O c f F l w r w',
  acts O c ["cmp"; "lst"; "elt"; "acc"; "cmd"; "val"; "fun"]%string f F ->
  (forall vs w b w', F vs w b w' -> calls c w "match" -> calls c w' "match") ->
  increasing c -> ready c w -> calls c w "match" -> deduped F l w r w' ->
  applied O c (lib2 "dedup") [f; mk_list l] w (Ret (mk_list r) w').
Proof. intros. eapply dedup_ok; eauto. apply apart_refl. Qed.
Print Assumptions C87_dedup.
Theorem C87_skip : forall O c z l r w, skipped z l r -> int64 z -> int64 (z - Z.of_nat (length l)) -> increasing c -> ready2 c w ->
  answers O c (sy "args:skip") (lib2 "args:skip") [mk_list l; Num z] w (Ret (mk_list r) w).
Proof. intros. apply skip_ok; auto. Qed.
Print Assumptions C87_skip.

(** [cons], as the function that puts an element in, and a function that gives back
    its argument. *)
Definition giver : atom := lam (pars ["q"]%string) here [sym "q"].
Definition gives : behaviour := pure (fun vs b => exists v, vs = [v] /\ is_tail_call v = false /\ b = v).
Lemma giver_acts : forall O hid, clear_of hid (used ++ given) = true -> acts O here hid giver gives.
Proof.
  intros O hid C. apply acts_fun; auto.
  - apply increasing_NoDup, here_increasing.
  - discriminate.
  - intros vs w b w' [[v [-> [Q ->]]] ->]. auto.
  - intros S S' vs w b w' I AP IN RC R [[v [-> [Q ->]]] ->]. apply body_one. arg.
Qed.
(** Two equal neighbours become one. *)
Definition single : atom := lam (pars ["p"; "q"]%string) here
  [(| sym "if"; (| sym "="; sym "p"; sym "q" |); Cons (sym "quote") (cmd "SKIP" Nil);
      (| sym "cons"; Cons (sym "quote") (sym "APPEND"); sym "p" |) |)].
Definition singles : behaviour :=
  pure (fun vs b => exists x y, vs = [x; y] /\ b = if equ x y then cmd "SKIP" Nil else cmd "APPEND" x).
Lemma single_acts : forall O hid, clear_of hid (used ++ given) = true -> acts O here hid single singles.
Proof.
  intros O hid C. apply acts_fun; auto.
  - apply increasing_NoDup, here_increasing.
  - discriminate.
  - intros vs w b w' [[x [y [-> ->]]] ->]. split; auto. split; auto. destruct (equ x y); auto.
  - intros S S' vs w b w' I AP IN RC R [[x [y [-> ->]]] ->]. apply body_one.
    eapply f_if; [auto|two "="%string; arg|]. cbn [val2 String.eqb Ascii.eqb Bool.eqb].
    destruct (equ x y); cbn [truth is_null car cdr]; [apply f_quote; auto|].
    unfold cmd. change (Cons (Symb (sy "APPEND")) x) with (val2 "cons" (Symb (sy "APPEND")) x). two "cons"%string; [apply f_quote; auto|arg].
Qed.
Example C87_example :
  joined (Chr 44) (map (map Chr) [[97; 98]; []; [99]]%Z) (map Chr [97; 98; 44; 44; 99]%Z) /\
  acts yes here ["ded"; "ins"; "lstA"; "lstB"; "acc"; "e"; "fun"; "lst"]%string giver gives /\
  acts yes here ["ded"; "ins"; "lstA"; "lstB"; "acc"; "e"; "fun"; "lst"]%string (the "cons") consing /\
  merged consing gives [Num 1; Num 2] (mk_list [Num 3]) library2 (mk_list [Num 2; Num 1; Num 3]) library2 /\
  acts yes here ["cmp"; "lst"; "elt"; "acc"; "cmd"; "val"; "fun"]%string single singles /\
  calls here library2 "match" /\
  deduped singles [Num 1; Num 2; Num 2] library2 [Num 1; Num 2] library2 /\
  skipped 2 [Num 1; Num 2; Num 3] [Num 3] /\ skipped (-1) [Num 1; Num 2] [] /\ int64 (-3) /\
  value "(join '((^a ^b) NIL (^c)) ^,)" library2 = Some (rd "(^a ^b ^, ^, ^c)") /\
  value "(merge (\ (q) q) cons '(1 2) '(3))" library2 = Some (rd "(2 1 3)") /\
  value "(dedup (\ (p q) (if (= p q) '(SKIP) (cons 'APPEND p))) '(1 2 2))" library2 = Some (rd "(1 2)") /\
  value "(dedup (\ (p q) NIL) '(1 2 2))" library2 = Some (rd "(1)") /\
  value "(args:skip '(1 2 3) 2)" library2 = Some (rd "(3)").
Proof.
  ands; try (match goal with |- value _ _ = _ => vm_compute; reflexivity end).
  - repeat (first [apply joined_one | apply (joined_more (Chr 44) [Chr 97; Chr 98]) | apply (joined_more (Chr 44) [])]; try discriminate).
  - apply giver_acts; reflexivity.
  - apply cons_acts.
  - exists (mk_list [Num 2; Num 1; Num 3]), library2. split.
    + repeat (econstructor; [split; [do 2 eexists; split; reflexivity|reflexivity]|]). constructor.
    + split; auto. eexists. ands; reflexivity.
  - apply single_acts; reflexivity.
  - unfold calls. replace (the "match") with (lib2 "match") by (vm_compute; reflexivity). apply ready2_means; [apply here_ready2|cbn; tauto].
  - eapply dd_append; [eapply dd_skip; [apply dd_first, dd_none|]|]; (split; [do 2 eexists; split; reflexivity|reflexivity]).
  - apply skipped_cons; [lia|]. apply skipped_cons; [lia|]. apply skipped_zero.
  - apply skipped_cons; [lia|]. apply skipped_cons; [lia|]. apply skipped_nil. lia.
  - unfold int64; lia.
Qed.
