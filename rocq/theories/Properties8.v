(** * Properties8: the bundled library (C46, C63, C64, C65).

    Each theorem is about the function of that name in the state [library], obtained
    by reading and evaluating the text of the files of share/mnml with the model of
    the reader and of the evaluator; [ready] says that the names used still have
    these values. *)
From Verif Require Import Base Value ValueSpec ValueProofs Tails Print Eval Sexp EvalSpec EvalProofs
  Sem1 Sem2 Sem3 Sem4 Sem5 TailsProofs TailsSem BuiltinSpec Sem6 Cases Lib LibText LibSpec LibBase LibProofs LibDerived LibMore LibAssoc LibSort LibNum LibCases.
From Coq Require Import Sorted Permutation.
Open Scope nat_scope.
Open Scope list_scope.

Ltac valued := match goal with |- value _ _ = _ => vm_compute; reflexivity | |- the _ = _ => reflexivity end.
(** The library is loaded, from program start and in a scope with local names. *)
Example library_case : ready [] library /\ ready here library /\ increasing here.
Proof. ands; [apply ready_scope; vm_compute; reflexivity|apply here_ready|apply here_increasing]. Qed.

(** ** C46: lists *)
Theorem C46_map : forall O c f F l w bs w', acts O c ["fun"; "lst"]%string f F -> increasing c -> ready c w ->
  maps F l w bs w' -> applied O c (lib "map") [f; mk_list l] w (Ret (mk_list bs) w').
Proof. intros. eapply map_ok; eauto. apply apart_refl. Qed.
Print Assumptions C46_map.
Example C46_map_example : acts yes here ["fun"; "lst"]%string adder adds /\
  maps adds [Num 3; Num 1; Num 2] library [Num 13; Num 11; Num 12] library /\
  runs yes here (rd "(map (\ (x) (+ x k)) xs)") library (Ret (rd "(13 11 12)") library).
Proof.
  assert (A : acts yes here ["fun"; "lst"]%string adder adds) by (apply adder_acts; reflexivity).
  assert (M : maps adds [Num 3; Num 1; Num 2] library [Num 13; Num 11; Num 12] library).
  { repeat (econstructor; [split; [eexists; ands; [reflexivity|reflexivity|unfold int64; lia]|reflexivity]|]). constructor. }
  ands; auto.
  apply (C46_map yes here adder adds _ library _ library A here_increasing here_ready M (sy "map") false
    [rd "(\ (x) (+ x k))"; rd "xs"] library); [apply here_ready; cbn; tauto|].
  apply list2 with library.
  - apply (f_lambda yes here false (pars ["x"]%string) [(| sym "+"; sym "x"; sym "k" |)] library here_ready).
  - apply f_sym, means_get. reflexivity.
Qed.
(** The effects of the function happen from the left. *)
Example C46_map_effects : exists w, runs yes [] (rd "(map (\ (x) (prin x)) '(1 2 3))") library (Ret (rd "(1 2 3)") w) /\
  outs w = [(1%N, [51%N]); (1%N, [50%N]); (1%N, [49%N])].
Proof. eexists. split; [computed|reflexivity]. Qed.

Theorem C46_foldr : forall O c f F z l w r w', acts O c ["fun"; "lst"; "acc"]%string f F -> increasing c -> ready c w ->
  is_tail_call z = false -> folds_right F z l w r w' -> applied O c (lib "foldr") [f; mk_list l; z] w (Ret r w').
Proof. intros. eapply foldr_ok; eauto. apply apart_refl. Qed.
Print Assumptions C46_foldr.
(** The function calls itself in tail position: it must be called by its own name (C63). *)
Theorem C46_foldl : forall O c f F l z w r w', acts O c ["fun"; "acc"; "lst"]%string f F -> increasing c -> ready c w ->
  is_tail_call z = false -> folds_left F l z w r w' ->
  answers O c (sy "foldl") (lib "foldl") [f; z; mk_list l] w (Ret r w').
Proof. intros. eapply foldl_ok; eauto. apply apart_refl. Qed.
Print Assumptions C46_foldl.
Example C46_folds_example : acts yes here ["fun"; "lst"; "acc"]%string summer sums /\
  folds_right sums (Num 100) [Num 3; Num 1; Num 2] library (Num 106) library /\
  folds_left sums [Num 3; Num 1; Num 2] (Num 100) library (Num 106) library /\
  value "(foldr cons '(1 2 3) 4)" library = Some (rd "(1 2 3 . 4)") /\
  value "(foldl cons 4 '(1 2 3))" library = Some (rd "(((4 . 1) . 2) . 3)").
Proof.
  ands; try valued; [apply summer_acts; reflexivity| |].
  - apply fr_cons with (Num 103) library; [apply fr_cons with (Num 102) library; [apply fr_cons with (Num 100) library; [constructor|]|]|];
      (split; [eexists; eexists; ands; [reflexivity|reflexivity|unfold int64; lia]|reflexivity]).
  - repeat (econstructor; [split; [eexists; eexists; ands; [reflexivity|reflexivity|unfold int64; lia]|reflexivity]|]). constructor.
Qed.

Theorem C46_map2 : forall O c f F l1 l2 w bs w', acts O c ["fun"; "lst1"; "lst2"]%string f F -> increasing c -> ready c w ->
  maps2 F l1 l2 w bs w' -> applied O c (lib "map2") [f; mk_list l1; mk_list l2] w (Ret (mk_list bs) w').
Proof. intros. eapply map2_ok; eauto. apply apart_refl. Qed.
Print Assumptions C46_map2.
Theorem C46_zip : forall O c a b w, increasing c -> ready c w ->
  applied O c (lib "zip") [mk_list a; mk_list b] w (Ret (alist (combine a b)) w).
Proof. exact zip_combine. Qed.
Print Assumptions C46_zip.
Example C46_map2_example : acts yes here ["fun"; "lst1"; "lst2"]%string summer sums /\
  maps2 sums [Num 3; Num 1; Num 2] [Num 4; Num 5] library [Num 7; Num 6] library /\
  value "(map2 + '(3 1 2) '(4 5))" library = Some (rd "(7 6)") /\
  value "(zip '(a b c) '(1 2))" library = Some (rd "((a . 1) (b . 2))").
Proof.
  ands; try valued; [apply summer_acts; reflexivity|].
  repeat (eapply maps2_cons; [split; [eexists; eexists; ands; [reflexivity|reflexivity|unfold int64; lia]|reflexivity]|]).
  apply maps2_nil2.
Qed.

Theorem C46_rev : forall O c l w, increasing c -> ready c w ->
  applied O c (lib "rev") [mk_list l] w (Ret (mk_list (rev l)) w).
Proof. exact rev_ok. Qed.
Print Assumptions C46_rev.
Example C46_rev_example : runs yes here (rd "(rev xs)") library (Ret (mk_list [Num 2; Num 1; Num 3]) library) /\
  value "(rev '(1 (2 3) NIL 4))" library = Some (rd "(4 NIL (2 3) 1)").
Proof.
  split; [|vm_compute; reflexivity].
  apply (C46_rev yes here [Num 3; Num 1; Num 2] library here_increasing here_ready (sy "rev") false [rd "xs"] library);
    [apply here_ready; cbn; tauto|]. apply list1, f_sym, means_get. reflexivity.
Qed.

(** Elements for which the function answers other than NIL are taken out. *)
Theorem C46_filter : forall O c f F l w r w', acts O c ["fun"; "lst"; "acc"; "e"]%string f F -> increasing c -> ready c w ->
  filters F l w r w' -> applied O c (lib "filter") [f; mk_list l] w (Ret (mk_list r) w').
Proof. intros. eapply filter_ok; eauto. apply apart_refl. Qed.
Print Assumptions C46_filter.
Theorem C46_has : forall O c l x w, increasing c -> ready c w ->
  exists v, answer (exists a, In a l /\ same a x) v /\ applied O c (lib "has") [mk_list l; x] w (Ret v w).
Proof. exact has_ok. Qed.
Print Assumptions C46_has.
Example C46_filter_example : filters (pure (fun vs b => exists z, vs = [Num z] /\ b = if (z <? 2)%Z then Tru else Nil))
    [Num 3; Num 1; Num 2] library [Num 3; Num 2] library /\
  value "(filter (\ (x) (< x 2)) '(3 1 2))" library = Some (rd "(3 2)") /\
  value "(has '(a (b) c) '(b))" library = Some Tru /\ value "(has '(a (b) c) 'b)" library = Some Nil.
Proof.
  ands; try valued.
  eapply filters_in; [eapply filters_out; [eapply filters_in; [constructor|]| |]|];
    try (split; [eexists; split; reflexivity|reflexivity]). discriminate.
Qed.

Theorem C46_plus : forall O c a b w, increasing c -> ready c w ->
  applied O c (lib "$+") [mk_list a; mk_list b] w (Ret (mk_list (a ++ b)) w).
Proof. exact plus_ok. Qed.
Print Assumptions C46_plus.
(** [append] evaluates its arguments after the first in a scope with names of its
    own: this holds when they do not depend on these.  The names fun, acc and lst are
    in the way only when the caller does not have them. *)
Theorem C46_append_partial : forall O c t e es w0 l w r w', increasing c -> ready c w0 -> ready c w ->
  runs O c e w0 (Ret (mk_list l) w) -> joins O c ["x"; "@"; "acc0"; "e0"]%string ["fun"; "acc"; "lst"]%string es w r w' ->
  runs O c (Pair t (Symb (sy "append")) (Cons e (mk_list es))) w0 (Ret (mk_list (l ++ r)) w').
Proof. exact append_ok. Qed.
Print Assumptions C46_append_partial.
Theorem C46_append_refuted : value "(let ((x . '(1)) (y . '(2))) (append y x))" library = Some (rd "(2 2)") /\
  value "(let ((u . '(1)) (y . '(2))) (append y u))" library = Some (rd "(2 1)").
Proof. split; vm_compute; reflexivity. Qed.
Print Assumptions C46_append_refuted.
Example C46_append_example :
  joins yes here ["x"; "@"; "acc0"; "e0"]%string ["fun"; "acc"; "lst"]%string [rd "xs"; rd "'(7)"] library
    ([Num 3; Num 1; Num 2] ++ [Num 7] ++ []) library /\
  runs yes here (rd "(append '(8 9) xs '(7))") library (Ret (rd "(8 9 3 1 2 7)") library) /\
  value "($+ '(1 2) '(3))" library = Some (rd "(1 2 3)").
Proof.
  assert (J : joins yes here ["x"; "@"; "acc0"; "e0"]%string ["fun"; "acc"; "lst"]%string [rd "xs"; rd "'(7)"] library
    ([Num 3; Num 1; Num 2] ++ [Num 7] ++ []) library).
  { apply joins_cons with library; [|apply here_ready|].
    - apply (joins_name yes here (sy "xs")); [apply here_increasing|reflexivity|].
      intros s I. repeat (destruct I as [<-|I]; [vm_compute; discriminate|]). destruct I.
    - apply joins_cons with library; [|apply here_ready|constructor].
      intros S I AP. apply (f_quote yes S false (mk_list [Num 7])).
      eapply ready_apart; [apply beside_apart; exact AP|reflexivity|apply here_ready]. }
  ands; [exact J| |vm_compute; reflexivity].
  apply (C46_append_partial yes here false (rd "'(8 9)") [rd "xs"; rd "'(7)"] library [Num 8; Num 9] library
    [Num 3; Num 1; Num 2; Num 7] library here_increasing here_ready here_ready); [|exact J].
  apply (f_quote yes here false (mk_list [Num 8; Num 9])). apply here_ready.
Qed.

Theorem C46_assoc : forall O c k l r w, increasing c -> ready c w ->
  Forall (fun p => is_tail_call (fst p) = false /\ is_tail_call (snd p) = false) l -> finds k l r ->
  answers O c (sy "assoc") (lib "assoc") [k; alist l] w (Ret r w).
Proof. intros. apply assoc_ok; auto. Qed.
Print Assumptions C46_assoc.
Theorem C46_erase : forall O c k l r w, increasing c -> ready c w -> erased k l r ->
  applied O c (lib "erase") [k; alist l] w (Ret (alist r) w).
Proof. intros. apply erase_ok; auto. Qed.
Print Assumptions C46_erase.
Theorem C46_replc : forall O c k x l r w, increasing c -> ready c w -> replaced k x l r ->
  applied O c (lib "replc") [k; x; alist l] w (Ret (alist r) w).
Proof. intros. apply replc_ok; auto. Qed.
Print Assumptions C46_replc.
Example C46_assoc_example : 
  finds (Symb (sy "b")) [(Symb (sy "a"), Num 1); (Symb (sy "b"), Num 2); (Symb (sy "b"), Num 3)] (Num 2) /\
  value "(assoc 'b '((a . 1) (b . 2) (b . 3)))" library = Some (Num 2) /\
  value "(erase 'b '((a . 1) (b . 2) (b . 3)))" library = Some (rd "((a . 1))") /\
  value "(replc 'b 7 '((a . 1) (b . 2) (b . 3)))" library = Some (rd "((a . 1) (b . 7) (b . 7))").
Proof.
  ands; try valued. apply finds_later; [|apply finds_here].
  - intro H. apply equ_same in H. vm_compute in H. discriminate.
  - apply equ_same. reflexivity.
Qed.

Theorem C46_accessors : forall O c s l v r w, In (s, l) chains -> increasing c -> ready c w ->
  is_tail_call r = false -> halves l v r -> applied O c (lib s) [v] w (Ret r w).
Proof. intros. eapply chain_ok; eauto. Qed.
Print Assumptions C46_accessors.
Theorem C46_last : forall O c l x w, increasing c -> ready c w -> is_tail_call x = false ->
  answers O c (sy "last") (lib "last") [mk_list (l ++ [x])] w (Ret x w).
Proof. intros. apply last_ok; auto. Qed.
Print Assumptions C46_last.
(** The [last] of last.l; the one of manips.l stops before an element that is NIL. *)
Theorem C46_last_refuted : exists w, load_all [iterators_l; rev_l; manips_l] world0 = Some w /\
  value "(last '(1 NIL 3))" w = Some (Num 1) /\ value "(last '(1 NIL 3))" library = Some (Num 3).
Proof. eexists. ands; [vm_compute; reflexivity|vm_compute; reflexivity|vm_compute; reflexivity]. Qed.
Print Assumptions C46_last_refuted.
Theorem C46_rep : forall O c z v w, int64 z -> increasing c -> ready c w ->
  applied O c (lib "rep") [Num z; v] w (Ret (mk_list (repeat v (Z.to_nat z))) w).
Proof. intros. apply rep_ok; auto. Qed.
Print Assumptions C46_rep.
(** The first N elements, NIL standing for those that are missing. *)
Theorem C46_truncl : forall O z l c w, int64 z -> increasing c -> ready c w ->
  applied O c (lib "truncl") [Num z; mk_list l] w
    (Ret (mk_list (firstn (Z.to_nat z) l ++ repeat Nil (Z.to_nat z - length l))) w).
Proof. exact truncl_padded. Qed.
Print Assumptions C46_truncl.
(** The last N elements. *)
Theorem C46_truncr : forall O z l c w, int64 z -> increasing c -> ready c w ->
  applied O c (lib "truncr") [Num z; mk_list l] w
    (Ret (mk_list (repeat Nil (Z.to_nat z - length l) ++ skipn (length l - Z.to_nat z) l)) w).
Proof. exact truncr_padded. Qed.
Print Assumptions C46_truncr.
Theorem C46_orelse : forall O c a b w, is_tail_call a = false -> is_tail_call b = false -> increasing c -> ready c w ->
  applied O c (lib "<|>") [a; b] w (Ret (if is_null a then b else a) w).
Proof. intros. apply orelse_ok; auto. Qed.
Print Assumptions C46_orelse.
Example C46_others_example : halves ["car"; "cdr"; "cdr"]%string (rd "(1 2 3)") (Num 3) /\
  value "(caddr '(1 2 3))" library = Some (Num 3) /\ value "(last '(1 (2) 3))" library = Some (Num 3) /\
  value "(rep 3 'a)" library = Some (rd "(a a a)") /\ value "(rep -3 'a)" library = Some Nil /\
  value "(truncl 2 '(1 2 3))" library = Some (rd "(1 2)") /\ value "(truncr 2 '(1 2 3))" library = Some (rd "(2 3)") /\
  value "(truncr 4 '(1 2 3))" library = Some (rd "(NIL 1 2 3)") /\ value "(<|> NIL 5)" library = Some (Num 5).
Proof.
  ands; try valued.
  apply halves_cons with (rd "(3)"); [|left; split; reflexivity].
  apply halves_cons with (rd "(2 3)"); [|right; split; reflexivity].
  apply halves_cons with (rd "(1 2 3)"); [|right; split; reflexivity]. constructor.
Qed.

(** ** C63 *)
(** Under any name: builtins ... *)
Theorem C63_builtins : forall O s i h p, the s = builtin i h -> prim_of_addr i = Some p ->
  forall c k1 k2 t u1 u2 es w o, means c w k1 (the s) -> means c w k2 (the s) ->
  (runs O c (Pair t (Sym u1 k1) es) w o <-> runs O c (Pair t (Sym u2 k2) es) w o).
Proof. exact builtin_alias. Qed.
Print Assumptions C63_builtins.
(** ... and functions with named parameters, when running the body leads to a value
    without a self-call in tail position on the way. *)
Theorem C63_functions_partial : forall O c hs d body vs w v w', increasing c -> NoDup (map fst d) -> body <> [] ->
  length vs = length hs -> is_tail_call v = false ->
  (forall S', inside hs vs d c S' -> runs_body O S' body Nil w (Ret v w')) ->
  applied O c (lam (pars hs) d body) vs w (Ret v w').
Proof. exact apply_fun. Qed.
Print Assumptions C63_functions_partial.
Theorem C63_other_name_refuted :
  value "(last '(1 2))" library = Some (Num 2) /\
  value "(let ((f . last)) (f '(1 2)))" library <> Some (Num 2) /\
  value "(map last '((1 2) (3)))" library <> Some (rd "(2 3)").
Proof. ands; vm_compute; [reflexivity|discriminate|discriminate]. Qed.
Print Assumptions C63_other_name_refuted.
Example C63_example : the "+" = builtin 38 Two /\
  value "((\ (f) (f 1 2)) +)" library = Some (Num 3) /\
  value "(map rev '((1 2) (3)))" library = Some (rd "((2 1) (3))") /\
  (forall S', inside ["x"]%string [Num 4] [] here S' ->
     runs_body yes S' [(| sym "+"; sym "x"; sym "k" |)] Nil library (Ret (Num 14) library)).
Proof.
  ands; try valued. intros S' IN.
  assert (R : ready S' library) by (eapply inside_ready0; [exact IN|reflexivity|apply here_ready]).
  apply body_one.
  eapply (f_arith yes "+"%string S') with (v1 := Num 4) (w1 := library) (v2 := Num 10) (a := 4%Z) (b := 10%Z);
    [cbn; tauto|auto|arg| |reflexivity|reflexivity|constructor; unfold int64; lia].
  apply f_sym, means_get. destruct IN as [_ G]. rewrite G. reflexivity.
Qed.

(** ** C64: sorting *)
(** The scope of the call must not have the name [ins], which isort.l uses. *)
Theorem C64_isort_partial : forall O c f dom cmp l w,
  acts O c ["LESS"; "LST"; "E"; "ins"; "fun"; "acc"; "lst"]%string f (compares dom cmp) -> weak_order dom cmp ->
  Forall dom l -> increasing c -> ready c w -> shows c (sy "ins") None ->
  exists l', sorts cmp l l' /\ applied O c (lib "isort") [f; mk_list l] w (Ret (mk_list l') w).
Proof. intros. eapply isort_ok; eauto. apply apart_refl. Qed.
Print Assumptions C64_isort_partial.
Theorem C64_isort_refuted : value "(let ((ins . 5)) (isort < '(3 1 2)))" library <> Some (rd "(1 2 3)") /\
  value "(isort < '(3 1 2))" library = Some (rd "(1 2 3)").
Proof. split; vm_compute; [discriminate|reflexivity]. Qed.
Print Assumptions C64_isort_refuted.
Theorem C64_insert : forall O c f dom cmp e l l' w,
  acts O c ["cmp"; "a"; "lst"; "cur"; "nxt"]%string f (compares dom cmp) -> weak_order dom cmp ->
  dom e -> Forall dom l -> Forall (kept "cur") l -> (forall l1 l2, l = l1 ++ l2 -> kept "nxt" (mk_list l2)) ->
  increasing c -> ready c w -> inserts cmp e l l' ->
  applied O c (lib "insert") [f; e; mk_list l] w (Ret (mk_list l') w) /\
  (StronglySorted (fine cmp) l -> Permutation (e :: l) l' /\ StronglySorted (fine cmp) l').
Proof. intros. split; [eapply insert_ok; eauto; apply apart_refl|intro; eapply inserts_sorted; eauto]. Qed.
Print Assumptions C64_insert.
Theorem C64_strlt : forall O a b c w, increasing c -> ready c w ->
  exists v, answer (dictionary a b) v /\ applied O c (lib "strlt") [mk_chars a; mk_chars b] w (Ret v w).
Proof. exact strlt_answer. Qed.
Print Assumptions C64_strlt.
(** Numbers with [<] and strings with [strlt] can be sorted. *)
Example C64_example :
  acts yes here ["LESS"; "LST"; "E"; "ins"; "fun"; "acc"; "lst"]%string (the "<") (compares number number_lt) /\
  weak_order number number_lt /\ Forall number [Num 3; Num 1; Num 2] /\ shows here (sy "ins") None /\
  acts yes here ["LESS"; "LST"; "E"; "ins"; "fun"; "acc"; "lst"]%string (lib "strlt") (compares text text_lt) /\
  weak_order text text_lt /\
  inserts number_lt (Num 2) [Num 1; Num 3] [Num 1; Num 2; Num 3] /\
  Forall (kept "cur") [Num 1; Num 3] /\
  value "(insert < 2 '(1 3))" library = Some (rd "(1 2 3)") /\
  value "(isort (\ (a b) (< (car a) (car b))) '((2 . a) (1 . b) (2 . c) (1 . d)))" library =
    Some (rd "((1 . b) (1 . d) (2 . a) (2 . c))") /\
  value "(isort strlt '((^b ^a) (^a ^b) (^b) (^a)))" library = Some (rd "((^a) (^a ^b) (^b) (^b ^a))").
Proof.
  ands; try valued.
  - apply less_acts.
  - apply less_weak.
  - repeat constructor; eexists; reflexivity.
  - apply env_get_shows. reflexivity.
  - apply strlt_acts. reflexivity.
  - apply strlt_weak.
  - apply inserts_next; [reflexivity|]. apply inserts_here. discriminate.
  - repeat constructor.
Qed.

(** ** C65: numerals *)
Theorem C65_aton : forall O l n c w, reads l n -> int64 n -> increasing c -> ready c w ->
  applied O c (lib "aton") [mk_chars l] w (Ret (Num n) w).
Proof. intros. apply aton_ok; auto. Qed.
Print Assumptions C65_aton.
(** Not for negative numbers, and not when the scope of the call has the name
    [descend], which ntoa.l uses. *)
Theorem C65_ntoa_partial : forall O n, (0 <= n)%Z -> int64 n -> exists l, writes_number n l /\
  forall c w, increasing c -> ready c w -> calls c w "chr" -> shows c (sy "descend") None ->
  applied O c (lib "ntoa") [Num n] w (Ret (mk_chars l) w).
Proof. exact ntoa_ok. Qed.
Print Assumptions C65_ntoa_partial.
(** Any number; what is between is not a numeral when the number is negative. *)
Theorem C65_round_trip_partial : forall O n c t e w0 w, int64 n -> increasing c -> ready c w0 -> ready c w ->
  calls c w "chr" -> shows c (sy "descend") None -> runs O c e w0 (Ret (Num n) w) ->
  runs O c (Pair t (Symb (sy "aton")) (Cons (Cons (Symb (sy "ntoa")) (Cons e Nil)) Nil)) w0 (Ret (Num n) w).
Proof. exact ntoa_aton. Qed.
Print Assumptions C65_round_trip_partial.
Theorem C65_refuted : value "(ntoa -5)" library = Some (mk_chars [43%Z]) /\
  value "(let ((descend . 1)) (ntoa 25))" library <> Some (mk_chars [50; 53]%Z) /\
  value "(ntoa 25)" library = Some (mk_chars [50; 53]%Z).
Proof. ands; vm_compute; [reflexivity|discriminate|reflexivity]. Qed.
Print Assumptions C65_refuted.
Example C65_example : reads [52; 48; 50]%Z 402 /\ writes_number 402 [52; 48; 50]%Z /\ int64 402 /\
  shows here (sy "descend") None /\ calls here library "chr" /\
  value "(aton '(^4 ^0 ^2))" library = Some (Num 402) /\ value "(ntoa 402)" library = Some (mk_chars [52; 48; 50]%Z) /\
  value "(aton (ntoa -12))" library = Some (Num (-12)) /\
  value "(aton (ntoa 9223372036854775807))" library = Some (Num 9223372036854775807).
Proof.
  assert (R : reads [52; 48; 50]%Z 402).
  { apply (reads_snoc [52; 48]%Z 40 50); [unfold digit; lia|]. apply (reads_snoc [52]%Z 4 48); [unfold digit; lia|].
    apply (reads_snoc [] 0 52); [unfold digit; lia|constructor]. }
  ands; try valued; auto.
  - split; auto. right. exists 52%Z, [48; 50]%Z. split; auto. discriminate.
  - unfold int64. lia.
  - apply env_get_shows. reflexivity.
  - apply means_lookup. vm_compute. reflexivity.
Qed.
