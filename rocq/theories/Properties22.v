(** * Property C99: the numbering of arguments in the compiler (cps.l, cc.l). *)
From Verif Require Import Base Value ValueSpec ValueProofs Tails Print Eval Sexp EvalSpec EvalProofs
  Sem1 Sem2 Sem3 Sem4 Sem5 TailsProofs TailsSem BuiltinSpec Sem6 Cases Lib LibSpec LibBase LibProofs LibDerived LibMore LibAssoc LibNum LibCases
  Install CcSpec CcProofs.
From Verif Require Properties12.
Open Scope nat_scope.
Open Scope list_scope.

(** ** The state after loading the files *)
Lemma same_values5 : map (fun s => env_get (globals library3) (sy s)) (used ++ given) = map (fun s => Some (lib s)) (used ++ given).
Proof. vm_compute. reflexivity. Qed.
Lemma new_values5 : map (fun s => env_get (globals library3) (sy s)) (used5 ++ given5) = map (fun s => Some (lib5 s)) (used5 ++ given5).
Proof. vm_compute. reflexivity. Qed.
Lemma ready5_scope : forall c, avoids c (used ++ given) = true -> avoids c (used5 ++ given5) = true -> ready5 c library3.
Proof.
  intros c H1 H2. split; intros s I.
  - exact (Properties12.avoids_means c library3 (used ++ given) s (lib s) H1 I (Properties12.in_maps _ _ _ _ _ s same_values5 I)).
  - exact (Properties12.avoids_means c library3 (used5 ++ given5) s (lib5 s) H2 I (Properties12.in_maps _ _ _ _ _ s new_values5 I)).
Qed.
Lemma here_ready5 : ready5 here library3.
Proof. apply ready5_scope; vm_compute; reflexivity. Qed.

(** ** Lists of arguments *)

(** cc:replace puts another continuation in the place of the last element. *)
Theorem C99_replace : forall O l a k c w, increasing c -> ready5 c w ->
  applied O c (lib5 "cc:replace") [k; mk_list (l ++ [a])] w (Ret (mk_list (l ++ [k])) w).
Proof.
  intros O l a k c w I R. pose proof (replace_ok O (l ++ [a]) k c w I R) as H. rewrite removelast_last in H. exact H.
Qed.
Print Assumptions C99_replace.
(** cc:arg:get leaves out the last element. *)
Theorem C99_front : forall O l a c w, increasing c -> ready5 c w ->
  applied O c (lib5 "cc:arg:get") [mk_list (l ++ [a])] w (Ret (mk_list l) w).
Proof.
  intros O l a c w I R. pose proof (most_ok O (l ++ [a]) c w I R) as H. rewrite removelast_last in H. exact H.
Qed.
Print Assumptions C99_front.
(** cc:arg:idx gives the place of the first element that is the same. *)
Theorem C99_index : forall O x l r z c w, indexed x z l r -> int64 z -> int64 (z + Z.of_nat (length l)) -> increasing c -> ready5 c w ->
  answers O c (sy "cc:arg:idx") (lib5 "cc:arg:idx") [mk_list l; x; Num z] w (Ret r w).
Proof. intros. apply index_ok; auto. Qed.
Print Assumptions C99_index.

(** ** References *)

Lemma digit_bytes : forall l n, reads l n -> Forall (fun c => -128 <= c < 128 /\ c <> 0 /\ c <> 92)%Z l.
Proof.
  intros l n H. induction H as [|l n d D H IH]; [constructor|]. apply Forall_app. split; [exact IH|]. constructor; [|constructor].
  unfold digit in D. lia.
Qed.
Lemma reads_low : forall l n, reads l n -> (0 <= n)%Z /\ forall d r, l = d :: r -> d <> 48%Z -> (10 ^ Z.of_nat (length r) <= n)%Z.
Proof.
  intros l n H. induction H as [|l n d D H [P IH]]; [split; [lia|discriminate]|]. unfold digit in D. split; [lia|].
  intros e r E N. destruct l as [|e' l].
  - injection E as <- <-. change (10 ^ Z.of_nat (length (@nil Z)))%Z with 1%Z. lia.
  - injection E as <- <-. specialize (IH e' l eq_refl N). rewrite app_length. cbn [length].
    replace (Z.of_nat (length l + 1)) with (Z.of_nat (length l) + 1)%Z by lia. rewrite Z.pow_add_r by lia. lia.
Qed.
Lemma short_number : forall n l, writes_number n l -> (n < 10 ^ 15)%Z -> length l <= 15.
Proof.
  intros n l [R [[-> ->]|[d [r [-> N]]]]] B; [cbn; lia|]. destruct (reads_low _ _ R) as [_ L]. specialize (L d r eq_refl N).
  cbn [length]. destruct (Nat.le_gt_cases (S (length r)) 15) as [X|X]; [exact X|]. exfalso.
  assert (Y : (10 ^ 15 <= 10 ^ Z.of_nat (length r))%Z) by (apply Z.pow_le_mono_r; lia). lia.
Qed.

(** The placeholder made for a number below 10^15 is a name that begins with an
    underscore and goes on with its numeral, and cc:ref:idx gives the number back,
    whatever the arguments are called. *)
Theorem C99_placeholder_partial : forall O n, (0 <= n < 10 ^ 15)%Z -> exists l, writes_number n l /\
  str_of (sym_of (mk_chars (95%Z :: l))) = Some (mk_chars (95%Z :: l)) /\
  forall c w, increasing c -> ready5 c w -> shows c (sy "descend") None ->
    applied O c (lib5 "cps:symbol") [Num n] w (Ret (sym_of (mk_chars (95%Z :: l))) w) /\
    forall args, applied O c (lib5 "cc:ref:idx") [args; sym_of (mk_chars (95%Z :: l))] w (Ret (Num n) w).
Proof.
  intros O n B. assert (B64 : int64 n) by (unfold int64; lia). destruct (symbol_ok O n (proj1 B) B64) as [l [W H]]. exists l. split; [exact W|].
  assert (E : str_of (sym_of (mk_chars (95%Z :: l))) = Some (mk_chars (95%Z :: l))).
  { apply str_sym_inverse; [constructor; [lia|apply (digit_bytes l n), W]|]. cbn [length]. pose proof (short_number n l W (proj2 B)). lia. }
  split; [exact E|]. intros c w I R D. split; [apply H; auto|]. intro args.
  apply (ref_ok O args _ (95%Z :: l) (Num n) E eq_refl c w I R). intros S' I' R'. apply aton_ok; [apply W|exact B64|exact I'|apply R'].
Qed.
Print Assumptions C99_placeholder_partial.

(** A name of at most 16 characters that does not begin with an underscore is looked up
    among the arguments. *)
Theorem C99_argument_partial : forall O c0 l args r c w,
  Forall (fun z => -128 <= z < 128 /\ z <> 0 /\ z <> 92)%Z (c0 :: l) -> length (c0 :: l) <= 16 -> c0 <> 95%Z ->
  indexed (sym_of (mk_chars (c0 :: l))) 0 args r -> int64 (Z.of_nat (length args)) -> increasing c -> ready5 c w ->
  applied O c (lib5 "cc:ref:idx") [mk_list args; sym_of (mk_chars (c0 :: l))] w (Ret r w).
Proof.
  intros O c0 l args r c w F L N X B I R.
  assert (E : str_of (sym_of (mk_chars (c0 :: l))) = Some (mk_chars (c0 :: l))) by (apply str_sym_inverse; [exact F|cbn [length] in *; lia]).
  assert (Q : is_tail_call r = false). { clear -X. induction X; auto. }
  apply (ref_ok O _ _ (c0 :: l) r E Q c w I R). intros S' I' R'.
  apply Z.eqb_neq in N. rewrite N. apply index_ok; auto. unfold int64. lia.
Qed.
Print Assumptions C99_argument_partial.

(** An argument whose name begins with an underscore is taken for a placeholder; from
    10^15 on the names of the placeholders are cut, and different numbers have the same. *)
Theorem C99_refuted :
  value "(cc:arg:idx '(y _x) '_x 0)" library3 = Some (Num 1) /\ value "(cc:ref:idx '(y _x) '_x)" library3 = Some (Num 72) /\
  value "(cc:ref:idx NIL (cps:symbol 1234567890123456))" library3 = Some (Num 123456789012345) /\
  value "(= (cps:symbol 1234567890123456) (cps:symbol 1234567890123457))" library3 = Some Tru.
Proof. ands; vm_compute; reflexivity. Qed.
Print Assumptions C99_refuted.

(** ** Cases *)
Example C99_case : ready5 [] library3 /\ ready5 here library3 /\ increasing here /\ shows here (sy "descend") None /\
  indexed (Symb (sy "b")) 0 [Symb (sy "a"); Symb (sy "b"); Symb (sy "b")] (Num 1) /\
  sym_of (mk_chars [98%Z]) = Symb (sy "b") /\
  value "(cc:replace 'k2 '(f (g 1) k1))" library3 = Some (rd "(f (g 1) k2)") /\
  value "(cc:arg:get '(a b k))" library3 = Some (rd "(a b)") /\
  value "(cc:ref:idx '(a b) 'b)" library3 = Some (Num 1) /\ value "(cc:ref:idx '(a b) 'c)" library3 = Some Nil /\
  value "(cc:ref:idx '(a b) (cps:symbol 407))" library3 = Some (Num 407).
Proof.
  split; [apply ready5_scope; vm_compute; reflexivity|]. split; [exact here_ready5|]. split; [exact here_increasing|].
  split; [apply env_get_shows; vm_compute; reflexivity|]. split.
  - apply indexed_later; [|apply indexed_here; apply same_refl]. intro X. apply equ_same in X. vm_compute in X. discriminate X.
  - ands; vm_compute; reflexivity.
Qed.
