(** * Properties of the reader. *)
From Verif Require Import Value ValueSpec Print PrintSpec PrintProofs Lexer LexerSpec LexerProofs ReadSpec Parser
  ParserProofs ReadProofs.
Local Open Scope nat_scope.
Local Open Scope string_scope.
Local Open Scope list_scope.

(** Read-time evaluation for the examples: adds 1 to a number, else identity, and
    counts. *)
Definition ev1 (a : atom) (n : nat) : option (atom * nat) :=
  Some (match a with Num z => Num (z + 1) | _ => a end, S n).
Definition start (n : nat) : lstate nat := mkl 0 [] [] n.

(** ** C28 *)
(** Splitting is the relation "longest token first, special words before names":
    exactly one result for every text. *)
Theorem C28_tokens : forall s, exists l e, splits s l e /\ tokens s = (l, e) /\
  forall l' e', splits s l' e' -> l' = l /\ e' = e.
Proof.
  intro s; destruct (tokens s) as (l, e) eqn:E; exists l, e; apply tokens_splits in E.
  split; [exact E |]; split; [reflexivity |].
  intros l' e' H; exact (splits_unique s l' e' H l e E).
Qed.
Print Assumptions C28_tokens.
(** The scanner of the reader acts on those tokens in order. *)
Theorem C28_reader : forall W ev s l e st, splits s l e -> lexer_parse W ev s st = run ev l e st.
Proof. intros W ev s l e st H; exact (parse_splits ev s l e st H). Qed.
Print Assumptions C28_reader.
(** Nothing is lost or invented, and every token has at least one byte. *)
Theorem C28_every_byte : forall s l e, splits s l e ->
  Forall (fun t => snd t <> []) l /\ e <> Unfinished /\
  s = concat (map snd l) ++ match e with Waits r | Purged r => r | _ => [] end.
Proof.
  intros s l e H; induction H as [| s k t r l e N (E & _) _ (F & U & IH) | s N | c s C N]; cbn [map concat snd app].
  - ands; [constructor | discriminate | reflexivity].
  - ands; [constructor; auto | exact U |]; rewrite E, IH, app_assoc; reflexivity.
  - ands; [constructor | discriminate | reflexivity].
  - ands; [constructor | discriminate | reflexivity].
Qed.
Print Assumptions C28_every_byte.
Example C28_example : tokens (bs "(f -12'x)") =
  ([(KOpen, bs "("); (KSymbol, bs "f"); (KSpace, bs " "); (KNumber, bs "-12");
    (KPSymbol Quote, bs "'x"); (KClose, bs ")")], Done).
Proof. vm_compute; reflexivity. Qed.
Example C28_example_wait : tokens (34%N :: bs "ab") = ([], Waits (34%N :: bs "ab")).
Proof. vm_compute; reflexivity. Qed.

(** ** C27 *)
Theorem C27_numerals : forall W (ev : atom -> W -> option (atom * W)) t z w, numeral t z ->
  lexer_parse W ev (t ++ [10%N]) (mkl 0 [] [] w)
  = Some (mkl 0 [] [Num (Z.max (- 2 ^ 63) (Z.min z (2 ^ 63 - 1)))] w, LDone).
Proof. intros W ev t z w H; exact (number_read ev t z w H). Qed.
Print Assumptions C27_numerals.
Example C27_example : numeral (bs "-00123456789012345678901234567890") (-123456789012345678901234567890).
Proof.
  change (-123456789012345678901234567890)%Z with (- Z.of_N (dec_value (bs "00123456789012345678901234567890")))%Z.
  apply numeral_minus; [discriminate |].
  repeat (apply Forall_cons; [unfold is_digit; split; discriminate |]); constructor.
Qed.
Example C27_example_read :
  lexer_parse nat ev1 (bs "-00123456789012345678901234567890" ++ [10%N]) (start 0)
  = Some (mkl 0 [] [Num (- 2 ^ 63)] 0, LDone).
Proof. vm_compute; reflexivity. Qed.

(** ** C26 *)
(** The literal text of a readable value, on a line that fits the read buffer. *)
Theorem C26_round_trip_partial : forall W (ev : atom -> W -> option (atom * W)) v t m rest n w,
  readable v -> c_value v -> lisp_prin [] m v true = Some t -> n <> 0 ->
  lexer_parse W ev (t ++ [10%N]) (mkl 0 [] [] w) = Some (mkl 0 [] [v] w, LDone) /\
  (length t <= 1022 -> lisp_read W ev n [] (t ++ 10%N :: rest) w = Value W v [] rest w).
Proof.
  intros W ev v t m rest n w R C P N; destruct (literal_print [] m v C) as (t' & Li & _ & E).
  cbn [app] in E; rewrite P in E; injection E as <-; split.
  - exact (print_parse ev v t w Li R).
  - intro L; exact (print_read ev v t rest n w Li R L N).
Qed.
Print Assumptions C26_round_trip_partial.
(** The backslash character prints as two bytes that do not read back... *)
Theorem C26_backslash_refuted : exists v t, c_value v /\ lisp_prin [] (fun _ => 0%N) v true = Some t /\
  forall n, exists l, lexer_parse nat ev1 (t ++ [10%N]) (start n) = Some (l, LPurged) /\ got l = [].
Proof.
  exists (Chr 92), (bs "^\"); split; [cbn; lia |]; split; [reflexivity |].
  intro n; exists (start n); split; [vm_compute; reflexivity | reflexivity].
Qed.
Print Assumptions C26_backslash_refuted.
(** ... and a readable value whose text is longer than the buffer is read as
    another value. *)
Definition long_value : atom := mk_list (repeat (Num 123) 300).
Theorem C26_long_refuted : exists v t v' rest, readable v /\ c_value v /\
  lisp_prin [] (fun _ => 0%N) v true = Some t /\
  lisp_read nat ev1 10 [] (t ++ [10%N]) 0 = Value nat v' [] rest 0 /\ v' <> v.
Proof.
  exists long_value.
  destruct (lisp_prin [] (fun _ => 0%N) long_value true) as [t |] eqn:E; [| vm_compute in E; discriminate].
  exists t; vm_compute in E; injection E as <-.
  exists (mk_list (repeat (Num 123) 255 ++ [Num 12; Num 3] ++ repeat (Num 123) 44)), [].
  ands.
  - unfold long_value; generalize 300; intro k; induction k; cbn; constructor; auto; constructor; lia.
  - unfold long_value; generalize 300; intro k; induction k; cbn; auto; split; auto; lia.
  - reflexivity.
  - vm_compute; reflexivity.
  - vm_compute; discriminate.
Qed.
Print Assumptions C26_long_refuted.
Definition c26_value : atom :=
  mk_list [Num (-7); mk_list [Symb (sy "ab-c"); Nil; Cons Tru (Chr 10)]; Chr 32; Wild; mk_chars [104; 105]%Z].
Example C26_example : readable c26_value /\ c_value c26_value.
Proof.
  split; [| vm_compute; repeat split; try discriminate; repeat constructor].
  assert (S : readable (Symb (sy "ab-c"))).
  { apply (rd_sym (bs "ab-c")); [| exists 12; split; reflexivity].
    split; [| split].
    - apply symbol_chars; [left; right; split; discriminate | | cbn; lia].
      repeat (apply Forall_cons; [apply alnum_marks; reflexivity |]); constructor.
    - intro H; inversion H as [s _ F E | s _ F E].
      inversion F as [| c r D]; subst; vm_compute in D; destruct D as (_ & D); apply D; reflexivity.
    - intro I; repeat (destruct I as [I | I]; [vm_compute in I; discriminate I |]); destruct I. }
  unfold c26_value; cbn [mk_list mk_chars map].
  repeat first [apply rd_nil | apply rd_true | apply rd_wild | exact S | apply rd_pair
    | apply rd_num; lia | apply rd_chr; [left; lia | lia] | apply rd_chr; [right; cbn; tauto | lia]].
Qed.
Example C26_example_read :
  option_map (fun t => lisp_read nat ev1 1 [] (t ++ 10%N :: bs "more") 0)
    (lisp_prin [] (fun _ => 0%N) c26_value true) = Some (Value nat c26_value [] (bs "more") 0).
Proof. vm_compute; reflexivity. Qed.

(** ** C48 *)
(** Every text of the grammar of [ReadSpec] reads as its value(s), with read-time
    evaluation and splicing done from left to right. *)
Theorem C48_reader_partial : forall W (ev : atom -> W -> option (atom * W)) s l w vs w',
  splits s l Done -> program W (runs ev) w l vs w' ->
  lexer_parse W ev s (mkl 0 [] [] w) = Some (mkl 0 [] vs w', LDone).
Proof. intros W ev s l w vs w' S P; exact (reads_program ev s l w vs w' S P). Qed.
Print Assumptions C48_reader_partial.
(** Missing: splicing a name.  The tilde stays in the name, so that the symbol
    evaluated is another one. *)
Theorem C48_splice_refuted : exists s, splits s
    [(KOpen, bs "("); (KNumber, bs "1"); (KSpace, bs " "); (KPSymbol Tilde, bs "~x"); (KClose, bs ")")] Done /\
  forall W (ev : atom -> W -> option (atom * W)) w,
    lexer_parse W ev s (mkl 0 [] [] w) =
    match ev (Symb (sy "~x")) w with
    | Some (v, w') => Some (mkl 0 [] [conc (mk_list [Num 1]) v] w', LDone)
    | None => None
    end.
Proof.
  exists (bs "(1 ~x)"); split; [apply tokens_splits; vm_compute; reflexivity |].
  intros W ev w; vm_compute; destruct (ev _ w) as [(v, w') |]; [| reflexivity].
  destruct v; reflexivity.
Qed.
Print Assumptions C48_splice_refuted.
Example C48_example :
  lexer_parse nat ev1 (bs "(a . `5) '(b ~(1 . 2)) # note") (start 0)
  = Some (mkl 0 [] [Cons (Symb (sy "a")) (Num 6);
                    Cons (Symb (sy "quote")) (Cons (Symb (sy "b")) (Cons (Num 1) (Num 2)))] 2, LDone).
Proof. vm_compute; reflexivity. Qed.
Example C48_example_program :
  exists l, splits (bs "(1 ~(2 3) . `5)") l Done /\
    program nat (runs ev1) 0 l [Cons (Num 1) (Cons (Num 2) (Cons (Num 3) (Num 6)))] 2.
Proof.
  eexists; split; [apply tokens_splits; vm_compute; reflexivity |].
  assert (D : forall c, (48 <= c <= 57)%N -> numeral [c] (Z.of_N (c - 48))).
  { intros c H; replace (Z.of_N (c - 48)) with (Z.of_N (dec_value [c])) by (unfold dec_value; cbn; lia).
    apply numeral_plain; [discriminate | repeat constructor; lia]. }
  assert (Fm : forall c w z, (48 <= c <= 57)%N -> z = closest (Z.of_N (c - 48)) -> form nat (runs ev1) w [(KNumber, [c])] (Num z) w).
  { intros c w z H ->; apply form_plain, plain_number, D, H. }
  match goal with |- program _ _ _ ?l _ _ => rewrite <- (app_nil_r l) end.
  apply (program_form nat (runs ev1) 0 _ _ 2 []); [| apply program_end].
  apply (form_list nat (runs ev1)).
  apply (body_item nat (runs ev1) true 0 [(KNumber, _)] _ 0); [apply Fm; [lia | reflexivity] |].
  apply body_filler; [left; reflexivity |].
  apply (body_splice nat (runs ev1) 0 [(KNumber, [50%N]); (KSpace, [32%N]); (KNumber, [51%N]); (KClose, [41%N])]
    (mk_list [Num 2; Num 3]) 0 [Num 2; Num 3] 1 _ (Num 6) 2).
  - apply (body_item nat (runs ev1) true 0 [(KNumber, _)] _ 0); [apply Fm; [lia | reflexivity] |].
    apply body_filler; [left; reflexivity |].
    apply (body_item nat (runs ev1) false 0 [(KNumber, _)] _ 0); [apply Fm; [lia | reflexivity] |].
    apply body_close.
  - reflexivity.
  - apply body_filler; [left; reflexivity |].
    apply (body_dot nat (runs ev1) 1 [(KSpace, [32%N])] [(KPNumber Backtick, [96%N; 53%N])] (Num 6) [] 2);
      [repeat constructor | | constructor].
    apply (form_back_number nat (runs ev1) 1 [53%N] 5); [apply (D 53%N); lia | reflexivity].
Qed.

(** ** C49 *)
Theorem C49_lines_partial : forall W (ev : atom -> W -> option (atom * W)) lines w v vs w' rest n,
  lines <> [] ->
  Forall (fun p => short_line (fst p) /\ splits (fst p ++ [10%N]) (snd p) Done) lines ->
  program W (runs ev) w (concat (map snd lines)) (v :: vs) w' ->
  (forall p q, lines = p ++ q -> q <> [] ->
     Forall filler (concat (map snd p)) \/ (0 < nesting (concat (map snd p)))%Z) ->
  length lines <= n ->
  lisp_read W ev n [] (flat_map (fun p => fst p ++ [10%N]) lines ++ rest) w = Value W v vs rest w'.
Proof. intros W ev; exact (read_lines ev). Qed.
Print Assumptions C49_lines_partial.
(** Values left over from a line come next, in order, without reading. *)
Theorem C49_leftover : forall W (ev : atom -> W -> option (atom * W)) n v vs stream w,
  lisp_read W ev n (v :: vs) stream w = Value W v vs stream w.
Proof. reflexivity. Qed.
Print Assumptions C49_leftover.
(** A line longer than the buffer: the number on the boundary is cut in two. *)
Theorem C49_long_line_refuted : exists text l, Forall (fun c => c <> 10 /\ c <> 0)%N text /\
  splits (text ++ [10%N]) l Done /\
  program nat (runs ev1) 0 l [Num 123456] 0 /\
  lisp_read nat ev1 10 [] (text ++ [10%N]) 0 = Value nat (Num 123) [] (bs "456" ++ [10%N]) 0.
Proof.
  exists (repeat 32%N 1020 ++ bs "123456"), (repeat (KSpace, [32%N]) 1020 ++ [(KNumber, bs "123456"); (KSpace, [10%N])]).
  ands.
  - apply Forall_app; split.
    + apply Forall_forall; intros x I; apply repeat_spec in I; subst; split; discriminate.
    + repeat (apply Forall_cons; [split; discriminate |]); constructor.
  - apply tokens_splits; vm_compute; reflexivity.
  - generalize 1020; intro k; induction k as [| k IH].
    + apply (program_form nat (runs ev1) 0 [(KNumber, bs "123456")] (Num 123456) 0).
      * apply form_plain; apply (plain_number (bs "123456") 123456).
        apply (numeral_plain (bs "123456")); [discriminate |].
        repeat (apply Forall_cons; [unfold is_digit; split; discriminate |]); constructor.
      * apply program_filler; [left; reflexivity | apply program_end].
    + apply program_filler; [left; reflexivity | exact IH].
  - vm_compute; reflexivity.
Qed.
Print Assumptions C49_long_line_refuted.
Example C49_example :
  lisp_read nat ev1 3 [] (bs "# first" ++ [10%N] ++ bs "(a" ++ [10%N] ++ bs " 1) 2" ++ [10%N] ++ bs "3") 0
  = Value nat (mk_list [Symb (sy "a"); Num 1]) [Num 2] (bs "3") 0.
Proof. vm_compute; reflexivity. Qed.

(** ** C50 *)
Theorem C50_ends_partial : forall W (ev : atom -> W -> option (atom * W)) stream w, ~ In 34%N stream ->
  lisp_read W ev (S (length stream)) [] stream w <> Again W.
Proof. intros W ev; exact (read_ends ev). Qed.
Print Assumptions C50_ends_partial.
(** With strings, over several lines or not: no quote is followed by 1022 bytes without
    a quote.  Missing: a string that ends in time, then 1022 bytes without a quote. *)
Theorem C50_strings_partial : forall W (ev : atom -> W -> option (atom * W)) stream w, ~ In 0%N stream ->
  (forall a body rest, stream = a ++ 34%N :: body ++ rest -> length body = 1022 -> In 34%N body) ->
  lisp_read W ev (S (length stream)) [] stream w <> Again W.
Proof. intros W ev; exact (read_ends_strings ev). Qed.
Print Assumptions C50_strings_partial.
Fixpoint near (s : bytes) : bool :=
  match s with [] => true | _ :: r => (Nat.ltb (length r) 1022 || existsb (N.eqb 34) (firstn 1022 r)) && near r end.
Lemma near_ok : forall s a c body rest, near s = true -> s = a ++ c :: body ++ rest -> length body = 1022 -> In 34%N body.
Proof.
  intros s a; revert s; induction a as [| x a IH]; intros s c body rest H -> L; cbn [app near] in H;
    apply andb_prop in H; destruct H as (H & H').
  - apply orb_prop in H; destruct H as [H | H].
    + apply Nat.ltb_lt in H; rewrite app_length, L in H; lia.
    + rewrite <- L, first_app in H; apply existsb_exists in H; destruct H as (y & I & E); apply N.eqb_eq in E; subst y; exact I.
  - eapply IH; [exact H' | reflexivity | exact L].
Qed.
Example C50_example_strings : let s := concat (repeat (34%N :: bs "a" ++ [10%N] ++ bs "b" ++ [34%N] ++ bs " (1 ") 300) in
  (forall a body rest, s = a ++ 34%N :: body ++ rest -> length body = 1022 -> In 34%N body) /\ ~ In 0%N s /\ length s = 2700.
Proof.
  cbv zeta; split; [| split; [| vm_compute; reflexivity]].
  - intros a body rest; apply near_ok; vm_compute; reflexivity.
  - intro I; assert (X : existsb (N.eqb 0) (concat (repeat (34%N :: bs "a" ++ [10%N] ++ bs "b" ++ [34%N] ++ bs " (1 ") 300)) = true)
      by (apply existsb_exists; exists 0%N; split; [exact I | reflexivity]).
    vm_compute in X; discriminate.
Qed.
(** A string literal with no quote in its first 1022 bytes: reading never ends,
    whatever follows. *)
Theorem C50_long_string_refuted : forall W (ev : atom -> W -> option (atom * W)) body rest,
  length body = 1022 -> Forall (fun c => c <> 34 /\ c <> 10 /\ c <> 0)%N body ->
  forall n w, lisp_read W ev n [] (34%N :: body ++ rest) w = Again W.
Proof. intros W ev; exact (long_string ev). Qed.
Print Assumptions C50_long_string_refuted.
Example C50_example : exists body rest, length body = 1022 /\
  Forall (fun c => c <> 34 /\ c <> 10 /\ c <> 0)%N body /\
  snd (tokens (34%N :: body ++ rest)) = Done.
Proof.
  exists (repeat 97%N 1022), [97; 34; 10]%N; ands; [reflexivity | | vm_compute; reflexivity].
  apply Forall_forall; intros x I; apply repeat_spec in I; subst; repeat split; discriminate.
Qed.
Example C50_example_ends : lisp_read nat ev1 9 [] (bs "(1 (2 3)") 0 = Eof nat 0.
Proof. vm_compute; reflexivity. Qed.

(** ** C51 *)
Theorem C51_quoted_number_partial : forall W (ev : atom -> W -> option (atom * W)) ds w,
  ds <> [] -> Forall is_digit ds ->
  lexer_parse W ev (39%N :: ds ++ [10%N]) (mkl 0 [] [] w)
  = Some (mkl 0 [] [Cons (Symb (sy "quote")) (Num (closest (Z.of_N (dec_value ds))))] w, LDone).
Proof. intros W ev; exact (quoted_number ev). Qed.
Print Assumptions C51_quoted_number_partial.
(** A quoted negative number is read as a quoted name. *)
Theorem C51_negative_refuted : exists t z, numeral t z /\ closest z = z /\
  lexer_parse nat ev1 (39%N :: t ++ [10%N]) (start 0)
  = Some (mkl 0 [] [Cons (Symb (sy "quote")) (Symb (sy "-5"))] 0, LDone).
Proof.
  exists (bs "-5"), (-5)%Z; ands; [| reflexivity | vm_compute; reflexivity].
  apply (numeral_minus [53%N]); [discriminate | repeat constructor; lia].
Qed.
Print Assumptions C51_negative_refuted.
Example C51_example : lexer_parse nat ev1 (bs "'120" ++ [10%N]) (start 0)
  = Some (mkl 0 [] [Cons (Symb (sy "quote")) (Num 120)] 0, LDone).
Proof. vm_compute; reflexivity. Qed.

(** ** C52 *)
Theorem C52_name_partial : forall W (ev : atom -> W -> option (atom * W)) nm s w,
  readable_name nm -> padded nm s ->
  lexer_parse W ev (nm ++ [10%N]) (mkl 0 [] [] w) = Some (mkl 0 [] [Symb s] w, LDone).
Proof. intros W ev; exact (name_read ev). Qed.
Print Assumptions C52_name_partial.
(** Longer identifiers come out as several symbols. *)
Theorem C52_long_name_refuted : exists nm, Forall Letter nm /\
  lexer_parse nat ev1 (nm ++ [10%N]) (start 0)
  = Some (mkl 0 [] [Symb (sy "averyveryverylon"); Symb (sy "gname")] 0, LDone).
Proof.
  exists (bs "averyveryverylongname"); split; [| vm_compute; reflexivity].
  repeat (apply Forall_cons; [right; split; discriminate |]); constructor.
Qed.
Print Assumptions C52_long_name_refuted.
Example C52_example : exists nm s, readable_name nm /\ padded nm s /\ length nm = 16.
Proof.
  exists (bs "exactly-sixteen!"), (sy "exactly-sixteen!"); ands; [| exists 0; split; reflexivity | reflexivity].
  split; [| split].
  - apply symbol_chars; [left; right; split; discriminate | | cbn; lia].
    repeat (apply Forall_cons; [apply alnum_marks; reflexivity |]); constructor.
  - intro H; inversion H as [s _ F E | s _ F E].
    inversion F as [| c r D]; subst; vm_compute in D; destruct D as (_ & D); apply D; reflexivity.
  - intro I; repeat (destruct I as [I | I]; [vm_compute in I; discriminate I |]); destruct I.
Qed.
