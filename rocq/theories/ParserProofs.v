(** * Proofs about the reader. *)
From Verif Require Import Value ValueSpec ValueProofs PrintSpec PrintProofs Lexer LexerSpec LexerProofs ReadSpec Parser.
Local Open Scope nat_scope.
Arguments mkl {W}.
Arguments depth {W}. Arguments stack {W}. Arguments got {W}. Arguments env_w {W}.
Arguments consume {W}.

Scheme form_mut := Induction for form Sort Prop
with body_mut := Induction for body Sort Prop.
Combined Scheme form_body_ind from form_mut, body_mut.
Scheme literal_mut := Induction for literal Sort Prop
with items_mut := Induction for items Sort Prop.
Combined Scheme literal_items_ind from literal_mut, items_mut.

(** ** Lists *)
Lemma conc_list : forall xs v, conc (mk_list xs) v = arg_list xs v.
Proof.
  induction xs as [| x xs IH]; intro v; cbn [mk_list arg_list]; [destruct v; reflexivity |].
  cbn [conc]; destruct xs as [| y xs]; [reflexivity |].
  cbn [mk_list] in *; f_equal; rewrite <- IH; reflexivity.
Qed.
Lemma arg_list_app : forall a b d, arg_list (a ++ b) d = arg_list a (arg_list b d).
Proof. induction a as [| x a IH]; intros b d; cbn; [reflexivity | f_equal; apply IH]. Qed.
Lemma arg_list_nil : forall xs, arg_list xs Nil = mk_list xs.
Proof. induction xs as [| x xs IH]; cbn; [reflexivity | f_equal; exact IH]. Qed.
Lemma append_list : forall xs x, append (mk_list xs) x = mk_list (xs ++ [x]).
Proof.
  intros xs x; unfold append; rewrite conc_list, <- arg_list_nil, arg_list_app; reflexivity.
Qed.

(** ** Numbers *)
Lemma digits_value_spec : forall ds acc, Forall is_digit ds ->
  digits_value ds (Z.of_N acc) = Z.of_N (fold_left (fun a d => 10 * a + (d - 48))%N ds acc).
Proof.
  induction ds as [| d ds IH]; intros acc F; cbn [digits_value fold_left]; [reflexivity |].
  inversion F as [| x y D F']; subst; pose proof D as D'; apply digit_spec in D; rewrite D, <- IH by exact F'.
  f_equal; lia.
Qed.
Lemma clamp_closest : forall z, clamp z = closest z.
Proof.
  intro z; unfold clamp, closest; destruct (Z.ltb_spec z (- 2 ^ 63)); [lia |].
  destruct (Z.ltb_spec (2 ^ 63 - 1) z); lia.
Qed.
Lemma digit_not_space : forall c, is_digit c -> space c = false /\ one 45%N c = false /\ one 43%N c = false /\
  one 39%N c = false /\ one 96%N c = false.
Proof.
  intros c D; unfold is_digit in D; unfold space, between, one.
  ands; try (apply N.eqb_neq; lia); try (apply orb_false_iff; split); try (apply N.eqb_neq; lia);
    apply andb_false_iff; rewrite !N.leb_gt; lia.
Qed.
Lemma strtoll_numeral : forall t z, numeral t z -> strtoll t = closest z.
Proof.
  intros t z H; destruct H as [ds N F | ds N F]; rewrite <- clamp_closest.
  - destruct ds as [| d ds]; [contradiction |].
    inversion F as [| x y D F']; subst; destruct (digit_not_space d D) as (S & M & P & _).
    unfold strtoll; cbn [skip_space]; rewrite S, M, P.
    f_equal; exact (digits_value_spec (d :: ds) 0%N F).
  - unfold strtoll; cbn [skip_space]; change (space 45%N) with false; cbn match.
    change (one 45%N 45%N) with true; cbn match; f_equal; f_equal; exact (digits_value_spec ds 0%N F).
Qed.
Lemma numeral_unprefix : forall t z, numeral t z -> unprefix t = t.
Proof.
  intros t z H; destruct H as [ds N F | ds N F]; [| reflexivity].
  destruct ds as [| d ds]; [contradiction |]; inversion F as [| x y D F']; subst.
  destruct (digit_not_space d D) as (_ & _ & _ & A & B); unfold unprefix; rewrite A, B; reflexivity.
Qed.
Lemma numeral_text : forall t z, numeral t z -> number_text t.
Proof. intros t z H; destruct H; [apply number_plain | apply number_minus]; auto. Qed.

(** ** Names *)
Lemma symbol_byte_nonzero : forall c, Letter c \/ is_digit c \/ Mark c -> c <> 0%N.
Proof.
  intros c H ->; destruct H as [H | [H | H]].
  - unfold Letter in H; lia.
  - unfold is_digit in H; lia.
  - apply marks_spec in H; discriminate.
Qed.
Lemma symbol_bytes : forall nm, symbol_text nm -> Forall (fun c => Letter c \/ is_digit c \/ Mark c) nm /\ 1 <= length nm <= 16.
Proof.
  intros nm H; destruct H as [c s C F L]; split; [constructor; [tauto | exact F] | cbn [length]; unfold bytes, byte in *; lia].
Qed.
Lemma strncpy_all : forall s n, length s <= n -> Forall (fun c => c <> 0%N) s ->
  strncpy n s = s ++ repeat 0%N (n - length s).
Proof.
  induction s as [| c s IH]; intros n L F; cbn [length] in *.
  - rewrite Nat.sub_0_r; clear; induction n as [| n IH]; cbn; [reflexivity |]; try (f_equal; exact IH).
  - destruct n as [| n]; [lia |]; cbn [strncpy]; inversion F as [| x y C F']; subst.
    apply N.eqb_neq in C; rewrite C; cbn [app]; f_equal; rewrite IH by (auto; lia).
    f_equal; f_equal; lia.
Qed.
Lemma mk_symbol_padded : forall nm s, symbol_text nm -> padded nm s -> mk_symbol_n nm (length nm) = s.
Proof.
  intros nm s H (k & E & L); destruct (symbol_bytes nm H) as (F & B).
  unfold mk_symbol_n, symbol_length; rewrite Nat.min_l by lia.
  rewrite strncpy_all; [| lia | eapply Forall_impl; [| exact F]; exact symbol_byte_nonzero].
  rewrite Nat.sub_diag; cbn [repeat]; rewrite app_nil_r, E; f_equal; f_equal.
  rewrite E, app_length, repeat_length in L; lia.
Qed.
Lemma symbol_unprefix : forall nm, symbol_text nm -> unprefix nm = nm.
Proof.
  intros nm H; destruct H as [c s C F L]; unfold unprefix; destruct (one 39%N c) eqn:E.
  - apply one_true in E; subst; exfalso; destruct C as [C | C]; [unfold Letter in C; lia | apply marks_spec in C; discriminate].
  - destruct (one 96%N c) eqn:E'; [| reflexivity].
    apply one_true in E'; subst; exfalso; destruct C as [C | C]; [unfold Letter in C; lia | apply marks_spec in C; discriminate].
Qed.

(** ** Strings *)
Lemma string_value_body : forall s, Forall (fun c => 0 < c < 128)%N s -> string_value (34%N :: s ++ [34%N]) = s.
Proof.
  intros s F; unfold string_value; cbn [skipn length]; rewrite app_length; cbn [length].
  replace (S (length s + 1) - 2) with (length s) by lia; rewrite first_app.
  induction F as [| c s C F IH]; cbn [cstr]; [reflexivity |].
  destruct (N.eqb_spec c 0); [lia | f_equal; exact IH].
Qed.

Section Reader.
Context {W : Type}.
Variable ev : atom -> W -> option (atom * W).
Definition runs (a : atom) (w : W) (v : atom) (w' : W) : Prop := ev a w = Some (v, w').

(** Acting on tokens in order. *)
Definition stop (e : ending) : left :=
  match e with Done => LDone | Waits s => LWait s | Purged _ | Unfinished => LPurged end.
Fixpoint run (l : list (kind * bytes)) (e : ending) (st : lstate W) : option (lstate W * left) :=
  match l with
  | [] => Some (st, stop e)
  | (k, t) :: r =>
      match act W ev k t st with
      | Some (Some st') => run r e st'
      | Some None => Some (st, LPurged)
      | None => None
      end
  end.

Lemma lex_cons : forall f c s (l : lstate W), lex W ev (S f) (c :: s) l =
  match scan_token (c :: s) with
  | Taken k n =>
      match act W ev k (firstn n (c :: s)) l with
      | Some (Some l') => lex W ev f (skipn n (c :: s)) l'
      | Some None => Some (l, LPurged)
      | None => None
      end
  | Wait => Some (l, LWait (c :: s))
  | Purge => Some (l, LPurged)
  end.
Proof. reflexivity. Qed.

Lemma lex_tokens : forall f s l, length s <= f ->
  lex W ev f s l = run (fst (split_tokens f s)) (snd (split_tokens f s)) l.
Proof.
  induction f as [| f IH]; intros s l L.
  - destruct s; [reflexivity | cbn in L; lia].
  - destruct s as [| c s]; [reflexivity |].
    rewrite lex_cons, split_cons; pose proof (scan_token_spec (c :: s)) as P.
    destruct (scan_token (c :: s)) as [k n | |]; [| reflexivity | reflexivity].
    destruct P as (t & r & (E & Wn & _) & ->); destruct Wn as (T & _); apply token_nonempty in T.
    rewrite E, skip_app, first_app.
    destruct (split_tokens f r) as (l', e) eqn:S; cbn [fst snd run].
    destruct (act W ev k t l) as [[l1 |] |]; [| reflexivity | reflexivity].
    rewrite IH, S; [reflexivity |].
    assert (length (c :: s) = length t + length r) by (rewrite E, app_length; reflexivity).
    destruct t; [contradiction |]; cbn [length] in *; lia.
Qed.

Lemma parse_tokens : forall s l, lexer_parse W ev s l = run (fst (tokens s)) (snd (tokens s)) l.
Proof. intros s l; apply lex_tokens; auto. Qed.
Lemma parse_splits : forall s l e st, splits s l e -> lexer_parse W ev s st = run l e st.
Proof. intros s l e st H; rewrite parse_tokens; apply tokens_splits in H; rewrite H; reflexivity. Qed.

(** ** Forms *)
Definition steps (l : list (kind * bytes)) (s s' : lstate W) : Prop :=
  forall rest e, run (l ++ rest) e s = run rest e s'.
Lemma steps_nil : forall s, steps [] s s.
Proof. intros s rest e; reflexivity. Qed.
Lemma steps_app : forall a b s s' s'', steps a s s' -> steps b s' s'' -> steps (a ++ b) s s''.
Proof. intros a b s s' s'' H1 H2 rest e; rewrite <- app_assoc, H1; apply H2. Qed.
Lemma steps_one : forall k t s s', act W ev k t s = Some (Some s') -> steps [(k, t)] s s'.
Proof. intros k t s s' H rest e; cbn; rewrite H; reflexivity. Qed.
Lemma steps_cons : forall k t l s s' s'', act W ev k t s = Some (Some s') -> steps l s' s'' ->
  steps ((k, t) :: l) s s''.
Proof. intros k t l s s' s'' H1 H2; exact (steps_app [_] l _ _ _ (steps_one _ _ _ _ H1) H2). Qed.
Lemma steps_filler : forall t s, filler t -> steps [t] s s.
Proof. intros (k, t) s [H | H]; cbn in H; subst k; apply steps_one; reflexivity. Qed.
Lemma steps_fillers : forall l s, Forall filler l -> steps l s s.
Proof.
  intros l s F; induction F as [| t l T _ IH]; [apply steps_nil |].
  exact (steps_app [t] l _ _ _ (steps_filler t s T) IH).
Qed.

Lemma item_prefix : forall a st w, prefix_here st = true -> item_done W ev a st w = prefix_done W ev a st w.
Proof. intros a st w H; destruct st as [| [] st]; try reflexivity; discriminate. Qed.
Lemma prefix_item : forall st, prefix_here st = true -> item_here st = true.
Proof. intros st H; destruct st as [| [] st]; try reflexivity; discriminate. Qed.

Lemma value_steps : forall tm a d st g w st' w', item_of tm = Some a -> item_here st = true ->
  item_done W ev a st w = Some (st', w') ->
  value_tok W ev tm (mkl d st g w) = Some (consume (mkl d st' g w')).
Proof.
  intros tm a d st g w st' w' I H P; unfold value_tok, push_tok, feed; cbn [stack env_w].
  rewrite I, H, P; reflexivity.
Qed.

Lemma plain_act : forall k t v, plain k t v -> exists tm, item_of tm = Some v /\
  forall s, act W ev k t s = option_map Some (value_tok W ev tm s).
Proof.
  intros k t v H.
  destruct H as [t z H | c B N | | | | | | s r F U | | | | nm s S P];
    try (eexists; split; [| intro s; reflexivity]; reflexivity).
  - exists (NUMBER (closest z)); split; [reflexivity |]; intro s; cbn [act].
    rewrite (numeral_unprefix t z H), (strtoll_numeral t z H); reflexivity.
  - eexists; split; [| intro s; reflexivity]; cbn [item_of]; f_equal; f_equal.
    unfold char_value, schar; destruct (Z.ltb_spec (Z.of_N c) 128); lia.
  - exists (STRING s); split; [| intro st; cbn [act]; rewrite (string_value_body s F); reflexivity].
    cbn [item_of]; f_equal; unfold make_string, make_string_chars, mk_chars; f_equal; f_equal.
    assert (E : map schar s = map Z.of_N s).
    { apply map_ext_in; intros c I; rewrite Forall_forall in F; specialize (F c I).
      unfold schar; destruct (Z.ltb_spec (Z.of_N c) 128); lia. }
    rewrite E; apply (unescape_fun (map Z.of_N s)); [apply process_escapes_unescape | exact U].
  - exists (SYMBOL s); split; [reflexivity |]; intro st; cbn [act].
    rewrite (symbol_unprefix nm S), (mk_symbol_padded nm s S P); reflexivity.
Qed.

Definition opened (xs : list atom) (st : list entry) : list entry :=
  match xs with [] => SOpen :: st | _ => SItems (mk_list xs) :: SOpen :: st end.

Lemma prefix_opened : forall x xs st w, prefix_done W ev x (opened xs st) w = Some (opened (xs ++ [x]) st, w).
Proof.
  intros x xs st w; destruct xs as [| y xs]; [reflexivity |].
  unfold opened; cbn [prefix_done]; rewrite append_list; reflexivity.
Qed.
Lemma here_opened : forall xs st, prefix_here (opened xs st) = true.
Proof. intros [| x xs] st; reflexivity. Qed.

Lemma close_opened : forall xs st d g w st' w', item_done W ev (mk_list xs) st w = Some (st', w') ->
  act W ev KClose (bs ")") (mkl (S d) (opened xs st) g w) = Some (Some (consume (mkl d st' g w'))).
Proof.
  intros xs st d g w st' w' H; cbn [act depth]; unfold push_tok; cbn [stack env_w depth got].
  destruct xs as [| x xs]; unfold opened, feed; cbn [item_of mk_list] in *; rewrite H; reflexivity.
Qed.

Lemma open_steps : forall d st g w, item_here st = true ->
  open_tok W ev (mkl d st g w) = Some (mkl (S d) (SOpen :: st) g w).
Proof. intros d st g w H; unfold open_tok, push_tok, feed; cbn [item_of stack]; rewrite H; reflexivity. Qed.

Lemma push_quote : forall d st g w, prefix_here st = true ->
  push_tok W ev CQUOTE (mkl d st g w) = Some (mkl d (SQuote :: st) g w).
Proof. intros d st g w H; unfold push_tok, feed; cbn [item_of stack]; rewrite H; reflexivity. Qed.
Lemma push_back : forall d st g w, prefix_here st = true ->
  push_tok W ev BACKTICK (mkl d st g w) = Some (mkl d (SBack :: st) g w).
Proof. intros d st g w H; unfold push_tok, feed; cbn [item_of stack]; rewrite H; reflexivity. Qed.

Lemma consume_inside : forall d st g (w : W), consume (mkl (S d) st g w) = mkl (S d) st g w.
Proof. reflexivity. Qed.

Lemma form_body_steps :
  (forall w l v w', form W runs w l v w' -> forall d st g st' w'', prefix_here st = true ->
     prefix_done W ev v st w' = Some (st', w'') ->
     steps l (mkl d st g w) (consume (mkl d st' g w''))) /\
  (forall b w l v w', body W runs b w l v w' -> forall xs d st g st' w'', (b = false -> xs <> []) ->
     item_done W ev (arg_list xs v) st w' = Some (st', w'') ->
     steps l (mkl (S d) (opened xs st) g w) (consume (mkl d st' g w''))).
Proof.
  apply form_body_ind.
  - intros w k t v P d st g st' w'' H D; destruct (plain_act k t v P) as (tm & I & A).
    apply steps_one; rewrite A; rewrite <- item_prefix in D by exact H.
    rewrite (value_steps tm v d st g w st' w''); auto; apply prefix_item; exact H.
  - intros w l v w' _ IH d st g st' w'' H D.
    eapply steps_cons; [cbn [act]; rewrite open_steps by (apply prefix_item; exact H); reflexivity |].
    apply (IH [] d st g st' w''); [discriminate |]; rewrite item_prefix by exact H; exact D.
  - intros w l v w' _ IH d st g st' w'' H D.
    eapply steps_cons.
    { cbn [act prefix_terminal]; rewrite push_quote by exact H; rewrite open_steps by reflexivity; reflexivity. }
    apply (IH [] d (SQuote :: st) g st' w''); [discriminate | exact D].
  - intros w nm s S P d st g st' w'' H D; apply steps_one; cbn [act prefix_terminal].
    rewrite push_quote by exact H; change (unprefix (39%N :: nm)) with nm.
    rewrite (mk_symbol_padded nm s S P), (value_steps _ (Symb s) d (SQuote :: st) g w st' w''); auto.
  - intros w t z N d st g st' w'' H D; apply steps_one; cbn [act prefix_terminal].
    rewrite push_quote by exact H; change (unprefix (39%N :: t)) with t.
    rewrite (strtoll_numeral t z N), (value_steps _ (Num (closest z)) d (SQuote :: st) g w st' w''); auto.
  - intros w l a w1 v w2 _ IH R d st g st' w'' H D.
    eapply steps_cons.
    { cbn [act prefix_terminal]; rewrite push_back by exact H; rewrite open_steps by reflexivity; reflexivity. }
    apply (IH [] d (SBack :: st) g st' w''); [discriminate |].
    cbn [item_done arg_list]; unfold runs in R; rewrite R; exact D.
  - intros w nm s v w' S P R d st g st' w'' H D; apply steps_one; cbn [act prefix_terminal].
    rewrite push_back by exact H; change (unprefix (96%N :: nm)) with nm.
    rewrite (mk_symbol_padded nm s S P), (value_steps _ (Symb s) d (SBack :: st) g w st' w''); auto.
    cbn [item_done]; unfold runs in R; rewrite R; exact D.
  - intros w t z v w' N R d st g st' w'' H D; apply steps_one; cbn [act prefix_terminal].
    rewrite push_back by exact H; change (unprefix (96%N :: t)) with t.
    rewrite (strtoll_numeral t z N), (value_steps _ (Num (closest z)) d (SBack :: st) g w st' w''); auto.
    cbn [item_done]; unfold runs in R; rewrite R; exact D.
  - intros b w xs d st g st' w'' _ D; rewrite arg_list_nil in D.
    apply steps_one, close_opened; exact D.
  - intros b w t l v w' F _ IH xs d st g st' w'' N D.
    exact (steps_app [t] l _ _ _ (steps_filler t _ F) (IH xs d st g st' w'' N D)).
  - intros b w l1 x w1 l2 dd w2 _ IH1 _ IH2 xs d st g st' w'' _ D.
    eapply steps_app.
    + apply (IH1 (S d) (opened xs st) g _ _ (here_opened xs st) (prefix_opened x xs st w1)).
    + rewrite consume_inside; apply IH2; [intros _ E; apply app_eq_nil in E; destruct E; discriminate |].
      rewrite arg_list_app; exact D.
  - intros w f1 l x f2 w' F1 _ IH F2 xs d st g st' w'' N D.
    destruct xs as [| y xs]; [exfalso; apply (N eq_refl); reflexivity |].
    eapply steps_cons; [reflexivity |].
    apply (steps_app f1 _ _ (mkl (S d) (SDot :: opened (y :: xs) st) g w)); [apply steps_fillers; exact F1 |].
    eapply steps_app; [apply IH; reflexivity |].
    eapply steps_app; [apply steps_fillers; exact F2 |].
    rewrite consume_inside; apply steps_one; cbn [act depth]; unfold push_tok; cbn [stack env_w got depth].
    unfold opened, feed; cbn [item_of]; rewrite conc_list, D; reflexivity.
  - intros w l1 a w1 ys w2 l2 dd w3 _ IH1 R _ IH2 xs d st g st' w'' N D.
    destruct xs as [| y xs]; [exfalso; apply (N eq_refl); reflexivity |].
    eapply steps_cons; [reflexivity |].
    eapply steps_app.
    + apply (IH1 [] (S d) (STilde :: opened (y :: xs) st) g (opened ((y :: xs) ++ ys) st) w2); [discriminate |].
      cbn [arg_list]; unfold opened at 1; cbn [item_done prefix_done]; unfold runs in R; rewrite R.
      rewrite conc_list, <- arg_list_nil, <- arg_list_app, arg_list_nil; reflexivity.
    + rewrite consume_inside; apply IH2; [intros _; discriminate |].
      rewrite arg_list_app; exact D.
Qed.

Lemma form_top : forall w l v w' g, form W runs w l v w' ->
  steps l (mkl 0 [] g w) (mkl 0 [] (g ++ [v]) w').
Proof.
  intros w l v w' g H; pose proof (proj1 form_body_steps w l v w' H 0 [] g [SPrefix v] w' eq_refl eq_refl) as S.
  exact S.
Qed.

Lemma program_steps : forall w l vs w', program W runs w l vs w' -> forall g,
  steps l (mkl 0 [] g w) (mkl 0 [] (g ++ vs) w').
Proof.
  intros w l vs w' H; induction H as [w | w t l vs w' F _ IH | w l1 v w1 l2 vs w2 F _ IH]; intro g.
  - rewrite app_nil_r; apply steps_nil.
  - exact (steps_app [t] l _ _ _ (steps_filler t _ F) (IH g)).
  - eapply steps_app; [apply form_top; exact F |].
    replace (g ++ v :: vs) with ((g ++ [v]) ++ vs) by (rewrite <- app_assoc; reflexivity); apply IH.
Qed.

Lemma reads_program : forall s l w vs w', splits s l Done -> program W runs w l vs w' ->
  lexer_parse W ev s (mkl 0 [] [] w) = Some (mkl 0 [] vs w', LDone).
Proof.
  intros s l w vs w' S P; rewrite (parse_splits s l Done _ S).
  pose proof (program_steps w l vs w' P [] [] Done) as R; rewrite app_nil_r in R; rewrite R; reflexivity.
Qed.
End Reader.
