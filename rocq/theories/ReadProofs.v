(** * Reading back printed text, and reading from a file. *)
From Verif Require Import Value ValueSpec ValueProofs Print PrintSpec PrintProofs Lexer LexerSpec LexerProofs
  ReadSpec Parser ParserProofs.
Local Open Scope nat_scope.

(** ** Token boundaries *)
Definition word (c : byte) : Prop := Letter c \/ is_digit c \/ Mark c.
Definition word_kind (k : kind) : Prop := In k [KDot; KNumber; KNil; KTrue; KWild; KSymbol].

Lemma word_dec : forall c, (alnum c || marks c) = true -> word c.
Proof. intros c H; apply alnum_marks; exact H. Qed.
Lemma word_bytes : forall k t, is_token k t -> word_kind k -> Forall word t.
Proof.
  assert (D : forall s, Forall is_digit s -> Forall word s).
  { intro s; apply Forall_impl; intros c H; right; left; exact H. }
  intros k t H K; unfold word_kind in K; cbn [In] in K.
  destruct H as [| | | s H | c P N | c I | s H | | | | s H | p | p s H | p s H | s N | c B];
    try (exfalso; repeat (destruct K as [K | K]; [discriminate |]); exact K);
    try (repeat (apply Forall_cons; [apply word_dec; reflexivity |]); apply Forall_nil; fail).
  - destruct H as [s _ F | s _ F]; [apply D; exact F |]; constructor; [apply word_dec; reflexivity | apply D; exact F].
  - apply (symbol_bytes s H).
Qed.
Lemma word_same : forall k k', word_kind k -> same_lead k k' = true -> word_kind k'.
Proof.
  unfold word_kind; intros k k' K S; cbn [In] in *.
  repeat (destruct K as [<- | K]; [destruct k'; try discriminate; tauto |]); destruct K.
Qed.

Definition ends (rest : bytes) : Prop :=
  match rest with [] => True | c :: _ => delimiter c end.

Lemma longer_prefix : forall (t t' r r' : bytes), t ++ r = t' ++ r' -> length t < length t' ->
  exists c u, t' = t ++ c :: u /\ exists v, r = c :: v.
Proof.
  induction t as [| x t IH]; intros t' r r' E L; destruct t' as [| y t']; cbn [length] in L; try lia.
  - cbn in E; exists y, t'; split; [reflexivity |]; eauto.
  - cbn in E; injection E as <- E; destruct (IH t' r r' E) as (c & u & -> & v); [lia |].
    exists c, u; split; [reflexivity | exact v].
Qed.

Lemma word_longest : forall k t r, wins k t -> word_kind k -> ends r -> longest (t ++ r) k t r.
Proof.
  intros k t r Wn K En; split; [reflexivity |]; split; [exact Wn |].
  intros k' t' r' E T'; destruct (Nat.le_gt_cases (length t') (length t)) as [L | L]; [exact L | exfalso].
  destruct (longer_prefix t t' r r' E L) as (c & u & -> & v & ->); cbn in En.
  destruct Wn as (T & _); destruct (lead k t T) as (x & t0 & -> & Lk & B).
  destruct (lead k' _ T') as (x' & t1 & E' & Lk' & _); cbn in E'; injection E' as <- <-.
  pose proof (word_same k k' K (leads_meet k k' x B Lk Lk')) as K'.
  apply word_bytes in T'; [| exact K'].
  rewrite Forall_forall in T'; apply En; apply T'; right; apply in_or_app; right; left; reflexivity.
Qed.

Lemma wins_of : forall k t, is_token k t -> (forall k', outranks k' k -> ~ is_token k' t) -> wins k t.
Proof.
  intros k t T N; split; [exact T |]; intros k' T'.
  destruct (two_kinds k k' t T T') as [-> | [O | O]]; auto; exfalso; exact (N k' O T').
Qed.
Lemma top_wins : forall k t, is_token k t -> (forall k', ~ outranks k' k) -> wins k t.
Proof. intros k t T N; apply wins_of; auto; intros k' O; destruct (N k' O). Qed.
Lemma not_outranked : forall k k', (k <> KSymbol /\ forall p, k <> KPNumber p) -> ~ outranks k' k.
Proof. intros k k' (A & B) H; inversion H; subst; [apply A | eapply B]; reflexivity. Qed.

Lemma char_longest : forall t r, is_token KChar t -> longest (t ++ r) KChar t r.
Proof.
  intros t r T; split; [reflexivity |]; split.
  { apply top_wins; [exact T |]; intros k' O; inversion O. }
  intros k' t' r' E T'; destruct (lead _ _ T) as (x & t0 & E0 & Lk & B).
  destruct (lead _ _ T') as (x' & t1 & E1 & Lk' & _).
  assert (x' = x) by (subst; cbn in E; injection E; auto); subst x'.
  pose proof (leads_meet KChar k' x B Lk Lk') as S.
  assert (k' = KChar) by (destruct k'; try discriminate; reflexivity); subst k'.
  inversion T; inversion T'; subst; cbn [length]; try lia.
  exfalso; injection H2 as <- <-; injection H4 as <-; cbn [app] in E; congruence.
Qed.

Lemma single_longest : forall k t r, is_token k t -> In k [KOpen; KClose; KSpace] -> longest (t ++ r) k t r.
Proof.
  intros k t r T K; split; [reflexivity |]; split.
  { apply top_wins; [exact T |]; intro k'; apply not_outranked.
    destruct K as [<- | [<- | [<- | []]]]; split; intros; discriminate. }
  intros k' t' r' E T'; destruct (lead _ _ T) as (x & t0 & E0 & Lk & B).
  destruct (lead _ _ T') as (x' & t1 & E1 & Lk' & _).
  assert (x' = x) by (subst; cbn in E; injection E; auto); subst x'.
  pose proof (leads_meet k k' x B Lk Lk') as S.
  assert (k' = k).
  { destruct K as [<- | [<- | [<- | []]]]; destruct k'; try discriminate; reflexivity. }
  subst k'; destruct K as [<- | [<- | [<- | []]]]; inversion T; inversion T'; subst; cbn; lia.
Qed.

Lemma splits_one : forall k t r l e, longest (t ++ r) k t r -> splits r l e -> splits (t ++ r) ((k, t) :: l) e.
Proof.
  intros k t r l e L S; apply (splits_token _ k t r); auto.
  destruct L as (_ & (T & _) & _); exact (token_nonempty k t T).
Qed.

Lemma delimiter_space : delimiter 32%N.
Proof. intro H; apply alnum_marks in H; discriminate. Qed.
Lemma delimiter_close : delimiter 41%N.
Proof. intro H; apply alnum_marks in H; discriminate. Qed.
Lemma delimiter_newline : delimiter 10%N.
Proof. intro H; apply alnum_marks in H; discriminate. Qed.

(** ** Printed values *)
Lemma decimal_numeral : forall z t, decimal z t -> numeral t z.
Proof.
  intros z t H; destruct H as [n ds (F & C) E | n ds (F & C) E N]; rewrite <- E; constructor; auto;
    destruct C as [-> | (d & r & -> & _)]; discriminate.
Qed.
Lemma closest_in : forall z, (- 2 ^ 63 <= z < 2 ^ 63)%Z -> closest z = z.
Proof. intros z H; unfold closest; lia. Qed.

Lemma name_padded : forall s nm n, name16 s n nm -> forall nm' k, s = nm' ++ repeat 0%N k ->
  Forall (fun c => c <> 0%N) nm' -> length nm' <= n -> nm = nm'.
Proof.
  intros s nm n H; induction H as [s | n | s n | b s n r B _ IH]; intros nm' k E F L.
  - destruct nm'; [reflexivity | cbn in L; lia].
  - symmetry in E; apply app_eq_nil in E; destruct E; auto.
  - destruct nm' as [| c nm']; [reflexivity |]; cbn in E; injection E as <- E; inversion F; contradiction.
  - destruct nm' as [| c nm'].
    + destruct k; cbn in E; [discriminate |]; injection E as -> E; contradiction.
    + cbn in E; injection E as <- E; inversion F; subst; f_equal; apply (IH nm' k); auto; cbn in L; lia.
Qed.

Lemma readable_wins : forall nm, readable_name nm -> wins KSymbol nm.
Proof.
  intros nm (S & N & I); apply wins_of; [apply tok_symbol; exact S |]; intros k' O T.
  inversion O as [k K |]; subst; cbn [In] in K.
  repeat (destruct K as [<- | K]; [inversion T; subst; auto; apply I; cbn; tauto |]); destruct K.
Qed.

Section Back.
Context {W : Type}.
Variable runs : atom -> W -> atom -> W -> Prop.

Definition reads_text (v : atom) (t : bytes) : Prop :=
  exists toks, (forall w, form W runs w toks v w) /\
    forall rest l e, ends rest -> splits rest l e -> splits (t ++ rest) (toks ++ l) e.
Definition reads_items (v : atom) (t : bytes) : Prop :=
  exists toks, (forall b w, body W runs b w toks v w) /\
    forall rest l e, splits rest l e -> splits (t ++ bs ")" ++ rest) (toks ++ l) e.

Lemma reads_word : forall k t v, plain k t v -> word_kind k -> wins k t -> reads_text v t.
Proof.
  intros k t v P K Wn; exists [(k, t)]; split; [intro w; apply form_plain; exact P |].
  intros rest l e En S; apply splits_one; [apply word_longest; auto | exact S].
Qed.
Lemma reads_char : forall t v, plain KChar t v -> is_token KChar t -> reads_text v t.
Proof.
  intros t v P T; exists [(KChar, t)]; split; [intro w; apply form_plain; exact P |].
  intros rest l e En S; apply splits_one; [apply char_longest; auto | exact S].
Qed.

Lemma printed_char : forall c g, (32 <= c <= 126)%Z \/ In c [27; 10; 13; 9]%Z -> c <> 92%Z ->
  glyph (Z.to_N (c mod 256)) g -> reads_text (Chr c) (bs "^" ++ g).
Proof.
  intros c g H N G.
  assert (M : (c mod 256 = c)%Z).
  { apply Z.mod_small; destruct H as [H | H]; [lia |].
    repeat (destruct H as [<- | H]; [lia |]); destruct H. }
  rewrite M in G; remember (Z.to_N c) as b eqn:Eb.
  assert (Ec : c = Z.of_N b).
  { rewrite Eb, Z2N.id; [reflexivity |]; rewrite <- M; apply Z.mod_pos_bound; lia. }
  inversion G as [E E' | E E' | E E' | E E' | b' N1 N2 N3 N4 E E']; subst c g;
    try (subst b; apply reads_char; [constructor | apply tok_escape; cbn; tauto]).
  assert (B : (32 <= b <= 126)%N).
  { destruct H as [H | H]; [lia |]; repeat (destruct H as [H | H]; [lia |]); destruct H. }
  apply (reads_char [94%N; b]).
  - apply plain_char; lia.
  - apply tok_char; [exact B | lia].
Qed.

Lemma printed_items_more : forall a d x y,
  reads_text a x -> reads_items d y -> reads_items (Cons a d) (x ++ bs " " ++ y).
Proof.
  intros a d x y (ta & Fa & Sa) (td & Fd & Sd).
  exists (ta ++ (KSpace, bs " ") :: td); split.
  - intros b w; apply (body_item W runs b w ta a w); [apply Fa |].
    apply body_filler; [left; reflexivity | apply Fd].
  - intros rest l e S; rewrite <- !app_assoc; apply Sa; [exact delimiter_space |]; cbn [app].
    apply (splits_one KSpace (bs " ")).
    + apply single_longest; [apply tok_space; right; reflexivity | cbn; tauto].
    + apply Sd; exact S.
Qed.

Lemma printed_reads :
  (forall v t, literal v t -> readable v -> reads_text v t) /\
  (forall a d x, items a d x -> readable a -> readable d -> reads_items (Cons a d) x).
Proof.
  apply literal_items_ind.
  - intros _; apply (reads_word KNil); [constructor | cbn; tauto |].
    apply top_wins; [constructor |]; intro; apply not_outranked; split; intros; discriminate.
  - intros _; apply (reads_word KTrue); [constructor | cbn; tauto |].
    apply top_wins; [constructor |]; intro; apply not_outranked; split; intros; discriminate.
  - intros _; apply (reads_word KWild); [constructor | cbn; tauto |].
    apply top_wins; [constructor |]; intro; apply not_outranked; split; intros; discriminate.
  - intros c g G R; inversion R; subst; apply printed_char; auto.
  - intros z t D R; inversion R as [| | | z' B | | |]; subst; apply decimal_numeral in D.
    apply (reads_word KNumber); [| cbn; tauto |].
    + rewrite <- (closest_in z B); apply plain_number; exact D.
    + apply top_wins; [apply tok_number, (numeral_text t z D) |].
      intro; apply not_outranked; split; intros; discriminate.
  - intros t s nm N R; inversion R as [| | | | | nm' s' Nm P |]; subst.
    assert (nm = nm').
    { pose proof Nm as (Sy & _); destruct (symbol_bytes nm' Sy) as (F & L); destruct P as (k & E & Ls).
      apply (name_padded s nm 16 N nm' k E); [| lia].
      eapply Forall_impl; [| exact F]; exact symbol_byte_nonzero. }
    subst nm'; apply (reads_word KSymbol); [| cbn; tauto | apply readable_wins; exact Nm].
    apply plain_symbol; [apply Nm | exact P].
  - intros t a d x _ IH R; inversion R as [| | | | | | a' d' Ra Rd]; subst.
    destruct (IH Ra Rd) as (toks & F & S); exists ((KOpen, bs "(") :: toks); split.
    + intro w; apply form_list, F.
    + intros rest l e En Sp; rewrite <- !app_assoc; apply (splits_one KOpen (bs "(")).
      * apply single_longest; [constructor | cbn; tauto].
      * apply S; exact Sp.
  - intros a x _ IH Ra _; destruct (IH Ra) as (toks & F & S).
    exists (toks ++ [(KClose, bs ")")]); split.
    + intros b w; apply (body_item W runs b w toks a w); [apply F | apply body_close].
    + intros rest l e Sp; rewrite <- !app_assoc; apply S; [exact delimiter_close |].
      apply (splits_one KClose (bs ")")); [apply single_longest; [constructor | cbn; tauto] | exact Sp].
  - intros t a b d x y _ IHa _ IHd Ra R; inversion R as [| | | | | | b' d' Rb Rd]; subst.
    apply printed_items_more; auto.
  - intros a d x y _ IHa N P _ IHd Ra Rd; destruct (IHa Ra) as (ta & Fa & Sa); destruct (IHd Rd) as (td & Fd & Sd).
    exists (ta ++ (KSpace, bs " ") :: (KDot, bs ".") :: [(KSpace, bs " ")] ++ td ++ [] ++ [(KClose, bs ")")]); split.
    + intros b w; apply (body_item W runs b w ta a w); [apply Fa |].
      apply body_filler; [left; reflexivity |].
      apply body_dot; [repeat constructor | apply Fd | constructor].
    + intros rest l e Sp; rewrite <- !app_assoc; apply Sa; [exact delimiter_space |].
      cbn [app]; apply (splits_one KSpace (bs " ")); [apply single_longest; [apply tok_space; right; reflexivity | cbn; tauto] |].
      apply (splits_one KDot (bs ".")).
      { apply word_longest; [| cbn; tauto | exact delimiter_space].
        apply top_wins; [constructor |]; intro; apply not_outranked; split; intros; discriminate. }
      apply (splits_one KSpace (bs " ")); [apply single_longest; [apply tok_space; right; reflexivity | cbn; tauto] |].
      rewrite <- app_assoc; apply Sd; [exact delimiter_close |].
      apply (splits_one KClose (bs ")")); [apply single_longest; [constructor | cbn; tauto] | exact Sp].
Qed.
End Back.

(** ** Reading lines *)
Section Lines.
Context {W : Type}.
Variable ev : atom -> W -> option (atom * W).
Let run := run ev.
Let lisp_read := lisp_read W ev.
Let read_loop := read_loop W ev.

Lemma run_split : forall l1 l2 s s2, run (l1 ++ l2) Done s = Some (s2, LDone) ->
  exists s1, run l1 Done s = Some (s1, LDone) /\ run l2 Done s1 = Some (s2, LDone).
Proof.
  induction l1 as [| (k, t) l1 IH]; intros l2 s s2 H.
  - exists s; split; [reflexivity | exact H].
  - unfold run in *; cbn [app ParserProofs.run] in *; destruct (act W ev k t s) as [[s1 |] |] eqn:E; try discriminate.
    apply IH; exact H.
Qed.
Lemma run_filler : forall l s, Forall filler l -> run l Done s = Some (s, LDone).
Proof.
  intros l s F; pose proof (steps_fillers ev l s F [] Done) as R; rewrite app_nil_r in R; exact R.
Qed.

Lemma consume_depth : forall s : lstate W, depth (consume s) = depth s.
Proof. intros [d st g w]; unfold consume; cbn [depth]; destruct d; reflexivity. Qed.
Lemma push_depth : forall t s s', push_tok W ev t s = Some s' -> depth s' = depth s.
Proof.
  intros t s s' H; unfold push_tok in H; destruct (feed W ev t (stack s) (env_w s)) as [(st, w) |]; [| discriminate].
  injection H as <-; reflexivity.
Qed.
Lemma value_depth : forall t s s', value_tok W ev t s = Some s' -> depth s' = depth s.
Proof.
  intros t s s' H; unfold value_tok in H; destruct (push_tok W ev t s) as [s1 |] eqn:E; [| discriminate].
  injection H as <-; rewrite consume_depth; exact (push_depth _ _ _ E).
Qed.
Lemma open_depth : forall s s', open_tok W ev s = Some s' -> depth s' = S (depth s).
Proof.
  intros s s' H; unfold open_tok in H; destruct (push_tok W ev POPEN s) as [s1 |] eqn:E; [| discriminate].
  injection H as <-; cbn [depth]; f_equal; exact (push_depth _ _ _ E).
Qed.

Lemma act_depth : forall k t s s', act W ev k t s = Some (Some s') ->
  Z.of_nat (depth s') = (Z.of_nat (depth s) + nesting [(k, t)])%Z.
Proof.
  assert (Op : forall (f : option (lstate W)) s', option_map Some f = Some (Some s') -> f = Some s').
  { intros [x |] s' H; [injection H as <-; reflexivity | discriminate]. }
  intros k t s s' H; destruct k; cbn [act] in H; cbn [nesting fold_right fst];
    try (apply Op in H; apply value_depth in H; lia);
    try (apply Op in H; apply open_depth in H; lia);
    try (apply Op in H; apply push_depth in H; lia);
    try (destruct (push_tok W ev (prefix_terminal p) s) as [s1 |] eqn:E; [| discriminate];
         apply push_depth in E; apply Op in H; (apply value_depth in H || apply open_depth in H); lia);
    try (injection H as <-; lia).
  destruct (depth s) as [| d] eqn:D; [discriminate |].
  destruct (push_tok W ev PCLOSE s) as [s1 |] eqn:E; [| discriminate].
  injection H as <-; rewrite consume_depth; cbn [depth]; lia.
Qed.

Lemma run_depth : forall l s s', run l Done s = Some (s', LDone) ->
  Z.of_nat (depth s') = (Z.of_nat (depth s) + nesting l)%Z.
Proof.
  induction l as [| (k, t) l IH]; intros s s' H; unfold run in *; cbn [ParserProofs.run] in H.
  - injection H as <-; cbn; lia.
  - destruct (act W ev k t s) as [[s1 |] |] eqn:E; try discriminate.
    apply IH in H; apply act_depth in E; rewrite H, E; cbn [nesting fold_right fst].
    unfold nesting; destruct k; lia.
Qed.

Lemma take_line_short : forall t n rest, Forall (fun c => c <> 10 /\ c <> 0)%N t -> length t < n ->
  take_line n (t ++ 10%N :: rest) = (t ++ [10%N], rest).
Proof.
  induction t as [| c t IH]; intros n rest F L; destruct n as [| n]; cbn [length] in L; try lia.
  - reflexivity.
  - cbn [app take_line]; inversion F as [| x y (C & _) F']; subst.
    unfold one; destruct (N.eqb_spec 10 c) as [E | E]; [congruence |].
    rewrite IH by (auto; lia); reflexivity.
Qed.
Lemma cstr_line : forall t, Forall (fun c => c <> 10 /\ c <> 0)%N t -> cstr (t ++ [10%N]) = t ++ [10%N].
Proof.
  intros t F; induction F as [| c t (_ & C) F IH]; cbn [app cstr]; [reflexivity |].
  destruct (N.eqb_spec c 0); [contradiction | f_equal; exact IH].
Qed.

Lemma fgets_line : forall t rest, short_line t -> fgets (RBUFLEN - 0) (t ++ 10%N :: rest) = Some (t ++ [10%N], rest).
Proof.
  intros t rest (L & F).
  assert (G : forall s n, s <> [] -> 1 < n -> fgets n s = Some (take_line (n - 1) s)).
  { intros s n N B; destruct n as [| [| n]]; try lia; destruct s; [contradiction | reflexivity]. }
  rewrite G; [| destruct t; discriminate | unfold RBUFLEN; lia].
  rewrite take_line_short; auto; unfold RBUFLEN; lia.
Qed.

Lemma read_loop_S : forall f kept stream l, read_loop (S f) kept stream l =
  let finish stream l :=
    match got l with [] => Eof W (env_w l) | a :: r => Value W a r stream (env_w l) end in
  match fgets (RBUFLEN - length kept) stream with
  | None => finish stream l
  | Some (line, stream') =>
      match lexer_parse W ev (kept ++ cstr line) l with
      | None => Diverges W
      | Some (l', e) =>
          match e with
          | LDone =>
              match got l', depth l' with
              | _ :: _, O => finish stream' l'
              | _, _ => read_loop f [] stream' l'
              end
          | LWait k => read_loop f k stream' l'
          | LPurged => Trouble W
          end
      end
  end.
Proof. reflexivity. Qed.

Definition text_of (lines : list (bytes * list (kind * bytes))) : bytes :=
  flat_map (fun p => fst p ++ [10%N]) lines.
Definition toks_of (lines : list (bytes * list (kind * bytes))) : list (kind * bytes) :=
  concat (map snd lines).
Definition line_ok (p : bytes * list (kind * bytes)) : Prop :=
  short_line (fst p) /\ splits (fst p ++ [10%N]) (snd p) Done.

Lemma read_loop_lines : forall lines f rest s s' v r, lines <> [] -> Forall line_ok lines -> length lines <= f ->
  run (toks_of lines) Done s = Some (s', LDone) -> got s' = v :: r -> depth s' = 0 ->
  (forall p q s1, lines = p ++ q -> p <> [] -> q <> [] -> run (toks_of p) Done s = Some (s1, LDone) ->
     got s1 = [] \/ depth s1 <> 0) ->
  read_loop f [] (text_of lines ++ rest) s = Value W v r rest (env_w s').
Proof.
  induction lines as [| (t, toks) lines IH]; intros f rest s s' v r N F L R G D Mid; [contradiction |].
  inversion F as [| x y (Sh & Sp) F']; subst; cbn [fst snd] in *.
  destruct f as [| f]; [cbn in L; lia |]; rewrite read_loop_S; cbv zeta; cbn [length].
  assert (T : text_of ((t, toks) :: lines) ++ rest = t ++ 10%N :: (text_of lines ++ rest)).
  { unfold text_of; cbn [flat_map fst]; rewrite <- !app_assoc; reflexivity. }
  rewrite T, fgets_line by exact Sh; cbn [app]; rewrite cstr_line by apply Sh.
  rewrite (parse_splits ev _ _ _ s Sp); fold run.
  change (toks_of ((t, toks) :: lines)) with (toks ++ toks_of lines) in R.
  destruct (run_split _ _ _ _ R) as (s1 & R1 & R2); rewrite R1.
  destruct lines as [| l2 lines].
  - cbn in R2; injection R2 as <-; rewrite G, D; reflexivity.
  - assert (C : read_loop f [] (text_of (l2 :: lines) ++ rest) s1 = Value W v r rest (env_w s')).
    { apply IH; auto; [discriminate | cbn in *; lia |].
      intros p q s2 E Np Nq Rp; apply (Mid ((t, toks) :: p) q s2); auto; [rewrite E; reflexivity | discriminate |].
      change (toks_of ((t, toks) :: p)) with (toks ++ toks_of p).
      unfold run in *; clear - R1 Rp; revert s R1; induction toks as [| (k, x) toks IHt]; intros s R1.
      - cbn in *; injection R1 as <-; exact Rp.
      - cbn [app ParserProofs.run] in *; destruct (act W ev k x s) as [[s3 |] |]; try discriminate; apply IHt; exact R1. }
    destruct (Mid [(t, toks)] (l2 :: lines) s1 eq_refl) as [M | M]; try discriminate.
    + cbn; rewrite app_nil_r; exact R1.
    + rewrite M; exact C.
    + destruct (got s1); [exact C |]; destruct (depth s1); [contradiction | exact C].
Qed.

Lemma read_lines : forall lines w v vs w' rest n, lines <> [] -> Forall line_ok lines ->
  program W (runs ev) w (toks_of lines) (v :: vs) w' ->
  (forall p q, lines = p ++ q -> q <> [] -> Forall filler (toks_of p) \/ (0 < nesting (toks_of p))%Z) ->
  length lines <= n ->
  lisp_read n [] (text_of lines ++ rest) w = Value W v vs rest w'.
Proof.
  intros lines w v vs w' rest n N F P Mid L; unfold lisp_read, Parser.lisp_read; fold read_loop.
  assert (R : run (toks_of lines) Done (mkl 0 [] [] w) = Some (mkl 0 [] (v :: vs) w', LDone)).
  { pose proof (program_steps ev w _ _ w' P [] [] Done) as R; rewrite app_nil_r in R; exact R. }
  apply (read_loop_lines lines n rest _ (mkl 0 [] (v :: vs) w') v vs); auto.
  intros p q s1 E _ Nq Rp; destruct (Mid p q E Nq) as [A | A].
  - rewrite run_filler in Rp by exact A; injection Rp as <-; left; reflexivity.
  - right; apply run_depth in Rp; cbn [depth] in Rp; lia.
Qed.

(** ** Reading back *)
Lemma glyph_printing : forall b g, glyph b g -> (32 <= b <= 126)%N \/ In b [27; 10; 13; 9]%N ->
  Forall (fun c => c <> 10 /\ c <> 0)%N g.
Proof.
  intros b g G B; destruct G; repeat (constructor; [split; discriminate |]); try constructor; auto.
  split; intros ->; destruct B as [B | B]; try lia; cbn in B; destruct B as [B | [B | [B | [B | []]]]]; congruence.
Qed.

Lemma printed_one_line :
  (forall v t, literal v t -> readable v -> Forall (fun c => c <> 10 /\ c <> 0)%N t) /\
  (forall a d x, items a d x -> readable a -> readable d -> Forall (fun c => c <> 10 /\ c <> 0)%N x).
Proof.
  assert (Ap : forall a b : bytes, Forall (fun c => c <> 10 /\ c <> 0)%N a -> Forall (fun c => c <> 10 /\ c <> 0)%N b ->
    Forall (fun c => c <> 10 /\ c <> 0)%N (a ++ b)) by (intros; apply Forall_app; auto).
  assert (Dg : forall s, Forall is_digit s -> Forall (fun c => c <> 10 /\ c <> 0)%N s).
  { intro s; apply Forall_impl; intros c H; unfold is_digit in H; lia. }
  apply literal_items_ind.
  - intros _; repeat (constructor; [split; discriminate |]); constructor.
  - intros _; repeat (constructor; [split; discriminate |]); constructor.
  - intros _; repeat (constructor; [split; discriminate |]); constructor.
  - intros c g G R; inversion R as [| | | | c' B N E | |]; subst; apply Ap.
    + repeat (constructor; [split; discriminate |]); constructor.
    + apply (glyph_printing _ g G); destruct B as [B | B].
      * left; rewrite Z.mod_small by lia; lia.
      * right; repeat (destruct B as [<- | B]; [vm_compute; tauto |]); destruct B.
  - intros z t D _; destruct D as [n ds (F & _) _ | n ds (F & _) _ _]; [apply Dg; exact F |].
    constructor; [split; discriminate | apply Dg; exact F].
  - intros t s nm N R; inversion R as [| | | | | nm' s' Nm P |]; subst.
    assert (nm = nm').
    { pose proof Nm as (Sy & _); destruct (symbol_bytes nm' Sy) as (F & L); destruct P as (k & E & Ls).
      apply (name_padded s nm 16 N nm' k E); [| lia].
      eapply Forall_impl; [| exact F]; exact symbol_byte_nonzero. }
    subst nm'; destruct Nm as (Sy & _); destruct (symbol_bytes nm Sy) as (F & _).
    eapply Forall_impl; [| exact F]; intros c C; split; [| exact (symbol_byte_nonzero c C)].
    intros ->; exact (delimiter_newline C).
  - intros t a d x _ IH R; inversion R as [| | | | | | a' d' Ra Rd]; subst.
    repeat apply Ap; auto; repeat (constructor; [split; discriminate |]); constructor.
  - intros a x _ IH Ra _; exact (IH Ra).
  - intros t a b d x y _ IHa _ IHd Ra R; inversion R as [| | | | | | b' d' Rb Rd]; subst.
    repeat apply Ap; auto; repeat (constructor; [split; discriminate |]); constructor.
  - intros a d x y _ IHa _ _ _ IHd Ra Rd.
    repeat apply Ap; auto; repeat (constructor; [split; discriminate |]); constructor.
Qed.

Lemma newline_token : splits [10%N] [(KSpace, [10%N])] Done.
Proof.
  apply (splits_one KSpace [10%N] []); [| constructor].
  apply single_longest; [apply tok_space; left; lia | cbn; tauto].
Qed.

Lemma literal_splits : forall v t, literal v t -> readable v -> exists toks,
  (forall w, form W (runs ev) w toks v w) /\ splits (t ++ [10%N]) (toks ++ [(KSpace, [10%N])]) Done.
Proof.
  intros v t Li R; destruct (proj1 (printed_reads (runs ev)) v t Li R) as (toks & F & S).
  exists toks; split; [exact F |]; apply S; [exact delimiter_newline | exact newline_token].
Qed.

Lemma print_parse : forall v t w, literal v t -> readable v ->
  lexer_parse W ev (t ++ [10%N]) (mkl 0 [] [] w) = Some (mkl 0 [] [v] w, LDone).
Proof.
  intros v t w Li R; destruct (literal_splits v t Li R) as (toks & F & S).
  eapply reads_program; [exact S |].
  eapply program_form; [apply F |]; apply program_filler; [left; reflexivity | apply program_end].
Qed.

Lemma print_read : forall v t rest n w, literal v t -> readable v -> length t <= 1022 -> n <> 0 ->
  lisp_read n [] (t ++ 10%N :: rest) w = Value W v [] rest w.
Proof.
  intros v t rest n w Li R L N; destruct (literal_splits v t Li R) as (toks & F & S).
  pose (lines := [(t, toks ++ [(KSpace, [10%N])])]).
  replace (t ++ 10%N :: rest) with (text_of lines ++ rest)
    by (unfold text_of, lines; cbn [flat_map fst]; rewrite app_nil_r, <- app_assoc; reflexivity).
  apply read_lines.
  - discriminate.
  - apply Forall_cons; [| apply Forall_nil]; split; [split; [exact L | apply (proj1 printed_one_line v t Li R)] | exact S].
  - unfold toks_of, lines; cbn [map snd concat]; rewrite app_nil_r.
    eapply program_form; [apply F |]; apply program_filler; [left; reflexivity | apply program_end].
  - intros p q E Nq; left; destruct p as [| x p]; [constructor |].
    exfalso; apply Nq; unfold lines in E; cbn in E; injection E as <- E; symmetry in E; apply app_eq_nil in E; apply E.
  - cbn; lia.
Qed.

(** ** Numerals and names *)
Lemma number_read : forall t z w, numeral t z ->
  lexer_parse W ev (t ++ [10%N]) (mkl 0 [] [] w) = Some (mkl 0 [] [Num (closest z)] w, LDone).
Proof.
  intros t z w H; eapply reads_program.
  - apply (splits_one KNumber t [10%N]); [| exact newline_token].
    apply word_longest; [| cbn; tauto | exact delimiter_newline].
    apply top_wins; [apply tok_number; exact (numeral_text t z H) |].
    intro; apply not_outranked; split; intros; discriminate.
  - apply (program_form W (runs ev) w [(KNumber, t)] (Num (closest z)) w); [apply form_plain, plain_number; exact H |].
    apply program_filler; [left; reflexivity | apply program_end].
Qed.

Lemma name_read : forall nm s w, readable_name nm -> padded nm s ->
  lexer_parse W ev (nm ++ [10%N]) (mkl 0 [] [] w) = Some (mkl 0 [] [Symb s] w, LDone).
Proof.
  intros nm s w N P; apply print_parse; [| apply (rd_sym nm); auto].
  apply lit_sym; destruct N as (Sy & _); destruct (symbol_bytes nm Sy) as (F & L); destruct P as (k & E & Ls).
  assert (G : forall a n k, length a <= n -> Forall (fun c => c <> 0%N) a -> name16 (a ++ repeat 0%N k) n a).
  { induction a as [| c a IH]; intros n k0 La Fa.
    - destruct n, k0; constructor.
    - destruct n as [| n]; [cbn in La; lia |]; inversion Fa; subst; cbn; constructor; auto; apply IH; auto; cbn in La; lia. }
  rewrite E; apply G; [lia |]; eapply Forall_impl; [| exact F]; exact symbol_byte_nonzero.
Qed.

Lemma prefixed_shape : forall k t p, is_token k t -> k = KPOpen p \/ k = KPSymbol p \/ k = KPNumber p ->
  exists s, t = prefix_byte p :: s /\
    ((k = KPOpen p /\ s = bs "(") \/ (k <> KPOpen p /\ s <> [] /\ Forall word s)).
Proof.
  intros k t p T K.
  destruct T as [| | | s H | c P N | c I | s H | | | | s H | q | q s H | q s H | s N | c B];
    try (exfalso; destruct K as [K | [K | K]]; discriminate).
  - assert (q = p) by (destruct K as [K | [K | K]]; congruence); subst; eexists; split; [reflexivity | auto].
  - assert (q = p) by (destruct K as [K | [K | K]]; congruence); subst; eexists; split; [reflexivity |].
    right; ands; [discriminate | intros ->; inversion H |]; apply (symbol_bytes s H).
  - assert (q = p) by (destruct K as [K | [K | K]]; congruence); subst; eexists; split; [reflexivity |].
    right; ands; [discriminate | intros ->; inversion H; congruence |].
    apply (word_bytes KNumber); [constructor; exact H | cbn; tauto].
Qed.

Lemma prefixed_word_longest : forall k t r p, wins k t -> k = KPSymbol p \/ k = KPNumber p -> ends r ->
  longest (t ++ r) k t r.
Proof.
  intros k t r p Wn K En; split; [reflexivity |]; split; [exact Wn |].
  intros k' t' r' E T'; destruct (Nat.le_gt_cases (length t') (length t)) as [L | L]; [exact L | exfalso].
  destruct (longer_prefix t t' r r' E L) as (c & u & -> & v & ->); cbn in En.
  destruct Wn as (T & _); destruct (prefixed_shape k t p T) as (s & -> & D); [tauto |].
  destruct D as [(D & _) | (_ & Ns & Fs)]; [destruct K; congruence |].
  assert (Ld : exists p', k' = KPOpen p' \/ k' = KPSymbol p' \/ k' = KPNumber p').
  { destruct (lead k' _ T') as (y & z & Ey & Lk' & By); cbn in Ey; injection Ey as <- <-.
    destruct p; destruct k'; try discriminate; eauto. }
  destruct Ld as (p' & K'); destruct (prefixed_shape k' _ p' T' K') as (s' & Es & D').
  cbn [app] in Es; injection Es as _ Es; destruct D' as [(_ & ->) | (_ & _ & F')].
  - destruct s as [| x s]; [contradiction |]; cbn in Es; injection Es as -> Es.
    destruct s; discriminate.
  - rewrite <- Es, Forall_forall in F'; apply En, F'; apply in_or_app; right; left; reflexivity.
Qed.

Lemma quoted_number : forall ds w, ds <> [] -> Forall is_digit ds ->
  lexer_parse W ev (39%N :: ds ++ [10%N]) (mkl 0 [] [] w)
  = Some (mkl 0 [] [Cons (Symb (sy "quote")) (Num (closest (Z.of_N (dec_value ds))))] w, LDone).
Proof.
  intros ds w N F; eapply reads_program.
  - apply (splits_one (KPNumber Quote) (39%N :: ds) [10%N]); [| exact newline_token].
    apply (prefixed_word_longest _ _ _ Quote); [| auto | exact delimiter_newline].
    apply wins_of; [apply (tok_pnumber Quote); apply number_plain; auto |].
    intros k' O T; inversion O; subst; inversion T; subst.
    destruct ds as [| d ds]; [contradiction |]; inversion F as [| x y D F']; subst.
    match goal with H : symbol_text _ |- _ => inversion H as [c s C Fs Ls] end; subst.
    unfold is_digit in D; destruct C as [C | C]; [unfold Letter in C; lia |].
    apply marks_spec in C; unfold marks, among in C; apply existsb_exists in C; destruct C as (x & I & E).
    apply N.eqb_eq in E; subst x; cbn in I; repeat (destruct I as [I | I]; [subst d; lia |]); destruct I.
  - apply (program_form W (runs ev) w [(KPNumber Quote, 39%N :: ds)] _ w); [apply form_quote_number, numeral_plain; auto |].
    apply program_filler; [left; reflexivity | apply program_end].
Qed.

(** ** Long strings *)
Lemma open_string_wait : forall s, ~ In 34%N s -> scan_token (34%N :: s) = Wait.
Proof.
  intros s N; pose proof (scan_token_spec (34%N :: s)) as P; pose proof (scan_token_purge s) as Q.
  destruct (scan_token (34%N :: s)) as [k n | |] eqn:E; [| reflexivity | contradiction].
  destruct P as (t & r & (Es & (T & _) & _) & _); exfalso.
  destruct (lead k t T) as (c & t0 & -> & Lk & B); cbn in Es; injection Es as <- ->.
  assert (k = KString) by (destruct k; try discriminate; try (destruct p; discriminate); reflexivity); subst k.
  inversion T; subst; apply N; apply in_or_app; left; apply in_or_app; right; left; reflexivity.
Qed.

Lemma take_line_all : forall n s, n <= length s -> ~ In 10%N (firstn n s) -> take_line n s = (firstn n s, skipn n s).
Proof.
  induction n as [| n IH]; intros s L N; [destruct s; reflexivity |].
  destruct s as [| c s]; [cbn in L; lia |]; cbn [take_line firstn skipn] in *.
  unfold one; destruct (N.eqb_spec 10 c) as [<- | C]; [exfalso; apply N; left; reflexivity |].
  rewrite IH; [reflexivity | cbn in L; lia | intro I; apply N; right; exact I].
Qed.
Lemma cstr_id : forall s, ~ In 0%N s -> cstr s = s.
Proof.
  induction s as [| c s IH]; intro N; cbn; [reflexivity |].
  destruct (N.eqb_spec c 0) as [-> | C]; [exfalso; apply N; left; reflexivity |].
  f_equal; apply IH; intro I; apply N; right; exact I.
Qed.
Lemma parse_wait : forall s st, ~ In 34%N s -> lexer_parse W ev (34%N :: s) st = Some (st, LWait (34%N :: s)).
Proof.
  intros s st N; unfold lexer_parse; cbn [length]; rewrite lex_cons, open_string_wait by exact N; reflexivity.
Qed.

Lemma long_string : forall body rest, length body = 1022 ->
  Forall (fun c => c <> 34 /\ c <> 10 /\ c <> 0)%N body ->
  forall n w, lisp_read n [] (34%N :: body ++ rest) w = Again W.
Proof.
  intros body rest L F n w; unfold lisp_read, Parser.lisp_read; fold read_loop.
  assert (No : forall x, (x = 34 \/ x = 10 \/ x = 0)%N -> ~ In x body).
  { intros x X I; rewrite Forall_forall in F; specialize (F x I); lia. }
  assert (Stuck : forall f st, read_loop f (34%N :: body) rest st = Again W).
  { induction f as [| f IH]; intro st; [reflexivity |]; rewrite read_loop_S; cbv zeta.
    cbn [length]; unfold bytes, byte in *; rewrite L.
    change (RBUFLEN - 1023) with 1; cbn [fgets]; change (cstr []) with (@nil N); rewrite app_nil_r.
    rewrite parse_wait by (apply No; auto); apply IH. }
  destruct n as [| n]; [reflexivity |]; rewrite read_loop_S; cbv zeta; cbn [length].
  assert (Fg : fgets (RBUFLEN - 0) (34%N :: body ++ rest) = Some (34%N :: body, rest)).
  { replace (RBUFLEN - 0) with (S (S (length body))) by (unfold bytes, byte in *; rewrite L; reflexivity).
    cbn [fgets]; replace (S (S (length body)) - 1) with (length (34%N :: body)) by (cbn [length]; lia).
    change (34%N :: body ++ rest) with ((34%N :: body) ++ rest); rewrite take_line_all.
    - rewrite first_app, skip_app; reflexivity.
    - rewrite app_length; lia.
    - rewrite first_app; intros [I | I]; [discriminate | apply (No 10%N) in I; auto]. }
  rewrite Fg; cbn [app]; rewrite cstr_id by (intros [I | I]; [discriminate | apply (No 0%N) in I; auto]).
  rewrite parse_wait by (apply No; auto); apply Stuck.
Qed.

(** ** Reading ends on a stream without string quotes *)
Lemma take_line_parts : forall n s a b, take_line n s = (a, b) -> s = a ++ b /\ (n <> 0 -> s <> [] -> a <> []).
Proof.
  induction n as [| n IH]; intros s a b H; [destruct s; injection H as <- <-; split; auto; contradiction |].
  destruct s as [| c s]; cbn [take_line] in H; [injection H as <- <-; auto |].
  destruct (one 10%N c); [injection H as <- <-; split; auto; discriminate |].
  destruct (take_line n s) as (x, y) eqn:E; injection H as <- <-; destruct (IH s x y E) as (-> & _).
  split; auto; discriminate.
Qed.
Lemma cstr_sub : forall s x, In x (cstr s) -> In x s.
Proof.
  induction s as [| c s IH]; intros x H; cbn in *; [exact H |].
  destruct (N.eqb c 0); [destruct H |]; destruct H as [H | H]; auto.
Qed.
Lemma run_wait_quote : forall s l e st st' k, splits s l e -> ~ In 34%N s -> run l e st <> Some (st', LWait k).
Proof.
  intros s l e st st' k H; revert st; induction H as [| s c t r l e N (E & _) _ IH | s N | c s C N];
    intros st Q; unfold run in *; cbn [ParserProofs.run stop].
  - discriminate.
  - destruct (act W ev c t st) as [[st1 |] |]; try discriminate.
    apply IH; intro I; apply Q; rewrite E; apply in_or_app; right; exact I.
  - exfalso; apply Q; left; reflexivity.
  - discriminate.
Qed.

Lemma read_ends : forall stream w, ~ In 34%N stream ->
  lisp_read (S (length stream)) [] stream w <> Again W.
Proof.
  intros stream w Q; unfold lisp_read, Parser.lisp_read; fold read_loop.
  assert (G : forall f s st, length s < f -> ~ In 34%N s -> read_loop f [] s st <> Again W).
  { induction f as [| f IH]; intros s st L N; [lia |]; rewrite read_loop_S; cbv zeta; cbn [length].
    destruct s as [| c s].
    - cbn; destruct (got st); discriminate.
    - change (RBUFLEN - 0) with (S (S 1022)); cbn [fgets]; change (S (S 1022) - 1) with (S 1022).
      destruct (take_line (S 1022) (c :: s)) as (line, s') eqn:E.
      destruct (take_line_parts _ _ _ _ E) as (Ap & Ne); cbn [app].
      assert (L' : length s' < f).
      { specialize (Ne ltac:(lia) ltac:(discriminate)); destruct line as [| y line]; [contradiction |].
        rewrite Ap in L; cbn [app length] in L; rewrite app_length in L; lia. }
      assert (N' : ~ In 34%N s') by (intro I; apply N; rewrite Ap; apply in_or_app; right; exact I).
      destruct (lexer_parse W ev (cstr line) st) as [(st', e) |] eqn:P; [| discriminate].
      destruct e.
      + destruct (got st') eqn:Gt; [apply IH; auto |]; destruct (depth st'); [discriminate | apply IH; auto].
      + exfalso; destruct (tokens (cstr line)) as (l, e) eqn:T; apply tokens_splits in T.
        rewrite (parse_splits ev _ _ _ st T) in P; revert P; apply (run_wait_quote _ _ _ _ _ _ T).
        intro I; apply cstr_sub in I; apply N; rewrite Ap; apply in_or_app; left; exact I.
      + discriminate. }
  apply G; [lia | exact Q].
Qed.

(** ** Reading ends when no quote is followed by 1022 bytes without a quote *)
Lemma take_line_len : forall n s a b, take_line n s = (a, b) -> length a <= n.
Proof.
  induction n as [| n IH]; intros s a b H; [destruct s; injection H as <- <-; auto |].
  destruct s as [| c s]; cbn [take_line] in H; [injection H as <- <-; cbn; lia |].
  destruct (one 10%N c); [injection H as <- <-; cbn; lia |].
  destruct (take_line n s) as (x, y) eqn:E; injection H as <- <-; apply IH in E; cbn [length]; lia.
Qed.
Lemma run_wait_tail : forall s l e st st' k, splits s l e -> run l e st = Some (st', LWait k) ->
  exists a b, s = a ++ 34%N :: b /\ k = 34%N :: b /\ ~ In 34%N b.
Proof.
  intros s l e st st' k H; revert st; induction H as [| s c t r l e N (E & _) _ IH | s N | c s C N];
    intros st Q; unfold run in *; cbn [ParserProofs.run stop] in Q.
  - discriminate.
  - destruct (act W ev c t st) as [[st1 |] |]; try discriminate.
    destruct (IH _ Q) as (a & b & -> & K & M); exists (t ++ a), b; rewrite E, <- app_assoc; auto.
  - injection Q as _ <-; exists [], s; split; [reflexivity | split; [reflexivity | apply no_quote; exact N]].
  - discriminate.
Qed.
Lemma read_ends_strings : forall stream w, ~ In 0%N stream ->
  (forall a body rest, stream = a ++ 34%N :: body ++ rest -> length body = 1022 -> In 34%N body) ->
  lisp_read (S (length stream)) [] stream w <> Again W.
Proof.
  intros stream w Z Q; unfold lisp_read, Parser.lisp_read; fold read_loop.
  assert (G : forall f s kept st, length s < f -> length kept <= 1023 -> (exists pre, stream = pre ++ kept ++ s) ->
    (kept = [] \/ exists b, kept = 34%N :: b /\ ~ In 34%N b) -> read_loop f kept s st <> Again W).
  { induction f as [| f IH]; intros s kept st L K (pre & Es) Kq; [lia |]; rewrite read_loop_S; cbv zeta.
    assert (K' : length kept <= 1022).
    { destruct Kq as [-> | (b & -> & Nb)]; [cbn; lia |]; cbn [length] in *.
      destruct (Nat.eq_dec (length b) 1022) as [Lb | Lb]; [| lia].
      exfalso; apply Nb; apply (Q pre b s); [exact Es | exact Lb]. }
    remember (RBUFLEN - length kept) as n eqn:En.
    assert (2 <= n) by (subst n; change RBUFLEN with 1024; lia).
    assert (n <= 1024 - length kept) by (subst n; change RBUFLEN with 1024; lia).
    destruct n as [| [| n]]; [lia | lia |].
    destruct s as [| c s].
    - cbn [fgets]; destruct (got st); discriminate.
    - cbn [fgets]; replace (S (S n) - 1) with (S n) by lia.
      destruct (take_line (S n) (c :: s)) as (line, s') eqn:E.
      destruct (take_line_parts _ _ _ _ E) as (Ap & Ne); pose proof (take_line_len _ _ _ _ E) as Le.
      assert (L' : length s' < f).
      { specialize (Ne ltac:(lia) ltac:(discriminate)); destruct line as [| y line]; [contradiction |].
        rewrite Ap in L; cbn [app length] in L; rewrite app_length in L; lia. }
      rewrite cstr_id by (intro I; apply Z; rewrite Es, Ap; apply in_or_app; right; apply in_or_app; right; apply in_or_app; left; exact I).
      assert (Nx : read_loop f [] s' st <> Again W /\ forall st', read_loop f [] s' st' <> Again W).
      { assert (forall st', read_loop f [] s' st' <> Again W); [| auto].
        intro st'; apply IH; [exact L' | cbn; lia | | left; reflexivity].
        exists (pre ++ kept ++ line); rewrite Es, Ap, <- !app_assoc; reflexivity. }
      destruct Nx as (_ & Nx).
      destruct (lexer_parse W ev (kept ++ line) st) as [(st', e) |] eqn:P; [| discriminate].
      destruct e.
      + destruct (got st') eqn:Gt; [apply Nx |]; destruct (depth st'); [discriminate | apply Nx].
      + destruct (tokens (kept ++ line)) as (l, e) eqn:T; apply tokens_splits in T.
        rewrite (parse_splits ev _ _ _ st T) in P.
        destruct (run_wait_tail _ _ _ _ _ _ T P) as (a & b & Ek & -> & Nb).
        apply IH; [exact L' | | | right; eauto].
        * assert (length (kept ++ line) = length (a ++ 34%N :: b)) as X by (rewrite Ek; reflexivity).
          rewrite !app_length in X; lia.
        * exists (pre ++ a); rewrite Es, Ap, <- app_assoc; f_equal.
          rewrite (app_assoc kept), Ek, <- !app_assoc; reflexivity.
      + discriminate. }
  apply G; [lia | cbn; lia | exists []; reflexivity | left; reflexivity].
Qed.
End Lines.
