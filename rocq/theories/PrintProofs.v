(** * Proofs about printing. *)
From Verif Require Import Value ValueSpec ValueProofs Print PrintSpec.
From Coq Require Import ZifyBool ZifyNat ZifyN.
Open Scope N_scope.

(** ** Buffer *)

Lemma slice_ext : forall k p m m',
  (forall j, p <= j < p + N.of_nat k -> m j = m' j) -> slice m p k = slice m' p k.
Proof.
  induction k as [|k IH]; intros p m m' H; cbn [slice]; auto.
  f_equal; [apply H; lia|]. apply IH. intros j Hj; apply H; lia.
Qed.

Lemma slice_app : forall a b p m,
  slice m p (a + b) = slice m p a ++ slice m (p + N.of_nat a) b.
Proof.
  induction a as [|a IH]; intros b p m; cbn [slice Nat.add app].
  - f_equal; lia.
  - f_equal. rewrite IH. do 2 f_equal. lia.
Qed.

Lemma memcpy_spec : forall data p m, p + N.of_nat (length data) <= IO_BUFFER_LEN ->
  exists m', memcpy m p data = Some m' /\
    slice m' p (length data) = data /\
    (forall j, (j < p \/ p + N.of_nat (length data) <= j) -> m' j = m j).
Proof.
  induction data as [|b data IH]; intros p m H; cbn [memcpy length slice] in *.
  - exists m; auto.
  - destruct (N.ltb_spec p IO_BUFFER_LEN) as [Hp|Hp]; [|lia].
    destruct (IH (p + 1) (fun j => if j =? p then b else m j)) as [m' [E [S O]]]; [lia|].
    exists m'. split; auto. split.
    + rewrite S. f_equal. rewrite O by lia. rewrite N.eqb_refl; auto.
    + intros j Hj. rewrite O by lia. destruct (N.eqb_spec j p); auto; lia.
Qed.

(** What has been printed: the stream plus the staged bytes. *)
Definition content (st : pstate) (idx : N) : bytes :=
  out st ++ slice (buf st) 0 (N.to_nat idx).

Lemma lisp_write_spec : forall st idx data,
  idx < IO_BUFFER_LEN -> N.of_nat (length data) < IO_BUFFER_LEN ->
  exists st' idx', lisp_write st idx data = Some (st', idx') /\
    idx' < IO_BUFFER_LEN /\ content st' idx' = content st idx ++ data.
Proof.
  intros st idx data Hi Hd. unfold lisp_write.
  set (len := N.of_nat (length data)) in *.
  destruct (N.leb_spec IO_BUFFER_LEN (idx + len)) as [Hf|Hf].
  - unfold fwrite. destruct (N.ltb_spec IO_BUFFER_LEN idx) as [|_]; [lia|].
    cbn [buf out].
    destruct (memcpy_spec data 0 (buf st)) as [m' [E [S O]]]; [fold len; lia|].
    rewrite E. do 2 eexists. split; [reflexivity|]. split; [lia|].
    unfold content; cbn [out buf]. f_equal.
    replace (N.to_nat (0 + len)) with (length data) by (unfold len; lia). exact S.
  - destruct (memcpy_spec data idx (buf st)) as [m' [E [S O]]]; [fold len; lia|].
    rewrite E. do 2 eexists. split; [reflexivity|]. split; [lia|].
    unfold content; cbn [out buf].
    replace (N.to_nat (idx + len)) with (N.to_nat idx + length data)%nat
      by (unfold len; lia).
    rewrite slice_app. rewrite <- app_assoc. f_equal. f_equal.
    + apply slice_ext. intros j Hj. apply O. lia.
    + replace (0 + N.of_nat (N.to_nat idx)) with idx by lia. exact S.
Qed.

(** ** Decimal rendering *)

Lemma digits_app : forall f n acc, digits f n acc = digits f n [] ++ acc.
Proof.
  induction f as [|f IH]; intros n acc; cbn [digits]; auto.
  destruct (n / 10 =? 0); auto.
  rewrite IH, (IH _ [48 + n mod 10]). rewrite <- app_assoc. auto.
Qed.

Lemma div10_lt : forall n f, n < 2 ^ N.of_nat (S f) -> n / 10 <> 0 -> n / 10 < 2 ^ N.of_nat f.
Proof.
  intros n f H Hn. apply N.div_lt_upper_bound; [lia|].
  replace (N.of_nat (S f)) with (N.succ (N.of_nat f)) in H by lia.
  rewrite N.pow_succ_r' in H. lia.
Qed.

Lemma dec_value_snoc : forall ds d, dec_value (ds ++ [d]) = 10 * dec_value ds + (d - 48).
Proof. intros ds d. unfold dec_value. rewrite fold_left_app. reflexivity. Qed.

Lemma digits_spec : forall f n, n < 2 ^ N.of_nat f -> n <> 0 ->
  Forall is_digit (digits f n []) /\ dec_value (digits f n []) = n /\
  exists d r, digits f n [] = d :: r /\ d <> 48.
Proof.
  induction f as [|f IH]; intros n H Hn; [cbn in H; lia|].
  cbn [digits]. pose proof (N.mod_lt n 10) as Hm. pose proof (N.div_mod' n 10) as Hdm.
  destruct (N.eqb_spec (n / 10) 0) as [E|E].
  - split; [|split].
    + constructor; auto. unfold is_digit; lia.
    + unfold dec_value; cbn [fold_left]. lia.
    + do 2 eexists; split; [reflexivity|]. lia.
  - rewrite digits_app. destruct (IH (n / 10)) as [A [B [d [r [C D]]]]]; auto.
    { apply div10_lt; auto. }
    split; [|split].
    + apply Forall_app; split; auto. constructor; auto. unfold is_digit; lia.
    + rewrite dec_value_snoc, B. lia.
    + rewrite C. cbn [app]. eauto.
Qed.

Lemma size_nat_lt : forall n, n < 2 ^ N.of_nat (S (N.size_nat n)).
Proof.
  intros n. destruct (N.eq_dec n 0) as [->|H]; [reflexivity|].
  replace (N.of_nat (S (N.size_nat n))) with (N.succ (N.size n)).
  - rewrite N.pow_succ_r'. pose proof (N.size_gt n). lia.
  - destruct n as [|p]; [congruence|]. cbn [N.size_nat N.size].
    assert (Hp : N.of_nat (Pos.size_nat p) = N.pos (Pos.size p)).
    { clear. induction p; cbn [Pos.size_nat Pos.size]; lia. }
    lia.
Qed.

Lemma dec_N_spec : forall n, canonical_digits (dec_N n) /\ dec_value (dec_N n) = n.
Proof.
  intros n. destruct (N.eq_dec n 0) as [->|H].
  - split; [|reflexivity]. split; [|left; reflexivity].
    cbn. constructor; auto. unfold is_digit; lia.
  - destruct (digits_spec (S (N.size_nat n)) n (size_nat_lt n) H) as [A [B C]].
    split; auto. split; auto.
Qed.

Lemma dec_decimal : forall z, decimal z (dec z).
Proof.
  intros [|p|p].
  - change 0%Z with (Z.of_N 0). apply decimal_pos; apply (dec_N_spec 0).
  - change (Z.pos p) with (Z.of_N (N.pos p)). apply decimal_pos; apply (dec_N_spec (N.pos p)).
  - change (Z.neg p) with (- Z.of_N (N.pos p))%Z. cbn [dec Z.opp Z.of_N].
    change (Z.neg p) with (- Z.of_N (N.pos p))%Z.
    apply decimal_neg; try apply (dec_N_spec (N.pos p)). lia.
Qed.

Lemma digits_length : forall k f n, n < 10 ^ N.of_nat (S k) ->
  (length (digits f n []) <= S k)%nat.
Proof.
  induction k as [|k IH]; intros f n H; destruct f as [|f]; cbn [digits length]; try lia.
  - change (10 ^ N.of_nat 1) with 10 in H. rewrite (N.div_small n 10) by lia. cbn. lia.
  - destruct (n / 10 =? 0); [cbn; lia|].
    rewrite digits_app, app_length. cbn [length].
    assert (length (digits f (n / 10) []) <= S k)%nat; [|lia].
    apply IH. apply N.div_lt_upper_bound; [lia|].
    replace (N.of_nat (S (S k))) with (N.succ (N.of_nat (S k))) in H by lia.
    rewrite N.pow_succ_r' in H. exact H.
Qed.

Lemma dec_length : forall z, (- 2 ^ 63 <= z < 2 ^ 63)%Z -> (length (dec z) <= 20)%nat.
Proof.
  intros z H.
  assert (B : forall n, n <= 2 ^ 63 -> (length (dec_N n) <= 19)%nat).
  { intros n Hn. unfold dec_N. apply (digits_length 18).
    eapply N.le_lt_trans; [exact Hn|]. reflexivity. }
  destruct z as [|p|p]; cbn [dec length].
  - cbn; lia.
  - specialize (B (Z.to_N (Z.pos p))). lia.
  - specialize (B (N.pos p)). lia.
Qed.

(** ** Literal text as a function, then against the specification *)

Fixpoint lit (inpair : bool) (cell : atom) : bytes :=
  match cell with
  | Nil => bs "NIL"
  | Tru => bs "T"
  | Wild => bs "_"
  | Chr c => bs "^" ++ char_literal (byte_of_char c)
  | Num z => dec z
  | Sym _ x => sym_text x
  | Pair _ a d =>
      let body := lit false a ++
        match d with
        | Nil => []
        | Pair _ _ _ => bs " " ++ lit true d
        | _ => bs " . " ++ lit false d
        end in
      if inpair then body else bs "(" ++ body ++ bs ")"
  end.

Lemma cstr_length : forall s, (length (cstr s) <= length s)%nat.
Proof. induction s as [|b s IH]; cbn; auto. destruct (b =? 0); cbn; lia. Qed.

Lemma char_literal_length : forall b, (length (char_literal b) <= 2)%nat.
Proof.
  intros b. unfold char_literal.
  destruct (b =? 27); [cbn; lia|]. destruct (b =? 10); [cbn; lia|].
  destruct (b =? 13); [cbn; lia|]. destruct (b =? 9); cbn; lia.
Qed.

(** One printing step: always succeeds inside the buffer and appends [t]. *)
Definition appends (r : pstate -> N -> option (pstate * N)) (t : bytes) : Prop :=
  forall st idx, idx < IO_BUFFER_LEN ->
  exists st' idx', r st idx = Some (st', idx') /\ idx' < IO_BUFFER_LEN /\
                   content st' idx' = content st idx ++ t.

Lemma appends_write : forall data, N.of_nat (length data) < IO_BUFFER_LEN ->
  appends (fun st i => lisp_write st i data) data.
Proof. intros data H st idx Hi. apply lisp_write_spec; auto. Qed.

Lemma appends_ret : appends (fun st i => Some (st, i)) [].
Proof. intros st idx Hi. do 2 eexists; split; [reflexivity|]. rewrite app_nil_r; auto. Qed.

Lemma appends_then : forall r k t u, appends r t -> appends k u ->
  appends (fun st i => pthen (r st i) k) (t ++ u).
Proof.
  intros r k t u Hr Hk st idx Hi. destruct (Hr st idx Hi) as [s1 [i1 [E1 [L1 C1]]]].
  rewrite E1. cbn [pthen]. destruct (Hk s1 i1 L1) as [s2 [i2 [E2 [L2 C2]]]].
  do 2 eexists; split; [exact E2|]. split; auto. rewrite C2, C1, app_assoc; auto.
Qed.

Ltac short := unfold IO_BUFFER_LEN; cbn; lia.

Lemma prin_lit : forall cell inpair, c_value cell ->
  appends (prin_cell inpair true cell) (lit inpair cell).
Proof.
  induction cell as [| | |c|z|t s|t a IHa d IHd]; intros inpair H.
  - apply (appends_write (bs "NIL")); short.
  - apply (appends_write (bs "T")); short.
  - apply (appends_write (bs "_")); short.
  - apply (appends_then (fun st i => lisp_write st i (bs "^"))
                        (fun st i => lisp_write st i _)).
    + apply appends_write; short.
    + apply appends_write. pose proof (char_literal_length (byte_of_char c)).
      unfold IO_BUFFER_LEN. lia.
  - apply (appends_write (dec z)). cbn [c_value] in H. apply dec_length in H.
    unfold IO_BUFFER_LEN; lia.
  - apply (appends_write (sym_text s)). cbn [c_value] in H.
    pose proof (cstr_length s). unfold sym_text, IO_BUFFER_LEN; lia.
  - cbn [c_value] in H. destruct H as [Ha Hd].
    specialize (IHa false Ha).
    assert (Hbody : appends
      (fun st idx => pthen (prin_cell false true a st idx) (fun st nxt =>
        match d with
        | Nil => Some (st, nxt)
        | Pair _ _ _ =>
            pthen (lisp_write st nxt (bs " "))
                  (fun st nxt => prin_cell true true d st nxt)
        | _ =>
            pthen (lisp_write st nxt (bs " . "))
                  (fun st nxt => prin_cell false true d st nxt)
        end))
      (lit false a ++
        match d with
        | Nil => []
        | Pair _ _ _ => bs " " ++ lit true d
        | _ => bs " . " ++ lit false d
        end)).
    { apply appends_then; auto.
      destruct d as [| | |c|z|t' s|t' b e];
        [apply appends_ret| | | | | | ];
        (apply (appends_then (fun st i => lisp_write st i _));
         [apply appends_write; short|apply IHd; auto]). }
    cbn [prin_cell lit]. destruct inpair; [exact Hbody|].
    apply (appends_then (fun st i => lisp_write st i (bs "("))).
    + apply appends_write; short.
    + apply (appends_then _ (fun st i => lisp_write st i (bs ")")) _ _ Hbody).
      apply appends_write; short.
Qed.

Lemma char_literal_glyph : forall b, glyph b (char_literal b).
Proof.
  intros b. unfold char_literal.
  destruct (N.eqb_spec b 27); [subst; constructor|].
  destruct (N.eqb_spec b 10); [subst; constructor|].
  destruct (N.eqb_spec b 13); [subst; constructor|].
  destruct (N.eqb_spec b 9); [subst; constructor|].
  constructor; auto.
Qed.

Lemma firstn_all_le : forall (A : Type) n (l : list A), (length l <= n)%nat -> firstn n l = l.
Proof. intros; apply firstn_all2; auto. Qed.

Lemma sym_text_name16 : forall s, length s = 16%nat -> name16 s 16 (sym_text s).
Proof.
  intros s H. apply name16_fun. unfold sym_text. rewrite firstn_all2; auto.
  pose proof (cstr_length s). lia.
Qed.

Lemma lit_spec : forall cell, c_value cell ->
  literal cell (lit false cell) /\
  (forall t a d, cell = Pair t a d -> items a d (lit true cell)).
Proof.
  induction cell as [| | |c|z|t s|t a IHa d IHd]; intros H;
    (split; [|try (intros; discriminate)]).
  - apply lit_nil.
  - apply lit_true.
  - apply lit_wild.
  - apply lit_chr. apply char_literal_glyph.
  - apply lit_num. apply dec_decimal.
  - apply lit_sym. apply sym_text_name16. apply H.
  - cbn [c_value] in H. destruct H as [Ha Hd].
    destruct (IHa Ha) as [La _]. destruct (IHd Hd) as [Ld Id].
    cbn [lit]. apply lit_pair.
    destruct d as [| | |c|z|t' s|t' b e];
      try (apply items_dot; auto; intros; discriminate).
    + rewrite app_nil_r. apply items_last; auto.
    + apply items_more; auto. eapply Id; reflexivity.
  - cbn [c_value] in H. destruct H as [Ha Hd].
    destruct (IHa Ha) as [La _]. destruct (IHd Hd) as [Ld Id].
    intros t0 a0 d0 E. injection E as <- <- <-. cbn [lit].
    destruct d as [| | |c|z|t' s|t' b e];
      try (apply items_dot; auto; intros; discriminate).
    + rewrite app_nil_r. apply items_last; auto.
    + apply items_more; auto. eapply Id; reflexivity.
Qed.

Lemma lisp_prin_of_appends : forall written m cell s t,
  appends (prin_cell false s cell) t ->
  lisp_prin written m cell s = Some (written ++ t).
Proof.
  intros written m cell s t H. unfold lisp_prin.
  destruct (H (mkp written m) 0) as [st [idx [E [L C]]]]; [reflexivity|].
  rewrite E. unfold fwrite. destruct (N.ltb_spec IO_BUFFER_LEN idx); [lia|].
  cbn [out]. unfold content in C. cbn [out buf slice N.to_nat] in C.
  rewrite app_nil_r in C. rewrite C. auto.
Qed.

Lemma prin_literal : forall written m cell, c_value cell ->
  exists t, literal cell t /\ lisp_prin written m cell true = Some (written ++ t).
Proof.
  intros written m cell H. exists (lit false cell). split.
  - apply lit_spec; auto.
  - apply lisp_prin_of_appends, prin_lit; auto.
Qed.

(** Determinacy of the specification. *)
Lemma digits_zero_or : forall ds, Forall is_digit ds ->
  (exists d r, ds = d :: r /\ d <> 48) -> dec_value ds <> 0.
Proof.
  intros ds. induction ds as [|d ds IH] using rev_ind; intros F [x [r [E Hx]]].
  - discriminate.
  - rewrite dec_value_snoc. apply Forall_app in F. destruct F as [F1 F2].
    inversion F2 as [|? ? Hd _]; subst. unfold is_digit in Hd.
    destruct ds as [|y ds].
    + cbn in E. injection E as -> ->. cbn. lia.
    + cbn in E. injection E as -> _.
      assert (dec_value (x :: ds) <> 0) by (apply IH; eauto). lia.
Qed.

Lemma digits_unique : forall a b, Forall is_digit a -> Forall is_digit b ->
  (a = [] \/ exists d r, a = d :: r /\ d <> 48) ->
  (b = [] \/ exists d r, b = d :: r /\ d <> 48) ->
  dec_value a = dec_value b -> a = b.
Proof.
  intros a. induction a as [|x a IH] using rev_ind; intros b Fa Fb Ha Hb E.
  - destruct Hb as [->|Hb]; auto. exfalso. apply digits_zero_or in Hb; auto.
  - destruct b as [|y b _] using rev_ind.
    + exfalso. destruct Ha as [Ha|Ha]; [destruct a; discriminate|].
      apply digits_zero_or in Ha; auto.
    + rewrite !dec_value_snoc in E. apply Forall_app in Fa, Fb.
      destruct Fa as [Fa1 Fa2], Fb as [Fb1 Fb2].
      inversion Fa2 as [|? ? Dx _]; inversion Fb2 as [|? ? Dy _]; subst.
      unfold is_digit in Dx, Dy.
      assert (Hsub : forall l z, (l ++ [z] = [] \/ (exists d r, l ++ [z] = d :: r /\ d <> 48)) ->
                l = [] \/ exists d r, l = d :: r /\ d <> 48).
      { clear. intros l z [H|[d [r [H Hd]]]]; [destruct l; discriminate|].
        destruct l as [|w l]; auto. right. cbn in H. injection H as -> _. eauto. }
      assert (a = b /\ x = y) as [-> ->]; auto.
      split; [apply IH; eauto|]; lia.
Qed.

Lemma canonical_unique : forall a b, canonical_digits a -> canonical_digits b ->
  dec_value a = dec_value b -> a = b.
Proof.
  intros a b [Fa Ha] [Fb Hb] E.
  destruct Ha as [->|Ha], Hb as [->|Hb]; auto.
  - exfalso. apply digits_zero_or in Hb; auto.
  - exfalso. apply digits_zero_or in Ha; auto.
  - apply digits_unique; auto.
Qed.

Lemma decimal_fun : forall z t u, decimal z t -> decimal z u -> t = u.
Proof.
  intros z t u Ht Hu. inversion Ht; inversion Hu; subst; try lia.
  - apply canonical_unique; auto. lia.
  - f_equal. apply canonical_unique; auto. lia.
Qed.

Lemma glyph_fun : forall b g h, glyph b g -> glyph b h -> g = h.
Proof. intros b g h Hg Hh; inversion Hg; inversion Hh; subst; auto; congruence. Qed.

Scheme literal_mut := Minimality for literal Sort Prop
with items_mut := Minimality for items Sort Prop.

Lemma literal_fun : forall a t u, literal a t -> literal a u -> t = u.
Proof.
  intros a t u H. revert u. revert a t H.
  apply (literal_mut (fun a t => forall u, literal a u -> t = u)
                     (fun a d t => forall u, items a d u -> t = u)).
  - intros u H; inversion H; auto.
  - intros u H; inversion H; auto.
  - intros u H; inversion H; auto.
  - intros c g G u H; inversion H; subst. f_equal. eapply glyph_fun; eauto.
  - intros z t D u H; inversion H; subst. eapply decimal_fun; eauto.
  - intros t s nm D u H; inversion H as [| | | | |? ? ? D'|]; subst.
    apply name16_fun in D, D'. congruence.
  - intros t a d x _ IH u H; inversion H; subst. f_equal. f_equal. apply IH; auto.
  - intros a x _ IH u H; inversion H; subst; auto. congruence.
  - intros t a b d x y _ IH1 _ IH2 u H; inversion H as [|? ? ? ? ? ? L I|? ? ? ? L N P Q]; subst.
    + f_equal; auto. f_equal. auto.
    + exfalso. eapply P; eauto.
  - intros a d x y _ IH1 N P _ IH2 u H; inversion H; subst.
    + congruence.
    + exfalso. eapply P; eauto.
    + f_equal; auto. f_equal. auto.
Qed.

(** ** Buffer safety in both modes *)

Definition safe (r : pstate -> N -> option (pstate * N)) : Prop :=
  forall st idx, idx < IO_BUFFER_LEN ->
  exists st' idx', r st idx = Some (st', idx') /\ idx' < IO_BUFFER_LEN.

Lemma safe_of_appends : forall r t, appends r t -> safe r.
Proof. intros r t H st idx Hi. destruct (H st idx Hi) as [a [b [E [L _]]]]; eauto. Qed.

Lemma safe_then : forall r k, safe r -> safe k -> safe (fun st i => pthen (r st i) k).
Proof.
  intros r k Hr Hk st idx Hi. destruct (Hr st idx Hi) as [s1 [i1 [E1 L1]]].
  rewrite E1. cbn [pthen]. apply Hk; auto.
Qed.

Lemma prin_sym_safe : forall cell inpair, c_value cell -> safe (prin_cell inpair false cell).
Proof.
  induction cell as [| | |c|z|t s|t a IHa d IHd]; intros inpair H.
  - intros st idx Hi. do 2 eexists; split; [reflexivity|reflexivity].
  - eapply safe_of_appends, (appends_write (bs "T")); short.
  - eapply safe_of_appends, (appends_write (bs "_")); short.
  - eapply safe_of_appends, (appends_write [_]); short.
  - eapply safe_of_appends, (appends_write (dec z)).
    cbn [c_value] in H. apply dec_length in H. unfold IO_BUFFER_LEN; lia.
  - eapply safe_of_appends, (appends_write (sym_text s)). cbn [c_value] in H.
    pose proof (cstr_length s). unfold sym_text, IO_BUFFER_LEN; lia.
  - cbn [c_value] in H. destruct H as [Ha Hd].
    assert (Hbody : safe
      (fun st idx => pthen (prin_cell false false a st idx) (fun st nxt =>
        match d with
        | Nil => Some (st, nxt)
        | Pair _ _ _ =>
            pthen (Some (st, nxt)) (fun st nxt => prin_cell true false d st nxt)
        | _ =>
            pthen (Some (st, nxt)) (fun st nxt => prin_cell false false d st nxt)
        end))).
    { apply safe_then; [apply IHa; auto|].
      destruct d as [| | |c|z|t' s|t' b e];
        [eapply safe_of_appends, appends_ret| | | | | |];
        (apply (safe_then (fun st i => Some (st, i)));
         [eapply safe_of_appends, appends_ret|apply IHd; auto]). }
    cbn [prin_cell]. destruct inpair; [exact Hbody|].
    apply (safe_then (fun st i => Some (st, i))); [eapply safe_of_appends, appends_ret|].
    apply (safe_then _ (fun st i => Some (st, i)) Hbody).
    eapply safe_of_appends, appends_ret.
Qed.

Lemma prin_safe : forall written m cell s, c_value cell ->
  exists t, lisp_prin written m cell s = Some t.
Proof.
  intros written m cell s H. destruct s.
  - destruct (prin_literal written m cell H) as [t [_ E]]; eauto.
  - unfold lisp_prin. destruct (prin_sym_safe cell false H (mkp written m) 0)
      as [st [idx [E L]]]; [reflexivity|].
    rewrite E. unfold fwrite. destruct (N.ltb_spec IO_BUFFER_LEN idx); [lia|]. eauto.
Qed.

(** ** Symbolic printing *)

Fixpoint leaf_text (cell : atom) : bytes :=
  match cell with
  | Nil => []
  | Tru => bs "T"
  | Wild => bs "_"
  | Chr c => [byte_of_char c]
  | Num z => dec z
  | Sym _ x => sym_text x
  | Pair _ a d => leaf_text a ++ leaf_text d
  end.

Lemma leaf_text_leaves : forall cell, c_value cell -> leaves cell (leaf_text cell).
Proof.
  induction cell as [| | |c|z|t s|t a IHa d IHd]; intros H; cbn [leaf_text].
  - constructor.
  - constructor.
  - constructor.
  - constructor.
  - constructor. apply dec_decimal.
  - constructor. apply sym_text_name16. apply H.
  - cbn [c_value] in H. constructor; tauto.
Qed.

Lemma prin_leaves : forall cell inpair, c_value cell -> no_nil_element cell -> cell <> Nil ->
  appends (prin_cell inpair false cell) (leaf_text cell).
Proof.
  induction cell as [| | |c|z|t s|t a IHa d IHd]; intros inpair H Hn Hne.
  - congruence.
  - apply (appends_write (bs "T")); short.
  - apply (appends_write (bs "_")); short.
  - apply (appends_write [_]); short.
  - apply (appends_write (dec z)).
    cbn [c_value] in H. apply dec_length in H. unfold IO_BUFFER_LEN; lia.
  - apply (appends_write (sym_text s)). cbn [c_value] in H.
    pose proof (cstr_length s). unfold sym_text, IO_BUFFER_LEN; lia.
  - cbn [c_value no_nil_element] in H, Hn. destruct H as [Ha Hd].
    destruct Hn as [Hx [Hna Hnd]].
    assert (Hbody : appends
      (fun st idx => pthen (prin_cell false false a st idx) (fun st nxt =>
        match d with
        | Nil => Some (st, nxt)
        | Pair _ _ _ =>
            pthen (Some (st, nxt)) (fun st nxt => prin_cell true false d st nxt)
        | _ =>
            pthen (Some (st, nxt)) (fun st nxt => prin_cell false false d st nxt)
        end)) (leaf_text a ++ leaf_text d)).
    { apply appends_then; [apply IHa; auto|].
      destruct d as [| | |c|z|t' s|t' b e];
        [apply appends_ret| | | | | |];
        match goal with |- appends _ ?t => change t with ([] ++ t) end;
        (apply (appends_then (fun st i => Some (st, i)));
         [apply appends_ret|apply IHd; auto; discriminate]). }
    cbn [prin_cell leaf_text]. destruct inpair; [exact Hbody|].
    match goal with |- appends _ ?t => change t with ([] ++ t) end.
    apply (appends_then (fun st i => Some (st, i))); [apply appends_ret|].
    match goal with |- appends _ ?t => rewrite <- (app_nil_r t) end.
    apply (appends_then _ (fun st i => Some (st, i)) _ _ Hbody).
    apply appends_ret.
Qed.

Lemma prin_symbolic_partial : forall written m cell,
  c_value cell -> no_nil_element cell ->
  exists t, leaves cell t /\ lisp_prin written m cell false = Some (written ++ t).
Proof.
  intros written m cell H Hn. exists (leaf_text cell).
  split; [apply leaf_text_leaves; auto|].
  destruct cell as [| | |c|z|t s|t a d];
    try (apply lisp_prin_of_appends, prin_leaves; auto; discriminate).
  cbn. unfold fwrite. cbn. auto.
Qed.

Lemma literal_print : forall written m v, c_value v ->
  exists t, literal v t /\ (forall t', literal v t' -> t' = t) /\
            lisp_prin written m v true = Some (written ++ t).
Proof.
  intros written m v H. destruct (prin_literal written m v H) as [t [L E]].
  exists t. ands; auto. intros t' L'. eapply literal_fun; eauto.
Qed.

Lemma number_buffer : forall z, (- 2 ^ 63 <= z < 2 ^ 63)%Z -> (length (dec z) < 24)%nat.
Proof. intros z H. apply dec_length in H. lia. Qed.

Lemma prin_symbolic_refuted :
  exists v t, c_value v /\ leaves v t /\ lisp_prin [] (fun _ => 0) v false <> Some t.
Proof.
  exists (mk_list [Num 1; Nil; Num 3]), (leaf_text (mk_list [Num 1; Nil; Num 3])).
  assert (C : c_value (mk_list [Num 1; Nil; Num 3])) by (cbn; lia).
  ands; auto using leaf_text_leaves. vm_compute. discriminate.
Qed.
