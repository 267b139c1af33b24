(** * Proofs about the scanner. *)
From Verif Require Import Value ValueSpec PrintSpec Lexer LexerSpec.
Open Scope nat_scope.

Inductive lang : re -> bytes -> Prop :=
| lang_eps : lang Eps []
| lang_cls : forall f c, f c = true -> lang (Cls f) [c]
| lang_left : forall a b s, lang a s -> lang (Alt a b) s
| lang_right : forall a b s, lang b s -> lang (Alt a b) s
| lang_cat : forall a b s t, lang a s -> lang b t -> lang (Cat a b) (s ++ t)
| lang_nil : forall a, lang (Star a) []
| lang_more : forall a s t, lang a s -> lang (Star a) t -> lang (Star a) (s ++ t).

Lemma lang_alt : forall a b s, lang (alt a b) s <-> lang a s \/ lang b s.
Proof.
  intros a b s; unfold alt; split; intro H.
  - destruct a, b; try (right; exact H); try (left; exact H); inversion H; subst; auto.
  - destruct H as [H | H]; destruct a, b; try exact H; try (inversion H; fail);
      try (apply lang_left; exact H); try (apply lang_right; exact H).
Qed.

Lemma lang_cat_iff : forall a b s, lang (Cat a b) s <-> exists u v, s = u ++ v /\ lang a u /\ lang b v.
Proof.
  split; intro H.
  - inversion H; subst; eauto.
  - destruct H as (u & v & -> & H1 & H2); constructor; auto.
Qed.

Lemma cat_cases : forall a b, (cat a b = Empty /\ (a = Empty \/ b = Empty)) \/
  (a = Eps /\ cat a b = b) \/ cat a b = Cat a b.
Proof. intros a b; destruct a, b; cbn; auto. Qed.

Lemma lang_cat' : forall a b s, lang (cat a b) s <-> exists u v, s = u ++ v /\ lang a u /\ lang b v.
Proof.
  intros a b s; destruct (cat_cases a b) as [(E & D) | [(-> & E) | E]]; rewrite E.
  - split; [intro H; inversion H |]; intros (u & v & _ & H1 & H2).
    destruct D; subst; [inversion H1 | inversion H2].
  - split; intro H.
    + exists [], s; repeat split; auto; constructor.
    + destruct H as (u & v & -> & H1 & H2); inversion H1; subst; exact H2.
  - apply lang_cat_iff.
Qed.

Lemma nullable_lang : forall r, nullable r = true <-> lang r [].
Proof.
  induction r as [| | f | a IHa b IHb | a IHa b IHb | a IHa]; cbn; split; intro H;
    try discriminate; try (inversion H; fail); try reflexivity.
  - apply lang_eps.
  - apply orb_true_iff in H; destruct H as [H | H]; [apply lang_left, IHa, H | apply lang_right, IHb, H].
  - apply orb_true_iff; inversion H; subst; [left; apply IHa | right; apply IHb]; auto.
  - apply andb_true_iff in H; destruct H as [H1 H2]; apply IHa in H1; apply IHb in H2.
    apply (lang_cat a b [] []); auto.
  - apply lang_cat_iff in H; destruct H as (u & v & E & H1 & H2).
    symmetry in E; apply app_eq_nil in E; destruct E; subst.
    apply andb_true_iff; split; [apply IHa | apply IHb]; auto.
  - apply lang_nil.
Qed.

Lemma star_head : forall a c s, lang (Star a) (c :: s) ->
  exists u v, s = u ++ v /\ lang a (c :: u) /\ lang (Star a) v.
Proof.
  intros a c s H; remember (Star a) as r eqn:Er; remember (c :: s) as x eqn:Ex.
  revert c s Ex; induction H as [| f x E | x y z H IH | x y z H IH | x y z z' H1 IH1 H2 IH2 | | a' u v H1 _ H2 IH];
    intros c s Ex; try discriminate.
  injection Er as ->; destruct u as [| c' u].
  - cbn in Ex; apply IH; auto.
  - injection Ex as -> <-; exists u, v; auto.
Qed.

Lemma deriv_lang : forall r c s, lang (deriv c r) s <-> lang r (c :: s).
Proof.
  induction r as [| | f | a IHa b IHb | a IHa b IHb | a IHa]; intros c s; cbn [deriv].
  - split; intro H; inversion H.
  - split; intro H; inversion H.
  - destruct (f c) eqn:E; split; intro H.
    + inversion H; subst; constructor; exact E.
    + inversion H; subst; constructor.
    + inversion H.
    + inversion H; subst; congruence.
  - rewrite lang_alt, IHa, IHb; split; intro H.
    + destruct H; [apply lang_left | apply lang_right]; auto.
    + inversion H; subst; auto.
  - assert (K : lang (cat (deriv c a) b) s <-> exists u v, s = u ++ v /\ lang a (c :: u) /\ lang b v).
    { rewrite lang_cat'; split; intros (u & v & E & H1 & H2); exists u, v; ands; auto; apply IHa; auto. }
    assert (L : lang (Cat a b) (c :: s) <->
      (exists u v, s = u ++ v /\ lang a (c :: u) /\ lang b v) \/ (lang a [] /\ lang b (c :: s))).
    { rewrite lang_cat_iff; split.
      - intros (u & v & E & H1 & H2); destruct u as [| c' u].
        + right; cbn in E; subst; auto.
        + injection E as -> ->; left; eauto.
      - intros [(u & v & -> & H1 & H2) | (H1 & H2)]; [exists (c :: u), v | exists [], (c :: s)]; auto. }
    destruct (nullable a) eqn:E.
    + rewrite lang_alt, K, IHb, L; apply nullable_lang in E; tauto.
    + rewrite K, L; split; [tauto |]; intros [H | (H & _)]; [exact H |].
      apply nullable_lang in H; congruence.
  - rewrite lang_cat'; split.
    + intros (u & v & -> & H1 & H2); apply IHa in H1; apply (lang_more a (c :: u) v); auto.
    + intro H; apply star_head in H; destruct H as (u & v & -> & H1 & H2); exists u, v; ands; auto.
      apply IHa; exact H1.
Qed.

(** ** First rule of a list that accepts a text *)
Definition first_in (rs : list (re * kind)) (t : bytes) (k : kind) : Prop :=
  exists l1 r l2, rs = l1 ++ (r, k) :: l2 /\ lang r t /\ forall r' k', In (r', k') l1 -> ~ lang r' t.
Definition some_in (rs : list (re * kind)) (t : bytes) : Prop :=
  exists r k, In (r, k) rs /\ lang r t.

Lemma first_some : forall rs t k, first_in rs t k -> some_in rs t.
Proof.
  intros rs t k (l1 & r & l2 & -> & H & _); exists r, k; split; auto.
  apply in_or_app; right; left; reflexivity.
Qed.

Lemma first_in_cons : forall r k0 rs t k, first_in ((r, k0) :: rs) t k <->
  (lang r t /\ k = k0) \/ (~ lang r t /\ first_in rs t k).
Proof.
  intros r k0 rs t k; split.
  - intros (l1 & r1 & l2 & E & H & N); destruct l1 as [| (r2, k2) l1].
    + injection E as -> -> ->; left; auto.
    + injection E as -> -> ->; right; split; [apply (N r2 k2); left; reflexivity |].
      exists l1, r1, l2; ands; auto; intros r' k' I; apply (N r' k'); right; exact I.
  - intros [(H & ->) | (H & l1 & r1 & l2 & -> & H1 & N)].
    + exists [], r, rs; ands; auto; intros r' k' [].
    + exists ((r, k0) :: l1), r1, l2; ands; auto; intros r' k' [E | I]; [injection E as <- <-; auto | eauto].
Qed.

Lemma accepts_first : forall rs k, accepts rs = Some k <-> first_in rs [] k.
Proof.
  unfold accepts; induction rs as [| (r, k0) rs IH]; intro k.
  - cbn; split; [discriminate |]; intros (l1 & r & l2 & E & _); destruct l1; discriminate.
  - rewrite first_in_cons; cbn; destruct (nullable r) eqn:E; cbn.
    + apply nullable_lang in E; split.
      * intro H; injection H as ->; auto.
      * intros [(_ & ->) | (H & _)]; [reflexivity | contradiction].
    + assert (N : ~ lang r []) by (intro H; apply nullable_lang in H; congruence).
      rewrite IH; split; [auto |]; intros [(H & _) | (_ & H)]; [contradiction | exact H].
Qed.

Lemma accepts_none : forall rs, accepts rs = None <-> ~ some_in rs [].
Proof.
  unfold accepts; intro rs; split.
  - intros H (r & k & I & L); destruct (find (fun r => nullable (fst r)) rs) eqn:E; [discriminate |].
    apply (find_none _ _ E) in I; cbn in I; apply nullable_lang in L; congruence.
  - intro H; destruct (find (fun r => nullable (fst r)) rs) as [(r, k) |] eqn:E; [| reflexivity].
    apply find_some in E; destruct E as (I & L); exfalso; apply H; exists r, k; split; auto.
    apply nullable_lang; exact L.
Qed.

Lemma empty_lang : forall r s, is_empty r = true -> ~ lang r s.
Proof. intros r s E H; destruct r; try discriminate; inversion H. Qed.

Lemma first_advance : forall c rs t k, first_in (advance c rs) t k <-> first_in rs (c :: t) k.
Proof.
  unfold advance; intros c; induction rs as [| (r, k0) rs IH]; intros t k; cbn [map filter fst snd].
  - split; intros (l1 & r & l2 & E & _); destruct l1; discriminate.
  - rewrite (first_in_cons r); rewrite <- IH, <- (deriv_lang r).
    destruct (is_empty (deriv c r)) eqn:E; cbn [negb].
    + apply empty_lang with (s := t) in E; tauto.
    + rewrite first_in_cons; tauto.
Qed.

Lemma some_advance : forall c rs t, some_in (advance c rs) t <-> some_in rs (c :: t).
Proof.
  unfold advance; intros c rs t; split.
  - intros (r & k & I & L); apply filter_In in I; destruct I as (I & _).
    apply in_map_iff in I; destruct I as ((r0, k0) & E & I); cbn in E; injection E as <- <-.
    exists r0, k0; split; auto; apply deriv_lang; exact L.
  - intros (r & k & I & L); exists (deriv c r), k; apply deriv_lang in L; split; auto.
    apply filter_In; split; [apply in_map_iff; exists (r, k); auto |].
    cbn; destruct (is_empty (deriv c r)) eqn:E; auto; exfalso; eapply empty_lang; eauto.
Qed.

(** ** The scanning loop *)
Definition none_in (rs : list (re * kind)) (s : bytes) : Prop :=
  forall t r, s = t ++ r -> ~ some_in rs t.

Lemma none_cons : forall c rs s, none_in (advance c rs) s -> ~ some_in rs [] -> none_in rs (c :: s).
Proof.
  intros c rs s H N t r E S; destruct t as [| c' t]; [contradiction |].
  injection E as <- ->; apply (H t r eq_refl); apply some_advance; exact S.
Qed.

Lemma scan_spec : forall s rs n best,
  match scan rs s n best with
  | Taken k m =>
      (exists t r, s = t ++ r /\ m = n + length t /\ first_in rs t k /\
         forall t' r', s = t' ++ r' -> some_in rs t' -> length t' <= length t) \/
      (best = Some (k, m) /\ none_in rs s)
  | Wait => best = None /\ none_in rs s
  | Purge => best = None /\ none_in rs s
  end.
Proof.
  induction s as [| c s IH]; intros rs n best; cbn [scan].
  - assert (Nn : ~ some_in rs [] -> none_in rs []).
    { intros N t r E; symmetry in E; apply app_eq_nil in E; destruct E as (-> & ->); exact N. }
    destruct (accepts rs) as [k |] eqn:A.
    + cbn [best_of]; left; exists [], []; ands; auto; [apply accepts_first; exact A |].
      intros t' r' E _; symmetry in E; apply app_eq_nil in E; destruct E as (-> & _); auto.
    + apply accepts_none in A; destruct best as [(k, m) |]; cbn [best_of]; [right; auto |].
      destruct (in_string rs); auto.
  - assert (Last : advance c rs = [] -> forall t' r', c :: s = t' ++ r' -> some_in rs t' -> t' = []).
    { intros E t' r' E' S; destruct t' as [| c' t']; [reflexivity |].
      injection E' as <- ->; apply some_advance in S; rewrite E in S; destruct S as (r & k & [] & _). }
    assert (Go : forall rs', advance c rs = rs' -> rs' <> [] ->
      match scan rs' s (S n) (match accepts rs with Some k => Some (k, n) | None => best end) with
      | Taken k m =>
          (exists t r, c :: s = t ++ r /\ m = n + length t /\ first_in rs t k /\
             forall t' r', c :: s = t' ++ r' -> some_in rs t' -> length t' <= length t) \/
          (best = Some (k, m) /\ none_in rs (c :: s))
      | Wait => best = None /\ none_in rs (c :: s)
      | Purge => best = None /\ none_in rs (c :: s)
      end).
    { intros rs' Er _.
      specialize (IH rs' (S n) (match accepts rs with Some k => Some (k, n) | None => best end)).
      destruct (scan rs' s (S n) _) as [k m | |].
      - destruct IH as [(t & r & E & Em & F & L) | (E & N)].
        + left; exists (c :: t), r; cbn [length app]; ands.
          * rewrite E; reflexivity.
          * lia.
          * subst rs'; apply first_advance; exact F.
          * intros t' r' E' S; destruct t' as [| c' t']; cbn [length]; [lia |].
            injection E' as <- E'; apply some_advance in S; rewrite Er in S.
            specialize (L t' r' E' S); lia.
        + destruct (accepts rs) as [k0 |] eqn:A.
          * injection E as -> ->; left; exists [], (c :: s); cbn; ands; auto; [apply accepts_first; exact A |].
            intros t' r' E' S; destruct t' as [| c' t']; cbn [length]; [lia |]; exfalso.
            injection E' as <- E'; apply some_advance in S; rewrite Er in S; exact (N t' r' E' S).
          * apply accepts_none in A; right; split; auto; apply none_cons; auto; rewrite Er; exact N.
      - destruct IH as (E & N); destruct (accepts rs) eqn:A; [discriminate |].
        apply accepts_none in A; split; auto; apply none_cons; auto; rewrite Er; exact N.
      - destruct IH as (E & N); destruct (accepts rs) eqn:A; [discriminate |].
        apply accepts_none in A; split; auto; apply none_cons; auto; rewrite Er; exact N. }
    destruct (advance c rs) as [| x rs'] eqn:Er.
    + destruct (accepts rs) as [k |] eqn:A.
      * cbn [best_of]; left; exists [], (c :: s); cbn; ands; auto; [apply accepts_first; exact A |].
        intros t' r' E' S; rewrite (Last eq_refl t' r' E' S); cbn; lia.
      * apply accepts_none in A.
        assert (N : none_in rs (c :: s)).
        { intros t' r' E' S; rewrite (Last eq_refl t' r' E' S) in S; contradiction. }
        destruct best as [(k, m) |]; cbn [best_of]; auto.
    + apply Go; [reflexivity | discriminate].
Qed.

(** ** The patterns of lexer.rl *)
Lemma lang_cls_iff : forall f s, lang (Cls f) s <-> exists c, s = [c] /\ f c = true.
Proof.
  split; intro H; [inversion H; subst; eauto |]; destruct H as (c & -> & H); constructor; exact H.
Qed.
Lemma one_true : forall a c, one a c = true <-> c = a.
Proof. unfold one; intros; rewrite N.eqb_eq; split; auto. Qed.
Lemma one_false : forall a c, negb (one a c) = true <-> c <> a.
Proof. intros a c; rewrite negb_true_iff; rewrite <- not_true_iff_false, one_true; tauto. Qed.
Lemma between_true : forall a b c, between a b c = true <-> (a <= c <= b)%N.
Proof. unfold between; intros; rewrite andb_true_iff, !N.leb_le; tauto. Qed.

Lemma lang_text : forall t s, lang (text t) s <-> s = t.
Proof.
  induction t as [| c t IH]; intro s; cbn [text].
  - split; intro H; [inversion H; reflexivity | subst; constructor].
  - rewrite lang_cat_iff; split.
    + intros (u & v & -> & H1 & H2); apply lang_cls_iff in H1; destruct H1 as (c' & -> & E).
      apply one_true in E; apply IH in H2; subst; reflexivity.
    + intros ->; exists [c], t; ands; auto; [| apply IH; reflexivity].
      constructor; apply one_true; reflexivity.
Qed.

Lemma lang_alt_iff : forall a b s, lang (Alt a b) s <-> lang a s \/ lang b s.
Proof.
  split; intro H; [inversion H; subst; auto | destruct H; [apply lang_left | apply lang_right]; auto].
Qed.

Lemma lang_cons : forall f r s, lang (Cat (Cls f) r) s <-> exists c t, s = c :: t /\ f c = true /\ lang r t.
Proof.
  intros f r s; rewrite lang_cat_iff; split.
  - intros (u & v & -> & H1 & H2); apply lang_cls_iff in H1; destruct H1 as (c & -> & E).
    exists c, v; auto.
  - intros (c & t & -> & E & H); exists [c], t; ands; auto; constructor; exact E.
Qed.

Lemma lang_star_cls : forall f s, lang (Star (Cls f)) s <-> Forall (fun c => f c = true) s.
Proof.
  intros f; induction s as [| c s IH]; split; intro H; auto.
  - constructor.
  - apply star_head in H; destruct H as (u & v & -> & H1 & H2).
    apply lang_cls_iff in H1; destruct H1 as (c' & E & F); injection E as <- ->.
    constructor; auto; apply IH; exact H2.
  - inversion H; subst; apply (lang_more _ [c] s); [constructor; auto | apply IH; auto].
Qed.

Lemma lang_up_to : forall f n s, lang (up_to n (Cls f)) s <-> Forall (fun c => f c = true) s /\ length s <= n.
Proof.
  intros f; induction n as [| n IH]; intro s; cbn [up_to].
  - split; intro H; [inversion H; subst; auto |]; destruct H as (_ & H).
    destruct s; [constructor | cbn in H; lia].
  - unfold opt_re; rewrite lang_alt_iff, lang_cons; split.
    + intros [H | (c & t & -> & F & H)].
      * inversion H; subst; cbn; split; auto; lia.
      * apply IH in H; destruct H; cbn; split; [constructor; auto | lia].
    + intros (H & L); destruct s as [| c s]; [left; constructor |].
      inversion H; subst; right; exists c, s; ands; auto; apply IH; split; auto; cbn in L; lia.
Qed.

Lemma digit_spec : forall c, digit c = true <-> is_digit c.
Proof. intro c; apply between_true. Qed.
Lemma alpha_spec : forall c, alpha c = true <-> Letter c.
Proof. intro c; unfold alpha, Letter; rewrite orb_true_iff, !between_true; tauto. Qed.
Lemma marks_spec : forall c, marks c = true <-> Mark c.
Proof.
  intro c; unfold marks, among, Mark; rewrite existsb_exists; split.
  - intros (x & I & E); apply N.eqb_eq in E; subst; exact I.
  - intro I; exists c; split; auto; apply N.eqb_refl.
Qed.
Lemma alnum_marks : forall c, (alnum c || marks c) = true <-> Letter c \/ is_digit c \/ Mark c.
Proof. intro c; unfold alnum; rewrite !orb_true_iff, alpha_spec, digit_spec, marks_spec; tauto. Qed.

Lemma Forall_iff : forall (P Q : byte -> Prop) l, (forall c, P c <-> Q c) -> Forall P l <-> Forall Q l.
Proof. intros P Q l H; split; apply Forall_impl; intro c; apply H. Qed.

Lemma lang_number : forall s, lang number_re s <-> number_text s.
Proof.
  intro s; unfold number_re; rewrite lang_cat_iff; split.
  - intros (u & v & -> & H1 & H2); unfold opt_re in H1; apply lang_alt_iff in H1.
    apply lang_cons in H2; destruct H2 as (c & t & -> & D & H2); apply lang_star_cls in H2.
    assert (F : Forall is_digit (c :: t)).
    { constructor; [apply digit_spec; exact D |]; revert H2; apply Forall_impl; apply digit_spec. }
    destruct H1 as [H1 | H1].
    + inversion H1; subst; cbn [app]; apply number_plain; [discriminate | exact F].
    + apply (lang_text [45%N]) in H1; subst; cbn [app]; apply number_minus; [discriminate | exact F].
  - assert (K : forall t, t <> [] -> Forall is_digit t -> lang (Cat (Cls digit) (Star (Cls digit))) t).
    { intros t N F; destruct t as [| c t]; [contradiction |]; inversion F; subst.
      apply lang_cons; exists c, t; ands; auto; [apply digit_spec; auto |].
      apply lang_star_cls; revert H2; apply Forall_impl; apply digit_spec. }
    intro H; destruct H as [t N F | t N F].
    + exists [], t; ands; auto; apply lang_left; constructor.
    + exists [45%N], t; ands; auto; apply lang_right; apply lang_text; reflexivity.
Qed.

Lemma lang_symbol : forall s, lang symbol_re s <-> symbol_text s.
Proof.
  intro s; unfold symbol_re; rewrite lang_cons; split.
  - intros (c & t & -> & H1 & H2); apply lang_up_to in H2; destruct H2 as (F & L).
    constructor; auto.
    + rewrite orb_true_iff, alpha_spec, marks_spec in H1; exact H1.
    + revert F; apply Forall_impl; intro d; apply alnum_marks.
  - intro H; destruct H as [c t H F L]; exists c, t; ands; auto.
    + rewrite orb_true_iff, alpha_spec, marks_spec; exact H.
    + apply lang_up_to; split; auto; revert F; apply Forall_impl; intro d; apply alnum_marks.
Qed.

Lemma lang_body : forall s, lang (Star (Alt (Cls (fun c => negb (one 34%N c))) (text [92%N; 34%N]))) s <->
  string_body s.
Proof.
  set (r := Alt (Cls (fun c => negb (one 34%N c))) (text [92%N; 34%N])).
  assert (A : forall s, string_body s -> lang (Star r) s).
  { intros s H; induction H as [| c s N _ IH | s _ IH].
    - constructor.
    - apply (lang_more r [c] s); auto; apply lang_left; constructor; apply one_false; exact N.
    - apply (lang_more r [92%N; 34%N] s); auto; apply lang_right; apply lang_text; reflexivity. }
  assert (B : forall n s, length s <= n -> lang (Star r) s -> string_body s).
  { induction n as [| n IH]; intros s L H.
    - destruct s; [constructor | cbn in L; lia].
    - destruct s as [| c s]; [constructor |]; apply star_head in H; destruct H as (u & v & -> & H1 & H2).
      apply lang_alt_iff in H1; destruct H1 as [H1 | H1].
      + apply lang_cls_iff in H1; destruct H1 as (c' & E & F); injection E as <- ->.
        apply one_false in F; cbn [app length] in *; apply body_char; auto; apply IH; auto; lia.
      + apply lang_text in H1; injection H1 as -> ->; cbn [app length] in *; apply body_quote; apply IH; auto; lia. }
  intro s; split; [apply (B (length s)); auto | apply A].
Qed.

Lemma lang_string : forall s, lang string_re s <-> exists t, s = 34%N :: t ++ [34%N] /\ string_body t.
Proof.
  intro s; unfold string_re; rewrite lang_cons; split.
  - intros (c & t & -> & H1 & H2); apply one_true in H1; apply lang_cat_iff in H2.
    destruct H2 as (u & v & -> & H2 & H3); apply lang_body in H2.
    apply lang_cls_iff in H3; destruct H3 as (c' & -> & E); apply one_true in E; subst; eauto.
  - intros (t & -> & H); exists 34%N, (t ++ [34%N]); ands; auto; apply lang_cat_iff.
    exists t, [34%N]; ands; auto; [apply lang_body; exact H |]; constructor; reflexivity.
Qed.

Lemma lang_char : forall s, lang char_re s <-> is_token KChar s.
Proof.
  intro s; unfold char_re; rewrite lang_cat_iff; split.
  - intros (u & v & -> & H1 & H2); apply (lang_text [94%N]) in H1; subst u; cbn [app].
    rewrite !lang_alt_iff, lang_cls_iff, !lang_text in H2.
    destruct H2 as [(c & -> & H) | [-> | [-> | [-> | [-> | ->]]]]];
      try (apply tok_escape; cbn; auto 10; fail).
    apply andb_true_iff in H; destruct H as (H1 & H2); apply one_false in H2; apply between_true in H1.
    apply tok_char; auto.
  - intro H; inversion H as [| | | | c P N | c I | | | | | | | | | |]; subst.
    + exists [94%N], [c]; ands; auto; [apply lang_text; reflexivity |]; apply lang_left; constructor.
      apply andb_true_iff; split; [apply between_true; exact P | apply one_false; exact N].
    + exists [94%N], [92%N; c]; ands; auto; [apply lang_text; reflexivity |].
      rewrite !lang_alt_iff, !lang_text; right.
      destruct I as [<- | [<- | [<- | [<- | [<- | []]]]]]; cbn; tauto.
Qed.

Lemma lang_comment : forall s, lang comment_re s <-> is_token KComment s.
Proof.
  intro s; unfold comment_re; rewrite lang_cat_iff; split.
  - intros (u & v & -> & H1 & H2); apply (lang_text [35%N]) in H1; subst u; cbn [app].
    apply lang_star_cls in H2; apply tok_comment; intro I; rewrite Forall_forall in H2.
    specialize (H2 _ I); discriminate.
  - intro H; inversion H as [| | | | | | | | | | | | | | t N |]; subst.
    exists [35%N], t; ands; auto; [apply lang_text; reflexivity |]; apply lang_star_cls.
    apply Forall_forall; intros c I; apply one_false; intros ->; auto.
Qed.

Lemma lang_prefixed : forall p r s, lang (prefixed p r) s <-> exists t, s = prefix_byte p :: t /\ lang r t.
Proof.
  intros p r s; unfold prefixed; rewrite lang_cons; split.
  - intros (c & t & -> & H1 & H2); apply one_true in H1; subst; eauto.
  - intros (t & -> & H); exists (prefix_byte p), t; ands; auto; apply one_true; reflexivity.
Qed.

Ltac tok_cases H := inversion H; subst.

Definition rule_ok (r : re * kind) : Prop := forall s, lang (fst r) s <-> is_token (snd r) s.
Lemma rules_ok : Forall rule_ok rules.
Proof.
  unfold rules.
  assert (Fixed : forall k t, is_token k t -> (forall s, is_token k s -> s = t) -> rule_ok (text t, k)).
  { intros k t H U s; cbn [fst snd]; rewrite lang_text; split; [intros ->; exact H | apply U]. }
  assert (PO : forall p, rule_ok (prefixed p popen_re, KPOpen p)).
  { intros p s; cbn [fst snd]; rewrite lang_prefixed; split.
    - intros (t & -> & H); apply lang_text in H; subst; constructor.
    - intro H; tok_cases H; exists (bs "("); split; auto; apply lang_text; reflexivity. }
  assert (PS : forall p, rule_ok (prefixed p symbol_re, KPSymbol p)).
  { intros p s; cbn [fst snd]; rewrite lang_prefixed; split.
    - intros (t & -> & H); apply lang_symbol in H; constructor; exact H.
    - intro H; tok_cases H; eexists; split; eauto; apply lang_symbol; auto. }
  assert (PN : forall p, rule_ok (prefixed p number_re, KPNumber p)).
  { intros p s; cbn [fst snd]; rewrite lang_prefixed; split.
    - intros (t & -> & H); apply lang_number in H; constructor; exact H.
    - intro H; tok_cases H; eexists; split; eauto; apply lang_number; auto. }
  assert (S : rule_ok (Cls space, KSpace)).
  { intro s; cbn [fst snd]; rewrite lang_cls_iff; split.
    - intros (c & -> & H); constructor; unfold space in H; rewrite orb_true_iff, between_true, one_true in H.
      exact H.
    - intro H; tok_cases H; eexists; split; eauto; unfold space; rewrite orb_true_iff, between_true, one_true.
      assumption. }
  assert (N : rule_ok (number_re, KNumber)).
  { intro s; cbn [fst snd]; rewrite lang_number; split; intro H; [constructor; exact H | tok_cases H; auto]. }
  assert (Y : rule_ok (symbol_re, KSymbol)).
  { intro s; cbn [fst snd]; rewrite lang_symbol; split; intro H; [constructor; exact H | tok_cases H; auto]. }
  assert (Q : rule_ok (string_re, KString)).
  { intro s; cbn [fst snd]; rewrite lang_string; split.
    - intros (t & -> & H); constructor; exact H.
    - intro H; tok_cases H; eauto. }
  repeat (apply Forall_cons); auto; try (apply Fixed; [constructor | intros s H; tok_cases H; reflexivity]).
  - exact lang_char.
  - exact lang_comment.
Qed.

(** ** Precedence *)
Definition kinds : list kind := map snd rules.

Definition p_eqb (a b : prefix) : bool :=
  match a, b with Quote, Quote | Backtick, Backtick | Tilde, Tilde => true | _, _ => false end.
Definition lead_ok (k : kind) (c : byte) : bool :=
  (match k with
  | KOpen => one 40 c | KClose => one 41 c | KDot => one 46 c
  | KNumber => digit c || one 45 c
  | KChar => one 94 c | KString => one 34 c
  | KNil => one 78 c | KTrue => one 84 c | KWild => one 95 c
  | KSymbol => alpha c || marks c
  | KPOpen p | KPSymbol p | KPNumber p => one (prefix_byte p) c
  | KComment => one 35 c
  | KSpace => space c
  end)%N.
Definition kind_eqb (a b : kind) : bool :=
  match a, b with
  | KOpen, KOpen | KClose, KClose | KDot, KDot | KNumber, KNumber | KChar, KChar | KString, KString
  | KNil, KNil | KTrue, KTrue | KWild, KWild | KSymbol, KSymbol | KComment, KComment
  | KSpace, KSpace => true
  | KPOpen p, KPOpen q | KPSymbol p, KPSymbol q | KPNumber p, KPNumber q => p_eqb p q
  | _, _ => false
  end.
Definition same_lead (a b : kind) : bool :=
  kind_eqb a b ||
  match a, b with
  | KDot, KSymbol | KNumber, KSymbol | KNil, KSymbol | KTrue, KSymbol | KWild, KSymbol => true
  | KSymbol, KDot | KSymbol, KNumber | KSymbol, KNil | KSymbol, KTrue | KSymbol, KWild => true
  | KPOpen p, KPSymbol q | KPOpen p, KPNumber q | KPSymbol p, KPNumber q
  | KPSymbol p, KPOpen q | KPNumber p, KPOpen q | KPNumber p, KPSymbol q => p_eqb p q
  | _, _ => false
  end.

Lemma kind_eqb_eq : forall a b, kind_eqb a b = true -> a = b.
Proof.
  intros a b H; destruct a, b; try discriminate; try reflexivity; destruct p, p0; try discriminate; reflexivity.
Qed.

Lemma lead : forall k t, is_token k t -> exists c r, t = c :: r /\ lead_ok k c = true /\ (c < 128)%N.
Proof.
  assert (Dig : forall c, is_digit c -> digit c = true /\ (c < 128)%N).
  { intros c H; split; [apply digit_spec; exact H | unfold is_digit in H; lia]. }
  intros k t H; destruct H as [| | | s H | c P N | c I | s H | | | | s H | p | p s H | p s H | s N | c B];
    try (eexists; eexists; ands; [reflexivity | reflexivity | reflexivity]; fail);
    try (eexists; eexists; ands; [reflexivity | apply one_true; reflexivity | destruct p; reflexivity]; fail).
  - destruct H as [s N F | s N F].
    + destruct s as [| c s]; [contradiction |]; inversion F; subst; exists c, s; ands; auto.
      * cbn; apply orb_true_iff; left; apply Dig; auto.
      * apply Dig; auto.
    + exists 45%N, s; ands; reflexivity.
  - destruct H as [c s H _ _]; exists c, s; ands; auto.
    + cbn [lead_ok]; rewrite orb_true_iff, alpha_spec, marks_spec; exact H.
    + destruct H as [H | H]; [unfold Letter in H; lia |].
      unfold Mark in H; cbn in H; repeat (destruct H as [<- | H]; [reflexivity |]); destruct H.
  - exists c, []; ands; auto.
    + cbn; unfold space; rewrite orb_true_iff, between_true, one_true; exact B.
    + unfold Blank in B; lia.
Qed.

Definition all_leads : bool :=
  forallb (fun c => forallb (fun k => forallb (fun k' =>
    implb (lead_ok k c && lead_ok k' c) (same_lead k k')) kinds) kinds)
    (map N.of_nat (seq 0 128)).
Lemma all_leads_ok : all_leads = true.
Proof. vm_compute; reflexivity. Qed.

Lemma all_kinds : forall k, In k kinds.
Proof. intro k; destruct k; try (cbn; tauto); destruct p; cbn; tauto. Qed.

Lemma leads_meet : forall k k' c, (c < 128)%N -> lead_ok k c = true -> lead_ok k' c = true ->
  same_lead k k' = true.
Proof.
  intros k k' c L H H'; pose proof all_leads_ok as A; unfold all_leads in A.
  rewrite forallb_forall in A; assert (I : In c (map N.of_nat (seq 0 128))).
  { apply in_map_iff; exists (N.to_nat c); split; [apply N2Nat.id |]; apply in_seq; lia. }
  specialize (A c I); rewrite forallb_forall in A; specialize (A k (all_kinds k)).
  rewrite forallb_forall in A; specialize (A k' (all_kinds k')).
  rewrite H, H' in A; exact A.
Qed.

Lemma no_open_symbol : forall s, ~ symbol_text (40%N :: s).
Proof.
  intros s H; inversion H as [c t K _ _]; subst; destruct K as [K | K].
  - unfold Letter in K; lia.
  - apply marks_spec in K; discriminate.
Qed.
Lemma no_open_number : forall s, ~ number_text (40%N :: s).
Proof.
  intros s H; inversion H as [t N F |]; subst; inversion F as [| x y D]; subst; unfold is_digit in D; lia.
Qed.

Lemma two_kinds : forall k k' t, is_token k t -> is_token k' t ->
  k = k' \/ outranks k k' \/ outranks k' k.
Proof.
  intros k k' t H H'; destruct (lead k t H) as (c & r & -> & L & B).
  destruct (lead k' _ H') as (c' & r' & E & L' & _); injection E as <- <-.
  pose proof (leads_meet k k' c B L L') as M; unfold same_lead in M.
  apply orb_true_iff in M; destruct M as [M | M]; [left; apply kind_eqb_eq; exact M |].
  assert (Pq : forall p q, p_eqb p q = true -> p = q) by (intros p q E; destruct p, q; try discriminate; auto).
  destruct k, k'; try discriminate M;
    try (right; left; apply over_symbol; cbn; tauto);
    try (right; right; apply over_symbol; cbn; tauto);
    apply Pq in M; subst;
    try (right; left; apply over_number; fail); try (right; right; apply over_number; fail).
  all: exfalso; inversion H; subst; inversion H'; subst;
    match goal with
    | K : symbol_text _ |- _ => apply no_open_symbol in K; exact K
    | K : number_text _ |- _ => apply no_open_number in K; exact K
    end.
Qed.

Fixpoint pos (k : kind) (l : list kind) : nat :=
  match l with [] => 0 | x :: r => if kind_eqb x k then 0 else S (pos k r) end.

Lemma kind_eqb_refl : forall k, kind_eqb k k = true.
Proof. destruct k; try reflexivity; destruct p; reflexivity. Qed.

Lemma outranks_pos : forall k k', outranks k k' -> pos k kinds < pos k' kinds.
Proof.
  intros k k' H; destruct H as [k I | p].
  - destruct I as [<- | [<- | [<- | [<- | [<- | []]]]]]; vm_compute; lia.
  - destruct p; vm_compute; lia.
Qed.

Lemma pos_at : forall l1 k l2, ~ In k l1 -> pos k (l1 ++ k :: l2) = length l1.
Proof.
  induction l1 as [| x l1 IH]; intros k l2 N; cbn.
  - rewrite kind_eqb_refl; reflexivity.
  - destruct (kind_eqb x k) eqn:E; [apply kind_eqb_eq in E; subst; exfalso; apply N; left; reflexivity |].
    f_equal; apply IH; intro I; apply N; right; exact I.
Qed.
Lemma pos_within : forall l1 k l2, pos k (l1 ++ l2) < length l1 -> In k l1.
Proof.
  induction l1 as [| x l1 IH]; intros k l2 H; cbn in H; [lia |].
  destruct (kind_eqb x k) eqn:E; [apply kind_eqb_eq in E; left; exact E |].
  right; apply (IH k l2); lia.
Qed.

Lemma kinds_nodup : NoDup kinds.
Proof.
  vm_compute; repeat (constructor; [intro I; repeat (destruct I as [I | I]; [discriminate I |]); destruct I |]).
  constructor.
Qed.

Lemma rule_of : forall r k, In (r, k) rules -> forall s, lang r s <-> is_token k s.
Proof. intros r k I; pose proof rules_ok as R; rewrite Forall_forall in R; exact (R _ I). Qed.
Lemma some_token : forall t, some_in rules t <-> exists k, is_token k t.
Proof.
  intro t; split.
  - intros (r & k & I & L); exists k; apply (rule_of r k I); exact L.
  - intros (k & H); pose proof (all_kinds k) as I; unfold kinds in I; apply in_map_iff in I.
    destruct I as ((r, k0) & E & I); cbn in E; subst k0; exists r, k; split; auto.
    apply (rule_of r k I); exact H.
Qed.

Lemma first_wins : forall t k, first_in rules t k -> wins k t.
Proof.
  intros t k (l1 & r & l2 & E & L & N).
  assert (T : is_token k t).
  { apply (rule_of r k); auto; rewrite E; apply in_or_app; right; left; reflexivity. }
  split; [exact T |]; intros k' T'.
  destruct (two_kinds k k' t T T') as [-> | [O | O]]; auto; exfalso.
  apply outranks_pos in O; unfold kinds in O; rewrite E, map_app in O; cbn [map snd] in O.
  pose proof kinds_nodup as D; unfold kinds in D; rewrite E, map_app in D; cbn [map snd] in D.
  assert (Nk : ~ In k (map snd l1)).
  { apply NoDup_remove_2 in D; intro I; apply D; apply in_or_app; left; exact I. }
  rewrite (pos_at _ _ _ Nk) in O.
  assert (I' : In k' (map snd l1)) by (apply (pos_within _ _ _ O)).
  apply in_map_iff in I'; destruct I' as ((r', k0) & E' & I'); cbn in E'; subst k0.
  apply (N r' k' I'); apply (rule_of r' k'); auto; rewrite E; apply in_or_app; left; exact I'.
Qed.

Fixpoint derivs (s : bytes) (r : re) : re := match s with [] => r | c :: t => derivs t (deriv c r) end.
Lemma derivs_lang : forall s r t, lang (derivs s r) t <-> lang r (s ++ t).
Proof.
  induction s as [| c s IH]; intros r t; cbn [derivs app]; [tauto |].
  rewrite IH; apply deriv_lang.
Qed.
Lemma lang_dec : forall r s, lang r s \/ ~ lang r s.
Proof.
  intros r s; destruct (nullable (derivs s r)) eqn:E.
  - left; apply nullable_lang, derivs_lang in E; rewrite app_nil_r in E; exact E.
  - right; intro H; rewrite <- (app_nil_r s) in H; apply derivs_lang, nullable_lang in H; congruence.
Qed.
Lemma some_first : forall rs t, some_in rs t -> exists k, first_in rs t k.
Proof.
  induction rs as [| (r, k) rs IH]; intros t (r1 & k1 & I & L); [destruct I |].
  destruct (lang_dec r t) as [H | H].
  - exists k; apply first_in_cons; auto.
  - destruct I as [E | I]; [injection E as -> ->; contradiction |].
    destruct (IH t (ex_intro _ r1 (ex_intro _ k1 (conj I L)))) as (k2 & F).
    exists k2; apply first_in_cons; auto.
Qed.

Lemma outranks_asym : forall k k', outranks k k' -> outranks k' k -> False.
Proof. intros k k' A B; apply outranks_pos in A; apply outranks_pos in B; lia. Qed.

Lemma wins_unique : forall k k' t, wins k t -> wins k' t -> k = k'.
Proof.
  intros k k' t (H & U) (H' & U').
  destruct (U k' H') as [-> | O]; [reflexivity |]; destruct (U' k H) as [-> | O']; [reflexivity |].
  exfalso; eapply outranks_asym; eauto.
Qed.

Lemma token_nonempty : forall k t, is_token k t -> t <> [].
Proof. intros k t H; destruct (lead k t H) as (c & r & -> & _); discriminate. Qed.

Lemma none_token : forall s, none_in rules s <-> no_token s.
Proof.
  intro s; split.
  - intros H k t r E T; apply (H t r E); apply some_token; eauto.
  - intros H t r E S; apply some_token in S; destruct S as (k & T); exact (H k t r E T).
Qed.

Lemma longest_unique : forall s k t r k' t' r', longest s k t r -> longest s k' t' r' ->
  k = k' /\ t = t' /\ r = r'.
Proof.
  intros s k t r k' t' r' (E & W & M) (E' & W' & M').
  assert (L : length t = length t').
  { apply Nat.le_antisymm; [apply (M' k t r E); apply W | apply (M k' t' r' E'); apply W']. }
  assert (A : t = t' /\ r = r').
  { rewrite E in E'; clear - E' L; revert t' L E'; induction t as [| c t IH]; intros [| c' t'] L E;
      try discriminate; [auto |]; injection E as -> E; injection L as L; destruct (IH t' L E); subst; auto. }
  destruct A as (-> & ->); ands; auto; eapply wins_unique; eauto.
Qed.

Lemma scan_token_spec : forall s,
  match scan_token s with
  | Taken k n => exists t r, longest s k t r /\ n = length t
  | Wait => no_token s
  | Purge => no_token s
  end.
Proof.
  intro s; unfold scan_token; pose proof (scan_spec s rules 0 None) as H.
  destruct (scan rules s 0 None) as [k n | |].
  - destruct H as [(t & r & E & En & F & M) | (E & _)]; [| discriminate].
    exists t, r; split; [| exact En]; unfold longest; ands; auto; [apply first_wins; exact F |].
    intros k' t' r' E' T; apply (M t' r' E'); apply some_token; eauto.
  - apply none_token; apply H.
  - apply none_token; apply H.
Qed.

(** [Wait] is for an unfinished string. *)
Lemma in_string_rule : forall rs, in_string rs = true <-> exists r, In (r, KString) rs.
Proof.
  intro rs; unfold in_string; rewrite existsb_exists; split.
  - intros ((r, k) & I & E); cbn in E; destruct k; try discriminate; eauto.
  - intros (r & I); exists (r, KString); auto.
Qed.
Lemma string_advance : forall c rs r, In (r, KString) (advance c rs) ->
  exists r0, In (r0, KString) rs /\ r = deriv c r0 /\ r <> Empty.
Proof.
  unfold advance; intros c rs r I; apply filter_In in I; destruct I as (I & E).
  apply in_map_iff in I; destruct I as ((r0, k0) & E0 & I); cbn in E0; injection E0 as <- ->.
  exists r0; ands; auto; intros Z; cbn in E; rewrite Z in E; discriminate.
Qed.
Lemma scan_wait : forall s rs n best, scan rs s n best = Wait -> in_string rs = true.
Proof.
  induction s as [| c s IH]; intros rs n best H; cbn [scan] in H.
  - destruct (match accepts rs with Some k => Some (k, n) | None => best end) as [(k, m) |]; [discriminate |].
    cbn in H; destruct (in_string rs); [reflexivity | discriminate].
  - destruct (advance c rs) as [| x rs'] eqn:E.
    + destruct (match accepts rs with Some k => Some (k, n) | None => best end) as [(k, m) |]; discriminate.
    + apply IH in H; rewrite <- E in H; apply in_string_rule in H; destruct H as (r & I).
      apply string_advance in I; destruct I as (r0 & I & _); apply in_string_rule; eauto.
Qed.
Lemma scan_live : forall s rs n best r t, In (r, KString) rs -> lang r (s ++ t) -> scan rs s n best <> Purge.
Proof.
  induction s as [| c s IH]; intros rs n best r t I L; cbn [scan].
  - destruct (match accepts rs with Some k => Some (k, n) | None => best end) as [(k, m) |]; [discriminate |].
    cbn; assert (E : in_string rs = true) by (apply in_string_rule; eauto); rewrite E; discriminate.
  - cbn [app] in L; apply deriv_lang in L.
    assert (J : In (deriv c r, KString) (advance c rs)).
    { unfold advance; apply filter_In; split; [apply in_map_iff; exists (r, KString); auto |].
      cbn; destruct (is_empty (deriv c r)) eqn:E; auto; exfalso; eapply empty_lang; eauto. }
    destruct (advance c rs) as [| x rs'] eqn:E; [destruct J |].
    apply (IH _ _ _ _ t J L).
Qed.

Lemma rules_string : forall r, In (r, KString) rules -> r = string_re.
Proof.
  intros r I; unfold rules in I; repeat (destruct I as [I | I]; [try discriminate I; injection I as <-; reflexivity |]).
  destruct I.
Qed.

Lemma scan_wait_cons : forall rs c s n best, scan rs (c :: s) n best = Wait -> in_string (advance c rs) = true.
Proof.
  intros rs c s n best H; cbn [scan] in H; destruct (advance c rs) as [| x rs'] eqn:E.
  - destruct (match accepts rs with Some k => Some (k, n) | None => best end) as [(k, m) |]; discriminate.
  - apply scan_wait in H; exact H.
Qed.
Lemma scan_token_eq : forall s, scan_token s = scan rules s 0 None.
Proof. reflexivity. Qed.
Lemma deriv_string : forall c, one 34%N c = false -> deriv c string_re = Empty.
Proof. intros c H; unfold string_re; cbn [deriv nullable]; rewrite H; reflexivity. Qed.
Lemma scan_token_wait : forall s, scan_token s = Wait -> s = [] \/ exists r, s = 34%N :: r.
Proof.
  intros [| c s] H; [left; reflexivity |]; right.
  rewrite scan_token_eq in H; pose proof (scan_wait_cons rules c s 0 None H) as K; apply in_string_rule in K; destruct K as (r & I).
  apply string_advance in I; destruct I as (r0 & I & -> & N); apply rules_string in I; subst r0.
  destruct (one 34%N c) eqn:O.
  - apply one_true in O; subst; eauto.
  - exfalso; exact (N (deriv_string c O)).
Qed.

Lemma no_quote : forall s, no_token (34%N :: s) -> ~ In 34%N s.
Proof.
  intros s H I; apply in_split in I; destruct I as (a & b & ->).
  assert (exists a' b', a ++ 34%N :: b = a' ++ 34%N :: b' /\ ~ In 34%N a') as (a' & b' & E & N).
  { clear H; revert b; induction a as [| c a IH]; intro b; [exists [], b; cbn; auto |].
    destruct (N.eq_dec c 34) as [-> | C]; [exists [], (a ++ 34%N :: b); cbn; auto |].
    destruct (IH b) as (a' & b' & E & N); exists (c :: a'), b'; cbn; rewrite E; split; auto.
    intros [X | X]; auto. }
  apply (H KString (34%N :: a' ++ [34%N]) b').
  - rewrite E; cbn; rewrite <- app_assoc; reflexivity.
  - constructor; clear E H; induction a' as [| c a' IH]; constructor.
    + intros ->; apply N; left; reflexivity.
    + apply IH; intro X; apply N; right; exact X.
Qed.

Lemma scan_token_purge : forall s, scan_token (34%N :: s) <> Purge.
Proof.
  intros s H; pose proof (scan_token_spec (34%N :: s)) as N; rewrite H in N; apply no_quote in N.
  apply (scan_live (34%N :: s) rules 0 None string_re [34%N]) in H; [exact H | |].
  - unfold rules; cbn; tauto.
  - apply lang_string; exists s; split; [reflexivity |].
    clear H; induction s as [| c s IH]; constructor.
    + intros ->; apply N; left; reflexivity.
    + apply IH; intro X; apply N; right; exact X.
Qed.

Lemma skip_app : forall (t r : bytes), skipn (length t) (t ++ r) = r.
Proof. induction t; intro r; cbn; auto. Qed.
Lemma first_app : forall (t r : bytes), firstn (length t) (t ++ r) = t.
Proof. induction t as [| c t IH]; intro r; cbn; auto; f_equal; apply IH. Qed.

Lemma split_cons : forall f c s, split_tokens (S f) (c :: s) =
  match scan_token (c :: s) with
  | Taken k n => let (l, e) := split_tokens f (skipn n (c :: s)) in ((k, firstn n (c :: s)) :: l, e)
  | Wait => ([], Waits (c :: s))
  | Purge => ([], Purged (c :: s))
  end.
Proof. reflexivity. Qed.

Lemma split_splits : forall fuel s l e, length s <= fuel -> split_tokens fuel s = (l, e) -> splits s l e.
Proof.
  induction fuel as [| f IH]; intros s l e L H.
  - destruct s; [| cbn in L; lia]; cbn in H; injection H as <- <-; constructor.
  - destruct s as [| c s]; [cbn in H; injection H as <- <-; constructor |].
    rewrite split_cons in H; pose proof (scan_token_spec (c :: s)) as P.
    destruct (scan_token (c :: s)) as [k n | |] eqn:Sc.
    + destruct P as (t & r & G & ->); pose proof G as (Et & (Tk & _) & _).
      rewrite Et, skip_app, first_app in H.
      destruct (split_tokens f r) as (l', e') eqn:E; injection H as <- <-.
      apply splits_token with (r := r); auto; [apply (token_nonempty _ _ Tk) |].
      apply IH; auto; apply (f_equal (@length N)) in Et; rewrite app_length in Et.
      destruct t; [destruct (token_nonempty _ _ Tk eq_refl) |]; unfold bytes, byte in *; cbn [app length] in *; lia.
    + injection H as <- <-; destruct (scan_token_wait _ Sc) as [E | (r & E)]; [discriminate |].
      injection E as -> ->; constructor; exact P.
    + injection H as <- <-; constructor; [| exact P]; intros ->; exact (scan_token_purge s Sc).
Qed.

Lemma splits_unique : forall s l e, splits s l e -> forall l' e', splits s l' e' -> l = l' /\ e = e'.
Proof.
  intros s l e H; induction H as [| s k t r l e N G _ IH | s N | c s C N]; intros l' e' H'.
  - inversion H' as [| s' k' t' r' l1 e1 N' G' H1 | |]; subst; auto.
    destruct G' as (E & _); symmetry in E; apply app_eq_nil in E; destruct E; subst; contradiction.
  - inversion H' as [| s' k' t' r' l1 e1 N' G' H1 | s' N' | c' s' C' N']; subst.
    + destruct G as (E & _); symmetry in E; apply app_eq_nil in E; destruct E; subst; contradiction.
    + destruct (longest_unique _ _ _ _ _ _ _ G G') as (-> & -> & ->).
      destruct (IH _ _ H1) as (-> & ->); auto.
    + destruct G as (E & (T & _) & _); destruct (N' k t r E T).
    + destruct G as (E & (T & _) & _); destruct (N' k t r E T).
  - inversion H' as [| s' k' t' r' l1 e1 N' G' H1 | s' N' | c' s' C' N']; subst; auto.
    + destruct G' as (E & (T & _) & _); destruct (N k' t' r' E T).
    + contradiction.
  - inversion H' as [| s' k' t' r' l1 e1 N' G' H1 | s' N' | c' s' C' N']; subst; auto.
    + destruct G' as (E & (T & _) & _); destruct (N k' t' r' E T).
    + contradiction.
Qed.

Lemma tokens_splits : forall s l e, tokens s = (l, e) <-> splits s l e.
Proof.
  intros s l e; unfold tokens; split; [apply split_splits; auto |]; intro H.
  destruct (split_tokens (length s) s) as (l', e') eqn:E; apply split_splits in E; auto.
  destruct (splits_unique _ _ _ H _ _ E); subst; reflexivity.
Qed.
