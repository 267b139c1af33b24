(** * HostProofs: file names and modules. *)
From Verif Require Import Value ValueSpec ValueProofs Lexer LexerSpec ReadSpec Parser EvalSpec Path Load HostSpec.
From Verif Require Eval.
Open Scope nat_scope.

(** ** Texts *)
Lemma starts_spec : forall p s, starts p s = true <-> exists r, s = p ++ r.
Proof.
  induction p as [|x p IH]; intros s; cbn [starts app].
  - split; [exists s; reflexivity|reflexivity].
  - destruct s as [|y s]; [split; [discriminate|intros [r R]; discriminate]|].
    rewrite andb_true_iff, N.eqb_eq, IH. split.
    + intros [-> [r ->]]; exists r; reflexivity.
    + intros [r R]; injection R as -> ->; split; [reflexivity|exists r; reflexivity].
Qed.
Lemma starts_false : forall p s, starts p s = false <-> forall r, s <> p ++ r.
Proof.
  intros p s; split.
  - intros E r ->. assert (T : starts p (p ++ r) = true) by (apply starts_spec; eauto). congruence.
  - intros N; destruct (starts p s) eqn:E; auto. apply starts_spec in E; destruct E as [r ->]; destruct (N r); auto.
Qed.
Lemma abs_starts : forall t, starts [47%N] t = true <-> absolute t.
Proof. intros t; rewrite starts_spec; unfold absolute, slash; cbn [app]; tauto. Qed.

Lemma split_last_some : forall s d f, split_last s = Some (d, f) -> s = d ++ slash :: f /\ ~ In slash f.
Proof.
  induction s as [|c s IH]; intros d f E; cbn [split_last] in E; [discriminate|].
  destruct (split_last s) as [(d', f')|] eqn:S.
  - injection E as <- <-. destruct (IH _ _ eq_refl) as [-> N]. auto.
  - destruct (N.eqb_spec c 47) as [->|C]; [|discriminate]. injection E as <- <-. split; [reflexivity|].
    clear IH. induction s as [|x s IHs]; [auto|].
    cbn [split_last] in S. destruct (split_last s) as [(?, ?)|] eqn:S'; [discriminate|].
    destruct (N.eqb_spec x 47) as [->|X]; [discriminate|]. intros [A|A]; [unfold slash in A; congruence|apply IHs; auto].
Qed.
Lemma split_last_none : forall s, split_last s = None <-> ~ In slash s.
Proof.
  induction s as [|c s IH]; cbn [split_last]; [split; auto|].
  destruct (split_last s) as [(d', f')|] eqn:S.
  - split; [discriminate|]. intro N. exfalso. assert (X : None = split_last s) by (rewrite S; symmetry; apply IH; intro I; apply N; right; auto).
    rewrite S in X; discriminate.
  - destruct (N.eqb_spec c 47) as [->|C].
    + split; [discriminate|]. intro N; exfalso; apply N; left; reflexivity.
    + split; [|auto]. intros _ [A|A]; [unfold slash in A; congruence|]. apply IH in A; auto.
Qed.
Lemma split_last_at : forall d f, ~ In slash f -> split_last (d ++ slash :: f) = Some (d, f).
Proof.
  intros d f N. destruct (split_last (d ++ slash :: f)) as [(d', f')|] eqn:E.
  - apply split_last_some in E. destruct E as [E N'].
    assert (R : forall a b u v : bytes, ~ In slash u -> ~ In slash v -> a ++ slash :: u = b ++ slash :: v -> a = b /\ u = v).
    { clear. induction a as [|x a IH]; intros b u v U V E; destruct b as [|y b]; cbn [app] in E.
      - injection E; auto.
      - injection E as X ->. exfalso; apply U; apply in_or_app; right; left; reflexivity.
      - injection E as X <-. exfalso; apply V; apply in_or_app; right; left; reflexivity.
      - injection E as -> E. destruct (IH _ _ _ U V E) as [-> ->]; auto. }
    destruct (R _ _ _ _ N N' E) as [-> ->]; reflexivity.
  - exfalso. apply (proj1 (split_last_none _)) in E. apply E, in_or_app; right; left; reflexivity.
Qed.

(** ** lisp_get_fullpath *)
Lemma fits_some : forall s t, fits s = Some t -> t = s /\ length s < PATH_MAX.
Proof. intros s t; unfold fits; destruct (Nat.ltb_spec (length s) PATH_MAX); [|discriminate]; intro E; injection E; auto. Qed.
Lemma fits_ok : forall s, length s < PATH_MAX -> fits s = Some s.
Proof. intros s L; unfold fits; destruct (Nat.ltb_spec (length s) PATH_MAX); [reflexivity|lia]. Qed.

(** What expansion yields before its buffer is considered. *)
Lemma expand_cases : forall H name, clean_name name -> exists t, stands H name t /\ expand H name = fits t /\
  exists d, (library_dir H d \/ home H = Some d \/ d = []) /\ length t <= length d + length name.
Proof.
  intros H name [CL CH]. unfold expand. destruct (starts (bs "@lib") name) eqn:L.
  - apply starts_spec in L. destruct L as [r ->]. pose proof (CL _ eq_refl) as B.
    set (d := match script H with Some s => s | None => install H ++ bs "/share/mnml" end).
    assert (LD : library_dir H d) by (unfold library_dir, d; destruct (script H); reflexivity).
    exists (d ++ r). split; [apply stands_lib; auto; split; auto|]. split.
    + reflexivity.
    + exists d. split; auto. rewrite !app_length. lia.
  - pose proof (proj1 (starts_false _ _) L) as NL.
    assert (Self : (forall rest, home_name name rest -> home H = None) -> stands H name name).
    { intro NH; apply stands_self; auto. intros rest [E _]. apply (NL rest E). }
    assert (Other : (forall rest, name <> bs "~" ++ rest) ->
       exists t, stands H name t /\ fits name = fits t /\
       exists d, (library_dir H d \/ home H = Some d \/ d = []) /\ length t <= length d + length name).
    { intro NT; exists name. split; [apply Self; intros rest [E _]; destruct (NT rest E)|]. split; auto.
      exists []; split; auto. }
    destruct name as [|c r]; [apply Other; intros rest R; discriminate|].
    destruct (N.eq_dec c 126) as [->|C].
    + destruct (home H) as [h|] eqn:HH.
      * exists (h ++ r). pose proof (CH r eq_refl) as B. split; [apply stands_home; auto; split; auto|]. split; auto.
        exists h; split; auto. rewrite app_length; cbn [length]; unfold bytes, byte in *; lia.
      * exists (126%N :: r). split; [apply Self; auto|]. split; auto. exists []; split; auto.
    + assert (Go : expand H (c :: r) = fits (c :: r)).
      { unfold expand. rewrite L. destruct c as [|c]; auto. repeat (destruct c as [c|c|]; auto; try (exfalso; apply C; reflexivity)). }
      unfold expand in Go. rewrite L in Go. rewrite Go. apply Other. intros rest E; injection E as E _; auto.
Qed.

Lemma stands_unique : forall H name t u, stands H name t -> stands H name u -> t = u.
Proof.
  intros H name t u A B.
  assert (LL : forall d e, library_dir H d -> library_dir H e -> d = e)
    by (intros d e; unfold library_dir; destruct (script H); intros -> ->; reflexivity).
  destruct A as [d r E L|d r E L|NL NH]; destruct B as [d' r' E' L'|d' r' E' L'|NL' NH'].
  - destruct E as [E _], E' as [E' _]. rewrite (LL _ _ L L'). rewrite E in E'. apply app_inv_head in E'. subst; reflexivity.
  - destruct E as [E _], E' as [E' _]. rewrite E in E'. discriminate E'.
  - destruct (NL' _ E).
  - destruct E as [E _], E' as [E' _]. rewrite E in E'. discriminate E'.
  - destruct E as [E _], E' as [E' _]. rewrite E in E'. apply app_inv_head in E'. congruence.
  - pose proof (NH' _ E). congruence.
  - destruct (NL _ E').
  - pose proof (NH _ E'). congruence.
  - reflexivity.
Qed.

Lemma fullpath_denotes : forall H cwd name f, clean_name name ->
  get_fullpath H true cwd name = Full f -> denotes H cwd name f.
Proof.
  intros H cwd name f C E. destruct (expand_cases H name C) as (t & St & Ex & _).
  unfold get_fullpath in E. rewrite Ex in E. destruct (fits t) as [t'|] eqn:F; [|discriminate E].
  apply fits_some in F. destruct F as [-> _]. rewrite andb_true_r in E.
  match type of E with match fits ?x with _ => _ end = _ => set (p := x) in * end.
  assert (P : place cwd t p).
  { unfold place, p. destruct (starts [47%N] t) eqn:S; cbn [negb].
    - left. split; auto. apply abs_starts; auto.
    - right. split; auto. intro A. apply abs_starts in A. congruence. }
  destruct (fits p) as [p'|] eqn:Fp; [|discriminate E]. apply fits_some in Fp. destruct Fp as [-> _].
  exists t, p. split; auto. split; auto. unfold names_file.
  destruct (real H p) as [q|] eqn:R; [injection E as <-; auto|].
  right. split; auto. destruct (split_last p) as [(d, n)|] eqn:S; [|discriminate E].
  destruct (real H d) as [q|] eqn:Rd; [|discriminate E].
  destruct (fits (q ++ 47%N :: n)) as [q'|] eqn:Fq; [|discriminate E]. apply fits_some in Fq. destruct Fq as [-> _].
  injection E as <-. apply split_last_some in S. destruct S as [S N]. exists d, n, q. auto.
Qed.

Lemma names_file_unique : forall H p f g, names_file H p f -> names_file H p g -> f = g.
Proof.
  intros H p f g [A|[A (d & n & q & P & N & R & F)]] [B|[B (d' & n' & q' & P' & N' & R' & F')]]; try congruence.
  rewrite P in P'. pose proof (split_last_at d n N) as S. rewrite P', split_last_at in S by auto. injection S as -> ->. congruence.
Qed.

Lemma fullpath_complete : forall H cwd name f, clean_name name -> room H cwd name ->
  denotes H cwd name f -> get_fullpath H true cwd name = Full f.
Proof.
  intros H cwd name f C Ro (t & p & St & P & Nf). destruct (expand_cases H name C) as (t' & St' & Ex & d & Dd & L).
  rewrite (stands_unique _ _ _ _ St' St) in *. clear t' St'. destruct (Ro d Dd) as [R1 R2].
  unfold get_fullpath. rewrite Ex, fits_ok by (unfold bytes, byte in *; lia). rewrite andb_true_r.
  match goal with |- match fits ?x with _ => _ end = _ => assert (Q : x = p) end.
  { destruct P as [[A ->]|[A ->]].
    - apply abs_starts in A; rewrite A; reflexivity.
    - destruct (starts [47%N] t) eqn:S; [apply abs_starts in S; contradiction|reflexivity]. }
  rewrite Q. assert (Lp : length p <= length cwd + length d + length name + 1).
  { destruct P as [[_ ->]|[_ ->]]; [lia|]. rewrite app_length; cbn [length]; unfold bytes, byte in *; lia. }
  rewrite fits_ok by (unfold bytes, byte in *; lia). destruct Nf as [->|[Rn (e & n & q & Ep & N & Re & F)]]; [reflexivity|].
  rewrite Rn, Ep, split_last_at by auto. rewrite Re.
  pose proof (R2 _ _ Re) as Lq.
  assert (Ln : length n < length p) by (rewrite Ep, app_length; cbn [length]; unfold bytes, byte in *; lia).
  rewrite fits_ok; [rewrite F; reflexivity|]. rewrite app_length; cbn [length]; unfold bytes, byte in *; lia.
Qed.

Lemma fullpath_no_fault : forall H cwd name b, clean_name name -> room H cwd name ->
  (b = true \/ exists t, stands H name t /\ In slash t) -> forall f, get_fullpath H b cwd name <> Bad f.
Proof.
  intros H cwd name b C Ro B f E. destruct (expand_cases H name C) as (t & St & Ex & d & Dd & L).
  destruct (Ro d Dd) as [R1 R2].
  unfold get_fullpath in E. rewrite Ex, fits_ok in E by (unfold bytes, byte in *; lia).
  match type of E with match fits ?x with _ => _ end = _ => set (p := x) in * end.
  assert (Lp : length p <= length cwd + length d + length name + 1).
  { unfold p; destruct (negb (starts [47%N] t) && b); [|lia]. rewrite app_length; cbn [length]; unfold bytes, byte in *; lia. }
  rewrite fits_ok in E by (unfold bytes, byte in *; lia).
  destruct (real H p); [discriminate|].
  assert (Sl : In slash p).
  { unfold p. destruct (starts [47%N] t) eqn:S; cbn [negb andb].
    - apply abs_starts in S. destruct S as [r ->]. left; reflexivity.
    - destruct B as [->|(u & Su & I)].
      + apply in_or_app; right; left; reflexivity.
      + rewrite (stands_unique _ _ _ _ Su St) in I. destruct b; [apply in_or_app; right; right; auto|auto]. }
  destruct (split_last p) as [(e, n)|] eqn:S; [|apply split_last_none in S; contradiction].
  destruct (real H e) as [q|] eqn:Re; [|discriminate E].
  apply split_last_some in S. destruct S as [Ep N]. pose proof (R2 _ _ Re) as Lq.
  assert (Ln : length n < length p) by (rewrite Ep, app_length; cbn [length]; unfold bytes, byte in *; lia).
  rewrite fits_ok in E; [discriminate|]. rewrite app_length; cbn [length]; unfold bytes, byte in *; lia.
Qed.

(** ** Modules *)
Lemma beq_eq : forall a b, beq a b = true <-> a = b.
Proof.
  induction a as [|x a IH]; intros [|y b]; cbn [beq]; split; intro E; try discriminate; auto.
  - apply andb_true_iff in E. destruct E as [E F]. apply N.eqb_eq in E. apply IH in F. congruence.
  - injection E as -> ->. rewrite N.eqb_refl. apply IH; reflexivity.
Qed.

Lemma tokens_colon : forall s l, colon_list s l -> tokens s = l.
Proof.
  assert (G : forall d acc r, ~ In 58%N d -> parts acc (d ++ r) = parts (rev d ++ acc) r).
  { induction d as [|c d IH]; intros acc r N; cbn [app rev]; auto. cbn [parts].
    destruct (N.eqb_spec c 58) as [->|C]; [exfalso; apply N; left; reflexivity|].
    rewrite IH by (intro I; apply N; right; auto). rewrite <- app_assoc; reflexivity. }
  intros s l C. unfold tokens. induction C as [d N D| |d r l N D C IH|r l C IH].
  - rewrite <- (app_nil_r d) at 1. rewrite G by auto. cbn [parts]. rewrite app_nil_r.
    destruct (rev d) as [|x y] eqn:R.
    + exfalso; apply D. rewrite <- (rev_involutive d), R; reflexivity.
    + rewrite <- R, rev_involutive; reflexivity.
  - reflexivity.
  - rewrite G by auto. rewrite app_nil_r. cbn [parts]. rewrite N.eqb_refl.
    destruct (rev d) as [|x y] eqn:R.
    + exfalso; apply D. rewrite <- (rev_involutive d), R; reflexivity.
    + rewrite <- R, rev_involutive, IH; reflexivity.
  - cbn [parts]. rewrite N.eqb_refl. exact IH.
Qed.

Lemma find_at_spec : forall D d m, has_module D m d -> find_at D d (sym_text m) = Some (d ++ slash :: so_name m).
Proof.
  intros D d m (l & L & I). unfold find_at. rewrite L.
  assert (E : existsb (beq (bs "lib" ++ sym_text m ++ bs ".so")) l = true).
  { apply existsb_exists. exists (so_name m). split; auto. apply beq_eq; reflexivity. }
  rewrite E. reflexivity.
Qed.
Lemma find_at_none : forall D d m, ~ has_module D m d -> find_at D d (sym_text m) = None.
Proof.
  intros D d m N. unfold find_at. destruct (listing D d) as [l|] eqn:L; auto.
  destruct (existsb (beq (bs "lib" ++ sym_text m ++ bs ".so")) l) eqn:E; auto.
  exfalso. apply N. apply existsb_exists in E. destruct E as (x & I & B). apply beq_eq in B. exists l. split; auto.
  unfold so_name. rewrite B. auto.
Qed.
Lemma find_in_spec : forall D m a d b, has_module D m d -> (forall x, In x a -> ~ has_module D m x) ->
  find_in D (a ++ d :: b) (sym_text m) = Some (d ++ slash :: so_name m).
Proof.
  intros D m a d b M. induction a as [|x a IH]; intros N; cbn [app find_in].
  - rewrite (find_at_spec D d m M). reflexivity.
  - rewrite find_at_none by (apply N; left; reflexivity). apply IH. intros y I; apply N; right; auto.
Qed.
Lemma find_in_none : forall D m l, (forall x, In x l -> ~ has_module D m x) -> find_in D l (sym_text m) = None.
Proof.
  intros D m l. induction l as [|x l IH]; intros N; cbn [find_in]; auto.
  rewrite find_at_none by (apply N; left; reflexivity). apply IH. intros y I; apply N; right; auto.
Qed.

Lemma paths_search : forall H D l, search H D l -> exists h, home H = Some h /\ tokens (paths_text H D h) = l.
Proof.
  intros H D l (h & Hh & C). exists h; split; [exact Hh|]. apply tokens_colon. exact C.
Qed.
Lemma search_unique : forall H D l l', search H D l -> search H D l' -> l = l'.
Proof. intros H D l l' A B. destruct (paths_search _ _ _ A) as (t & E & <-), (paths_search _ _ _ B) as (u & F & <-). congruence. Qed.
Lemma found_find : forall H D m p, found H D m p -> exists h, home H = Some h /\ find_in D (tokens (paths_text H D h)) (sym_text m) = Some p.
Proof.
  intros H D m p (l & a & d & b & S & L & M & N & P). destruct (paths_search _ _ _ S) as (h & E & T).
  exists h. split; auto. rewrite T, L, P. apply find_in_spec; auto.
Qed.
Lemma found_unique : forall H D m p q, found H D m p -> found H D m q -> p = q.
Proof. intros H D m p q A B. destruct (found_find _ _ _ _ A) as (t & E & F), (found_find _ _ _ _ B) as (u & G & K). congruence. Qed.
Lemma bytes_len : forall (x y : bytes), @length N (x ++ y) = length x + length y.
Proof. intros x y. apply app_length. Qed.
Lemma paths_some : forall H D t, module_paths H D = inl t -> exists h, home H = Some h /\ t = paths_text H D h.
Proof.
  intros H D t E. unfold module_paths in E. destruct (fits (install H ++ bs "/lib/mnml")); [|discriminate E].
  destruct (home H) as [h|]; [|discriminate E]. destruct (fits (h ++ bs "/.mnml")); [|discriminate E].
  destruct (Nat.ltb _ _); [|discriminate E]. injection E as <-. eauto.
Qed.
Lemma paths_max : PATHS_MAX = 2 * PATH_MAX.
Proof. unfold PATHS_MAX, PATH_MAX. change 2 with (N.to_nat 2). rewrite <- N2Nat.inj_mul. reflexivity. Qed.
Lemma paths_fit : forall H D h, short_search H D -> home H = Some h -> module_paths H D = inl (paths_text H D h).
Proof.
  intros H D h (Li & Lh & _) Hh. destruct (Lh h Hh) as (L1 & L2). unfold module_paths.
  rewrite fits_ok by (rewrite bytes_len; exact Li). rewrite Hh.
  rewrite fits_ok by (rewrite bytes_len; exact L1).
  assert (L : length (paths_text H D h) < PATHS_MAX).
  { rewrite paths_max. unfold paths_text. repeat rewrite bytes_len. change (length (bs "/lib/mnml")) with 9.
    change (length (bs ":")) with 1. change (length (bs "/.mnml")) with 6. revert L2.
    destruct (module_path D) as [e|]; [rewrite bytes_len; change (length (bs ":")) with 1|change (@length N []) with 0]; unfold bytes, byte in *; lia. }
  rewrite (proj2 (Nat.ltb_lt _ _) L). reflexivity.
Qed.
(** Conversely: where the search found something. *)
Lemma tokens_list : forall s, colon_list s (tokens s).
Proof.
  assert (G : forall s acc, ~ In 58%N acc -> colon_list (rev acc ++ s) (parts acc s)).
  { induction s as [|c s IH]; intros acc N; cbn [parts].
    - rewrite app_nil_r. destruct acc as [|x acc]; [constructor|]. apply cl_last.
      + intro I; apply N, in_rev; auto.
      + intro E. apply (f_equal (@length _)) in E. rewrite rev_length in E. discriminate.
    - destruct (N.eqb_spec c 58) as [->|C].
      + destruct acc as [|x acc]; [apply cl_skip; apply (IH []); auto|]. apply cl_cons.
        * intro I; apply N, in_rev; auto.
        * intro E. apply (f_equal (@length _)) in E. rewrite rev_length in E. discriminate.
        * apply (IH []); auto.
      + pose proof (IH (c :: acc)) as K. cbn [rev] in K. rewrite <- app_assoc in K. apply K.
        intros [E|I]; auto. }
  intro s. apply (G s []). auto.
Qed.
Lemma find_found : forall H D m t p, module_paths H D = inl t -> find_in D (tokens t) (sym_text m) = Some p -> found H D m p.
Proof.
  intros H D m t p E F.
  assert (S : search H D (tokens t)).
  { destruct (paths_some _ _ _ E) as (h & Hh & ->). exists h. split; auto. apply tokens_list. }
  assert (G : forall l, find_in D l (sym_text m) = Some p -> exists a d b, l = a ++ d :: b /\ has_module D m d /\
    (forall x, In x a -> ~ has_module D m x) /\ p = d ++ slash :: so_name m).
  { induction l as [|x l IH]; cbn [find_in]; [discriminate|].
    destruct (find_at D x (sym_text m)) as [q|] eqn:Fx.
    - intro Q; injection Q as ->. exists [], x, l. split; auto. assert (M : has_module D m x).
      { unfold find_at in Fx. destruct (listing D x) as [y|] eqn:L; [|discriminate].
        destruct (existsb (beq (bs "lib" ++ sym_text m ++ bs ".so")) y) eqn:X; [|discriminate].
        apply existsb_exists in X. destruct X as (z & I & B). apply beq_eq in B. exists y. split; auto. unfold so_name; rewrite B; auto. }
      split; auto. split; [intros ? []|]. rewrite (find_at_spec D x m M) in Fx. congruence.
    - intro Q. destruct (IH Q) as (a & d & b & -> & M & N & P). exists (x :: a), d, b. split; auto. split; auto. split; auto.
      intros y [<-|I]; auto. intro M'. rewrite (find_at_spec D x m M') in Fx. discriminate. }
  destruct (G _ F) as (a & d & b & L & M & N & P). exists (tokens t), a, d, b. auto.
Qed.

Lemma named_text : forall n, length n <= 16 -> ~ In 0%N n -> sym_text (mk_symbol n) = n.
Proof.
  intros n L N. rewrite sym_text_mk, cstr_id.
  - apply firstn_all2; exact L.
  - apply Forall_forall; intros x I ->; auto.
Qed.
Lemma text_named : forall n, mk_symbol (sym_text (mk_symbol n)) = mk_symbol n.
Proof.
  intros n. rewrite sym_text_mk. apply mk_symbol_eq.
  rewrite cstr_id by (apply Forall_firstn, cstr_no_nul). rewrite firstn_firstn. reflexivity.
Qed.

Definition look (es : list entry) (k : symbol) : option entry := find (fun e => beq (fst e) (sym_text k)) es.

Lemma look_some : forall es n e, look es (mk_symbol n) = Some e ->
  mk_symbol (fst e) = mk_symbol n /\ provides es (mk_symbol n) (snd e).
Proof.
  intros es n (m, v) F. apply find_some in F. destruct F as [I B]. cbn [fst snd] in *. apply beq_eq in B.
  assert (E : mk_symbol m = mk_symbol n) by (rewrite B; apply text_named). split; auto. exists m. auto.
Qed.
Lemma provides_look : forall es k v, well_named es -> provides es k v -> exists e, look es k = Some e /\ snd e = v.
Proof.
  intros es k v [ND F] (n & I & ->).
  assert (T : forall m w, In (m, w) es -> sym_text (mk_symbol m) = m).
  { intros m w J. rewrite Forall_forall in F. destruct (F _ J) as [A B]. apply named_text; auto. }
  unfold look. rewrite (T _ _ I). clear T F. induction es as [|(m, w) es IH]; [destruct I|].
  cbn [find fst]. inversion ND as [|x y Nx ND']; subst. destruct (beq m n) eqn:B.
  - apply beq_eq in B. subst. exists (n, w). split; auto. destruct I as [I|I]; [injection I; auto|].
    exfalso; apply Nx. apply in_map_iff. exists (n, v); auto.
  - destruct I as [I|I]; [|apply IH; auto]. injection I as -> ->. rewrite (proj2 (beq_eq n n) eq_refl) in B. discriminate.
Qed.
Lemma look_none : forall es n, well_named es -> (look es (mk_symbol n) = None <-> forall v, ~ provides es (mk_symbol n) v).
Proof.
  intros es n W. split.
  - intros N v P. destruct (provides_look _ _ _ W P) as (e & E & _). congruence.
  - intros N. destruct (look es (mk_symbol n)) as [e|] eqn:E; auto. apply look_some in E. destruct E as [_ P]. destruct (N _ P).
Qed.

Lemma get_cons : forall k v g k', Value.env_get ((k, v) :: g) k' = if sym_match k k' then Some v else Value.env_get g k'.
Proof. reflexivity. Qed.

Lemma load_list_spec : forall es ks w, (forall k, In k ks -> exists n, k = mk_symbol n) ->
  exists rs w', load_list es (mk_list (map (Sym false) ks)) w = (mk_list (map (Sym false) rs), w') /\
    selected (fun k => look es k <> None) ks rs /\
    (forall k, In k ks -> forall e, look es k = Some e -> Value.env_get (Eval.globals w') k = Some (snd e)) /\
    (forall k, ~ (In k ks /\ look es k <> None) -> Value.env_get (Eval.globals w') k = Value.env_get (Eval.globals w) k) /\
    Eval.outs w' = Eval.outs w /\ Eval.ichan w' = Eval.ichan w /\ Eval.ochan w' = Eval.ochan w /\ Eval.opens w' = Eval.opens w.
Proof.
  intros es ks w. induction ks as [|k ks IH]; intros Nm.
  - exists [], w. split; [reflexivity|]. split; [constructor|]. split; [intros k []|]. auto 10.
  - destruct IH as (rs & w' & L & S & G1 & G2 & R); [intros; apply Nm; right; auto|].
    cbn [map mk_list load_list]. rewrite L. fold (look es k).
    destruct (Nm k (or_introl eq_refl)) as (n & Kn).
    destruct (look es k) as [e|] eqn:Lk.
    + rewrite Kn in Lk. destruct (look_some _ _ _ Lk) as [En _]. rewrite <- Kn in Lk, En.
      exists (k :: rs), (bind_entry e w'). unfold named; rewrite En. split; [reflexivity|]. split; [constructor; auto; congruence|].
      unfold bind_entry; cbn [Eval.globals Eval.outs Eval.ichan Eval.ochan Eval.opens]. rewrite En. split; [|split; [|exact R]].
      * intros k' I e' L'. rewrite get_cons. destruct (sym_match k k') eqn:M.
        { apply sym_match_eq in M. subst k'. congruence. }
        destruct I as [->|I]; [rewrite (proj2 (sym_match_eq k' k') eq_refl) in M; discriminate|]. apply G1; auto.
      * intros k' N'. rewrite get_cons. destruct (sym_match k k') eqn:M.
        { apply sym_match_eq in M. subst k'. exfalso; apply N'. split; [left; auto|congruence]. }
        apply G2. intros [I J]; apply N'; split; auto. right; auto.
    + exists rs, w'. split; [reflexivity|]. split; [constructor; auto|]. split; [|split; [|exact R]].
      * intros k' [<-|I] e' L'; [congruence|]. apply G1; auto.
      * intros k' N'. apply G2. intros [I J]; apply N'; split; auto. right; auto.
Qed.

(** Everything: as the list of all the names. *)
Lemma load_all_spec : forall es es0 w, well_named es0 -> (forall e, In e es -> In e es0) ->
  fold_right (fun e r => (Cons (named e) (fst r), bind_entry e (snd r))) (Nil, w) es =
  load_list es0 (mk_list (map (Sym false) (map (fun e : entry => mk_symbol (fst e)) es))) w.
Proof.
  intros es es0 w W. induction es as [|(n, v) es IH]; intros I; [reflexivity|].
  cbn [fold_right map mk_list load_list fst]. rewrite IH by (intros e J; apply I; right; auto).
  destruct (load_list es0 _ w) as (nxt, w1). cbn [fst snd].
  destruct (provides_look es0 (mk_symbol n) v W) as (e & L & V). { exists n. split; auto. apply I; left; reflexivity. }
  unfold look in L. rewrite L. pose proof (find_some _ _ L) as [Ie B]. destruct e as (m, u). cbn [fst snd] in *. subst u.
  apply beq_eq in B.
  assert (Em : m = n).
  { rewrite B. destruct W as [_ F]. rewrite Forall_forall in F. destruct (F (n, v)) as [X Y]; [apply I; left; reflexivity|]. apply named_text; auto. }
  rewrite Em. reflexivity.
Qed.

Lemma selected_ext : forall A (P Q : A -> Prop) l r, (forall x, In x l -> (P x <-> Q x)) -> selected P l r -> selected Q l r.
Proof.
  intros A P Q l r E S. induction S.
  - constructor.
  - constructor; [apply E; [left; auto|auto]|]. apply IHS. intros; apply E; right; auto.
  - constructor; [rewrite <- E; [auto|left; auto]|]. apply IHS. intros; apply E; right; auto.
Qed.

Lemma asks_names : forall es req ks, asks es req ks -> forall k, In k ks -> exists n, k = mk_symbol n.
Proof.
  intros es req ks A. destruct A as [ks N|]; auto. intros k I. apply in_map_iff in I. destruct I as (e & <- & _). eauto.
Qed.
Lemma load_symbols_spec : forall es req ks w, well_named es -> asks es req ks ->
  load_symbols es req w = load_list es (mk_list (map (Sym false) ks)) w.
Proof.
  intros es req ks w W A. destruct A as [ks N|].
  - unfold load_symbols. destruct ks; reflexivity.
  - unfold load_symbols. apply load_all_spec; auto.
Qed.

Lemma module_found : forall H D s m p es req ks, short_search H D -> coherent H D s -> found H D m p ->
  binary D p = Some (sym_text m, es) -> well_named es -> asks es req ks ->
  exists rs s', module_load H D (Cons (Sym false m) req) s = Got (mk_list (map (Sym false) rs)) s' /\
    selected (fun k => exists v, provides es k v) ks rs /\ binds_entries es ks s s' /\ coherent H D s' /\
    (rs <> [] -> In (m, es) (mods s')).
Proof.
  intros H D s m p es req ks Sh Co F B W A.
  destruct (found_find _ _ _ _ F) as (h & E & Fi).
  unfold module_load. cbn [Value.car Value.cdr]. rewrite (paths_fit H D h Sh E), Fi, fits_ok by (eapply (proj2 (proj2 Sh)); exact F). unfold load_binary. cbv beta zeta.
  destruct (load_list_spec es ks (wd s) (asks_names _ _ _ A)) as (rs & w' & L & S & G1 & G2 & R).
  assert (Sel : selected (fun k => exists v, provides es k v) ks rs).
  { eapply selected_ext; [|exact S]. intros k I. destruct (asks_names _ _ _ A k I) as (n & ->). split.
    - intro N. destruct (look es (mk_symbol n)) as [e|] eqn:Lk; [|contradiction]. apply look_some in Lk. destruct Lk. eauto.
    - intros (v & P) N. apply (proj1 (look_none es n W) N v P). }
  assert (Bi : forall ms, binds_entries es ks s (mkst w' (dirs s) ms (quits s))).
  { intro ms. destruct R as (R1 & R2 & R3 & R4). unfold binds_entries. cbn [wd dirs quits]. split; [|split].
    - intros k v I P. destruct (provides_look _ _ _ W P) as (e & Lk & <-). apply env_get_shows. apply G1; auto.
    - intros k r N. rewrite !env_get_shows. rewrite G2; [tauto|]. intros [I Lk]. apply N. split; auto.
      destruct (asks_names _ _ _ A k I) as (n & ->). destruct (look es (mk_symbol n)) as [e|] eqn:Le; [|contradiction].
      apply look_some in Le. destruct Le. eauto.
    - auto 10. }
  assert (Fin : forall add : bool, (add = true -> forall q, found H D m q -> binary D q = Some (sym_text m, es)) ->
    (add = false -> In (m, es) (mods s)) ->
    exists rs' s', (let (v, s'0) := (let (syms, w'0) := load_list es (mk_list (map (Sym false) ks)) (wd s) in
      match syms with
      | Nil => (Nil, with_w s w'0)
      | _ => (syms, mkst w'0 (dirs s) (if add then (m, es) :: mods s else mods s) (quits s))
      end) in Got v s'0) = Got (mk_list (map (Sym false) rs')) s' /\
    selected (fun k => exists v, provides es k v) ks rs' /\ binds_entries es ks s s' /\ coherent H D s' /\
    (rs' <> [] -> In (m, es) (mods s'))).
  { intros add Ad Ol. rewrite L. destruct rs as [|k rs].
    - exists [], (with_w s w'). cbn [map mk_list]. split; [reflexivity|]. split; [exact Sel|]. split; [apply Bi|]. split; [exact Co|intro X; contradiction].
    - exists (k :: rs), (mkst w' (dirs s) (if add then (m, es) :: mods s else mods s) (quits s)).
      cbn [map mk_list]. split; [reflexivity|]. split; [exact Sel|]. split; [apply Bi|]. split; [|intros _; cbn [mods]; destruct add; [left; reflexivity|apply Ol; reflexivity]].
      unfold coherent; cbn [mods]. destruct add; [|exact Co]. intros m' es' [I|I]; [|apply Co; auto].
      injection I as <- <-. apply Ad; reflexivity. }
  destruct (find (fun m0 => sym_match (fst m0) m) (mods s)) as [(m', es')|] eqn:Fm.
  - apply find_some in Fm. destruct Fm as [I M]. cbn [fst] in M. apply sym_match_eq in M. subst m'.
    pose proof (Co _ _ I _ F) as B'. rewrite B in B'. injection B' as <-. 
    rewrite (load_symbols_spec es req ks (wd s) W A). apply (Fin false); [discriminate|intros _; exact I].
  - unfold open_at. rewrite B, (proj2 (beq_eq _ _) eq_refl). rewrite (load_symbols_spec es req ks (wd s) W A). apply (Fin true); [|discriminate].
    intros _ q Q. rewrite (found_unique _ _ _ _ _ Q F). exact B.
Qed.

Lemma module_nowhere : forall H D s m req, short_search H D -> nowhere H D m -> module_load H D (Cons (Sym false m) req) s = Got Nil s.
Proof.
  intros H D s m req Sh (l & S & N). destruct (paths_search _ _ _ S) as (h & E & T).
  unfold module_load. cbn [Value.car Value.cdr]. rewrite (paths_fit H D h Sh E), T, find_in_none by auto. reflexivity.
Qed.
