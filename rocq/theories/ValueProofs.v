(** * Proofs about symbols, values, scopes and strings. *)
From Verif Require Import Value ValueSpec.
From Coq Require Import ZifyBool ZifyNat ZifyN.

(** ** Symbols *)

Lemma memcmp_refl : forall a, memcmp a a = Eq.
Proof. induction a as [|x a IH]; cbn; auto. rewrite N.compare_refl; auto. Qed.

Lemma memcmp_eq : forall a b, memcmp a b = Eq <-> a = b.
Proof.
  induction a as [|x a IH]; intros [|y b]; cbn; split; intros H; try congruence; auto.
  - destruct (N.compare_spec x y) as [->|?|?]; try discriminate.
    f_equal. apply IH; auto.
  - injection H as -> ->. rewrite N.compare_refl. apply IH; auto.
Qed.

Lemma memcmp_lt : forall a b, memcmp a b = Lt <-> sym_lt a b.
Proof.
  induction a as [|x a IH]; intros [|y b]; cbn; split; intros H; try discriminate.
  - inversion H.
  - constructor.
  - reflexivity.
  - inversion H.
  - destruct (N.compare_spec x y) as [->|Hlt|?]; try discriminate.
    + apply sym_lt_tail, IH; auto.
    + apply sym_lt_head; auto.
  - inversion H as [|? ? ? ? Hl|? ? ? Ht]; subst.
    + destruct (N.compare_spec x y); auto; lia.
    + rewrite N.compare_refl. apply IH; auto.
Qed.

Lemma memcmp_antisym : forall a b, memcmp b a = CompOpp (memcmp a b).
Proof.
  induction a as [|x a IH]; intros [|y b]; cbn; auto.
  rewrite N.compare_antisym. destruct (N.compare x y); cbn; auto.
Qed.

Lemma memcmp_gt : forall a b, memcmp a b = Gt <-> sym_lt b a.
Proof.
  intros a b. rewrite <- memcmp_lt, (memcmp_antisym a b).
  destruct (memcmp a b); cbn; split; congruence.
Qed.

Lemma sym_match_eq : forall a b, sym_match a b = true <-> a = b.
Proof.
  intros a b. unfold sym_match. rewrite <- memcmp_eq.
  destruct (memcmp a b); split; congruence.
Qed.

Lemma sym_match_refl : forall a, sym_match a a = true.
Proof. intros; apply sym_match_eq; auto. Qed.

Lemma sym_match_neq : forall a b, a <> b -> sym_match a b = false.
Proof.
  intros a b H. destruct (sym_match a b) eqn:E; auto.
  apply sym_match_eq in E; contradiction.
Qed.

Lemma sym_match_sym : forall a b, sym_match a b = sym_match b a.
Proof.
  intros a b. unfold sym_match. rewrite (memcmp_antisym a b).
  destruct (memcmp a b); auto.
Qed.

Lemma sym_lt_irrefl : forall a, ~ sym_lt a a.
Proof. intros a H. apply memcmp_lt in H. rewrite memcmp_refl in H; discriminate. Qed.

Lemma sym_lt_trans : forall a b c, sym_lt a b -> sym_lt b c -> sym_lt a c.
Proof.
  intros a b c H. revert c. induction H as [y b|x y a b Hl|x a b H IH]; intros c Hc;
    inversion Hc; subst; try (constructor; lia); try (constructor; auto; fail).
Qed.

Lemma sym_lt_total : forall a b, a = b \/ sym_lt a b \/ sym_lt b a.
Proof.
  intros a b. destruct (memcmp a b) eqn:E.
  - left; apply memcmp_eq; auto.
  - right; left; apply memcmp_lt; auto.
  - right; right; apply memcmp_gt; auto.
Qed.

Lemma sym_eq_dec : forall a b : symbol, {a = b} + {a <> b}.
Proof. apply (list_eq_dec N.eq_dec). Qed.

Lemma strncpy_length : forall n s, length (strncpy n s) = n.
Proof.
  induction n as [|n IH]; intros s; cbn; auto.
  destruct s as [|b r]; cbn; auto. destruct (N.eqb b 0); cbn; auto.
Qed.

Lemma strncpy_nil : forall n, strncpy n [] = repeat 0%N n.
Proof. induction n; cbn; congruence. Qed.

Lemma strncpy_name : forall n s,
  strncpy n s = firstn n (cstr s) ++ repeat 0%N (n - length (firstn n (cstr s))).
Proof.
  induction n as [|n IH]; intros s; cbn; auto.
  destruct s as [|b r]; cbn.
  - rewrite strncpy_nil; auto.
  - destruct (N.eqb b 0); cbn.
    + rewrite strncpy_nil; auto.
    + rewrite IH; auto.
Qed.

Lemma cstr_no_nul : forall s, Forall (fun b => b <> 0%N) (cstr s).
Proof.
  induction s as [|b r IH]; cbn; auto.
  destruct (N.eqb_spec b 0); constructor; auto.
Qed.

Lemma cstr_app_nul : forall a b, Forall (fun b => b <> 0%N) a ->
  cstr (a ++ b) = a ++ cstr b.
Proof.
  induction a as [|x a IH]; cbn; intros b H; auto.
  inversion H; subst. destruct (N.eqb_spec x 0); [contradiction|].
  rewrite IH; auto.
Qed.

Lemma cstr_zeros : forall n, cstr (repeat 0%N n) = [].
Proof. destruct n; reflexivity. Qed.

Lemma Forall_firstn : forall (A : Type) (P : A -> Prop) n l, Forall P l -> Forall P (firstn n l).
Proof.
  induction n as [|n IH]; intros l H; cbn; auto.
  destruct H; cbn; auto.
Qed.

Lemma sym_text_mk : forall s, sym_text (mk_symbol s) = firstn 16 (cstr s).
Proof.
  intros s. unfold sym_text, mk_symbol, symbol_length.
  rewrite strncpy_name, cstr_app_nul, cstr_zeros, app_nil_r; auto.
  apply Forall_firstn, cstr_no_nul.
Qed.

Lemma mk_symbol_eq : forall s t,
  mk_symbol s = mk_symbol t <-> firstn 16 (cstr s) = firstn 16 (cstr t).
Proof.
  intros s t; split; intros H.
  - rewrite <- !sym_text_mk, H; auto.
  - unfold mk_symbol, symbol_length. rewrite !strncpy_name, H; auto.
Qed.

Lemma name16_fun : forall s n r, name16 s n r <-> r = firstn n (cstr s).
Proof.
  intros s n r; split.
  - intros H; induction H; cbn [cstr firstn].
    + auto.
    + destruct n; auto.
    + destruct n; auto.
    + destruct (N.eqb_spec b 0); [contradiction|]. cbn. congruence.
  - intros ->. revert n. induction s as [|b s IH]; intros n.
    + destruct n; constructor.
    + destruct n as [|n]; [constructor|]. cbn [cstr].
      destruct (N.eqb_spec b 0) as [->|Hb]; cbn; constructor; auto.
Qed.

Lemma mk_symbol_name : forall s t r u, name16 s 16 r -> name16 t 16 u ->
  (mk_symbol s = mk_symbol t <-> r = u).
Proof.
  intros s t r u Hr Hu. apply name16_fun in Hr, Hu. subst. apply mk_symbol_eq.
Qed.

Lemma mk_symbol_n_eq : forall s n, mk_symbol_n s n = mk_symbol (firstn n s).
Proof.
  intros s n. unfold mk_symbol_n, mk_symbol.
  assert (H : forall k s n, strncpy (Nat.min n k) s ++ repeat 0%N (k - Nat.min n k)
              = strncpy k (firstn n s)).
  { clear. induction k as [|k IH]; intros s n; cbn.
    - rewrite Nat.min_0_r; auto.
    - destruct n as [|n]; cbn.
      + rewrite strncpy_nil; auto.
      + destruct s as [|b r]; cbn.
        * specialize (IH [] n). rewrite firstn_nil in IH. rewrite IH; auto.
        * destruct (N.eqb b 0); cbn.
          -- specialize (IH [] n). rewrite firstn_nil in IH. rewrite IH; auto.
          -- rewrite IH; auto. }
  apply H.
Qed.

(** ** Equality *)

Lemma equ_same : forall a b, equ a b = true <-> same a b.
Proof.
  induction a as [| | |c|z|t s|t a1 IH1 a2 IH2]; intros b; destruct b; cbn;
    split; intros H; try discriminate; try (inversion H; fail); try constructor.
  - apply Z.eqb_eq in H; subst; constructor.
  - inversion H; apply Z.eqb_refl.
  - apply Z.eqb_eq in H; subst; constructor.
  - inversion H; apply Z.eqb_refl.
  - apply sym_match_eq in H; subst; constructor.
  - inversion H; subst; apply sym_match_refl.
  - apply andb_prop in H; apply IH1; tauto.
  - apply andb_prop in H; apply IH2; tauto.
  - inversion H; subst. apply andb_true_intro; split; [apply IH1|apply IH2]; auto.
Qed.

Lemma same_refl : forall a, same a a.
Proof. induction a; constructor; auto. Qed.
Lemma same_symm : forall a b, same a b -> same b a.
Proof. intros a b H; induction H; constructor; auto. Qed.
Lemma same_trans : forall a b c, same a b -> same b c -> same a c.
Proof.
  intros a b c H; revert c; induction H; intros e He; inversion He; subst;
    constructor; auto.
Qed.

Lemma neq_equ : forall a b, neq a b = negb (equ a b).
Proof.
  induction a as [| | |c|z|t s|t a1 IH1 a2 IH2]; intros b; destruct b; cbn; auto.
  rewrite IH1, IH2. rewrite negb_andb. auto.
Qed.

(** ** Matching *)

Lemma atom_match_instance : forall a b, atom_match a b = true <-> instance a b.
Proof.
  induction a as [| | |c|z|t s|t a1 IH1 a2 IH2]; intros b; destruct b; cbn;
    split; intros H; try discriminate; try (inversion H; fail); try constructor.
  - apply Z.eqb_eq in H; subst; constructor.
  - inversion H; apply Z.eqb_refl.
  - apply Z.eqb_eq in H; subst; constructor.
  - inversion H; apply Z.eqb_refl.
  - apply sym_match_eq in H; subst; constructor.
  - inversion H; subst; apply sym_match_refl.
  - apply andb_prop in H; apply IH1; tauto.
  - apply andb_prop in H; apply IH2; tauto.
  - inversion H; subst. apply andb_true_intro; split; [apply IH1|apply IH2]; auto.
Qed.

(** ** Scopes *)

Lemma env_get_shows : forall e k r, shows e k r <-> env_get e k = r.
Proof.
  induction e as [|[k' v'] e IH]; intros k r; cbn; split; intros H.
  - inversion H; auto.
  - subst; constructor.
  - inversion H; subst.
    + rewrite sym_match_refl; auto.
    + rewrite sym_match_neq by auto. apply IH; auto.
  - destruct (sym_match k' k) eqn:E.
    + apply sym_match_eq in E; subst. constructor.
    + constructor; [|apply IH; auto]. intros ->. rewrite sym_match_refl in E; discriminate.
Qed.

Lemma env_get_cons_eq : forall e k v, env_get ((k, v) :: e) k = Some v.
Proof. intros; cbn; rewrite sym_match_refl; auto. Qed.
Lemma env_get_cons_ne : forall e k k' v, k' <> k -> env_get ((k', v) :: e) k = env_get e k.
Proof. intros; cbn; rewrite sym_match_neq by auto; auto. Qed.

Lemma env_get_app : forall a b k,
  env_get (a ++ b) k = match env_get a k with Some v => Some v | None => env_get b k end.
Proof.
  induction a as [|[k' v'] a IH]; intros b k; cbn; auto.
  destruct (sym_match k' k); auto.
Qed.

(** Binding *)

Lemma bind_app : forall arg val c, exists b, bind c arg val = b ++ c /\
  (forall c', bind c' arg val = b ++ c').
Proof.
  induction arg as [| | |xc|xz|t s|t a1 IH1 a2 IH2]; intros val c; cbn;
    try (exists []; auto; fail).
  - exists [(s, val)]; auto.
  - destruct (IH1 (car val) c) as [b1 [E1 F1]].
    destruct (IH2 (cdr val) (b1 ++ c)) as [b2 [E2 F2]].
    exists (b2 ++ b1). split.
    + rewrite E1, E2, app_assoc; auto.
    + intros c'. rewrite F1, F2, app_assoc; auto.
Qed.

Lemma bind_nil_app : forall arg val c, bind c arg val = bind [] arg val ++ c.
Proof.
  intros arg val c. destruct (bind_app arg val []) as [b [E F]].
  rewrite F, E, app_nil_r; auto.
Qed.

Lemma bind_other : forall arg val c k,
  (forall p, ~ occurs arg p k) -> env_get (bind c arg val) k = env_get c k.
Proof.
  induction arg as [| | |xc|xz|t s|t a1 IH1 a2 IH2]; intros val c k H; cbn; auto.
  - destruct (sym_match s k) eqn:E; auto. apply sym_match_eq in E; subst.
    exfalso. apply (H []). exists t; auto.
  - rewrite IH2, IH1; auto.
    + intros p Hp; apply (H (false :: p)); auto.
    + intros p Hp; apply (H (true :: p)); auto.
Qed.

Lemma part_car : forall v p, part v (false :: p) = part (car v) p.
Proof.
  intros [| | |c|z|t s|t a d] p; cbn; auto; induction p; cbn; auto.
Qed.
Lemma part_cdr : forall v p, part v (true :: p) = part (cdr v) p.
Proof.
  intros [| | |c|z|t s|t a d] p; cbn; auto; induction p; cbn; auto.
Qed.

Lemma occurs_dec : forall arg k, (exists p, occurs arg p k) \/ (forall p, ~ occurs arg p k).
Proof.
  induction arg as [| | |xc|xz|t s|t a1 IH1 a2 IH2]; intros k;
    try (right; intros [|b p]; cbn; [intros [? ?]; discriminate|tauto]).
  - destruct (sym_eq_dec s k) as [->|H].
    + left. exists []. exists t; auto.
    + right. intros [|b p]; cbn; [intros [? E]; congruence|tauto].
  - destruct (IH1 k) as [[p Hp]|H1]; [left; exists (false :: p); auto|].
    destruct (IH2 k) as [[p Hp]|H2]; [left; exists (true :: p); auto|].
    right. intros [|[|] p]; cbn; auto. intros [? E]; discriminate.
Qed.

Lemma bind_hit : forall arg val c k p,
  occurs arg p k -> (forall p', occurs arg p' k -> p' = p) ->
  env_get (bind c arg val) k = Some (part val p).
Proof.
  induction arg as [| | |xc|xz|t s|t a1 IH1 a2 IH2]; intros val c k p Ho Hu;
    try (destruct p; cbn in Ho; [destruct Ho; discriminate|contradiction]).
  - destruct p as [|b p]; cbn in Ho; [|contradiction].
    destruct Ho as [u E]; injection E as -> ->. cbn. rewrite sym_match_refl; auto.
  - destruct p as [|b p]; cbn in Ho; [destruct Ho; discriminate|].
    cbn [bind]. destruct b.
    + rewrite part_cdr. apply IH2; auto.
      intros p' Hp'. assert (E : true :: p' = true :: p) by (apply Hu; auto). congruence.
    + rewrite part_car. rewrite bind_other.
      * apply IH1; auto.
        intros p' Hp'. assert (E : false :: p' = false :: p) by (apply Hu; auto). congruence.
      * intros p' Hp'. assert (E : true :: p' = false :: p) by (apply Hu; auto). discriminate.
Qed.

(** Sorted insertion *)

Lemma sss_get_eq : forall e k v, env_get (sss e k v) k = Some v.
Proof.
  induction e as [|[k' v'] e IH]; intros k v; cbn [sss].
  - apply env_get_cons_eq.
  - unfold sym_compare. destruct (memcmp k' k) eqn:E.
    + apply env_get_cons_eq.
    + rewrite env_get_cons_ne; auto. intros ->. rewrite memcmp_refl in E; discriminate.
    + apply env_get_cons_eq.
Qed.

Lemma sss_get_ne : forall e k v k', k <> k' -> env_get (sss e k v) k' = env_get e k'.
Proof.
  induction e as [|[k0 v0] e IH]; intros k v k' H; cbn [sss].
  - apply env_get_cons_ne; auto.
  - unfold sym_compare. destruct (memcmp k0 k) eqn:E.
    + apply memcmp_eq in E; subst. rewrite !env_get_cons_ne; auto.
    + cbn. destruct (sym_match k0 k'); auto.
    + rewrite env_get_cons_ne; auto.
Qed.

Lemma merge_app : forall a b root, merge root (a ++ b) = merge (merge root a) b.
Proof. induction a as [|[k v] a IH]; intros b root; cbn; auto. Qed.

Lemma merge_get : forall alst root k,
  env_get (merge root alst) k =
  match env_get (rev alst) k with Some v => Some v | None => env_get root k end.
Proof.
  intros alst. induction alst as [|[k' v'] alst IH] using rev_ind; intros root k; auto.
  rewrite merge_app. cbn [merge]. rewrite rev_app_distr. cbn [rev app].
  destruct (sym_eq_dec k' k) as [->|H].
  - rewrite sss_get_eq, env_get_cons_eq; auto.
  - rewrite sss_get_ne, env_get_cons_ne; auto.
Qed.

Lemma last_of_rev : forall l k r, last_of l k r -> env_get (rev l) k = r.
Proof.
  intros l k r H; induction H; auto.
  - rewrite rev_app_distr. apply env_get_cons_eq.
  - rewrite rev_app_distr. cbn [rev app]. rewrite env_get_cons_ne; auto.
Qed.

Lemma sss_head : forall e k v k0, (forall v0 r, e = (k0, v0) :: r -> True) ->
  exists k1 v1 r, sss e k v = (k1, v1) :: r /\
    (k1 = k \/ exists v0 r0, e = (k1, v0) :: r0).
Proof.
  intros [|[k' v'] e] k v k0 _; cbn [sss].
  - exists k, v, []; auto.
  - destruct (sym_compare k' k).
    + exists k, v, e; auto.
    + exists k', v', (sss e k v). split; auto. right; eauto.
    + exists k, v, ((k', v') :: e); auto.
Qed.

Lemma increasing_tail : forall p e, increasing (p :: e) -> increasing e.
Proof. intros p e H; inversion H; subst; auto; constructor. Qed.

Lemma sss_increasing : forall e k v, increasing e -> increasing (sss e k v).
Proof.
  induction e as [|[k' v'] e IH]; intros k v H; cbn [sss].
  - constructor.
  - unfold sym_compare. destruct (memcmp k' k) eqn:E.
    + apply memcmp_eq in E; subst. inversion H; subst; constructor; auto.
    + apply memcmp_lt in E.
      pose proof (IH k v (increasing_tail _ _ H)) as Hs.
      destruct (sss_head e k v k') as [k1 [v1 [r [Er Hk]]]]; auto.
      rewrite Er in *. constructor; auto.
      destruct Hk as [->|[v0 [r0 ->]]]; auto. inversion H; subst; auto.
    + apply memcmp_gt in E. constructor; auto.
Qed.

Lemma merge_increasing : forall alst root, increasing root -> increasing (merge root alst).
Proof.
  induction alst as [|[k v] alst IH]; intros root H; cbn; auto.
  apply IH, sss_increasing, H.
Qed.

Lemma increasing_lt_all : forall e k v, increasing ((k, v) :: e) ->
  Forall (fun p => sym_lt k (fst p)) e.
Proof.
  induction e as [|[k' v'] e IH]; intros k v H; constructor.
  - inversion H; subst; auto.
  - inversion H as [| |? ? ? ? ? Hlt Hi]; subst.
    specialize (IH k' v' Hi). eapply Forall_impl; [|exact IH].
    intros [k2 v2] Hl; cbn in *. eapply sym_lt_trans; eauto.
Qed.

Lemma increasing_NoDup : forall e, increasing e -> NoDup (map fst e).
Proof.
  induction e as [|[k v] e IH]; intros H; cbn; constructor.
  - intros Hin. apply in_map_iff in Hin. destruct Hin as [[k2 v2] [E Hin]].
    cbn in E; subst. pose proof (increasing_lt_all _ _ _ H) as HA.
    rewrite Forall_forall in HA. apply HA in Hin. cbn in Hin.
    apply (sym_lt_irrefl _ Hin).
  - apply IH. eapply increasing_tail; eauto.
Qed.

(** Two sorted scopes showing the same values are equal. *)
Lemma env_get_none_lt : forall e k, Forall (fun p => sym_lt k (fst p)) e -> env_get e k = None.
Proof.
  induction e as [|[k' v'] e IH]; intros k H; cbn; auto.
  inversion H; subst. rewrite sym_match_neq; auto.
  intros ->. cbn in *. eapply sym_lt_irrefl; eauto.
Qed.

Lemma increasing_ext : forall a b, increasing a -> increasing b ->
  (forall k, env_get a k = env_get b k) -> a = b.
Proof.
  induction a as [|[k v] a IH]; intros [|[k' v'] b] Ha Hb H; auto.
  - specialize (H k'). rewrite env_get_cons_eq in H. discriminate.
  - specialize (H k). rewrite env_get_cons_eq in H. discriminate.
  - pose proof (increasing_lt_all _ _ _ Ha) as HA.
    pose proof (increasing_lt_all _ _ _ Hb) as HB.
    assert (k = k') as ->.
    { destruct (sym_lt_total k k') as [E|[L|L]]; auto; exfalso.
      - specialize (H k). rewrite env_get_cons_eq in H.
        rewrite env_get_none_lt in H; [discriminate|].
        constructor; cbn; auto. eapply Forall_impl; [|exact HB].
        intros p Hp; cbn in Hp. eapply sym_lt_trans; eauto.
      - specialize (H k'). rewrite env_get_cons_eq in H.
        rewrite env_get_none_lt in H; [discriminate|].
        constructor; cbn; auto. eapply Forall_impl; [|exact HA].
        intros p Hp; cbn in Hp. eapply sym_lt_trans; eauto. }
    pose proof (H k') as Hk. rewrite !env_get_cons_eq in Hk. injection Hk as ->.
    f_equal. apply IH; eauto using increasing_tail.
    intros j. destruct (sym_eq_dec k' j) as [<-|Hn].
    + rewrite !env_get_none_lt; auto.
    + specialize (H j). rewrite !env_get_cons_ne in H; auto.
Qed.

(** ** Application check *)

Lemma may_apply_fixed : forall args vals,
  may_apply (arg_list args Nil) (mk_list vals) = (length vals <=? length args)%nat.
Proof.
  induction args as [|x args IH]; intros [|v vals]; cbn; auto.
Qed.

Lemma may_apply_rest : forall args t s vals,
  may_apply (arg_list args (Sym t s)) (mk_list vals) = true.
Proof. induction args as [|x args IH]; intros t s [|v vals]; cbn; auto. Qed.

(** ** Escapes *)

Lemma process_escapes_app : forall s esc res,
  process_escapes s esc res = res ++ process_escapes s esc [].
Proof.
  induction s as [|c s IH]; intros esc res; cbn [process_escapes].
  - rewrite app_nil_r; auto.
  - destruct esc.
    + rewrite IH, (IH _ ([] ++ _)). rewrite <- app_assoc. auto.
    + destruct (Z.eqb c 92); [apply IH|].
      rewrite IH, (IH _ ([] ++ _)). rewrite <- app_assoc. auto.
Qed.

Lemma process_escapes_unescape : forall s, unescape s (process_escapes s false []).
Proof.
  assert (H : forall n s, (length s <= n)%nat -> unescape s (process_escapes s false [])).
  { induction n as [|n IH]; intros [|c s] Hl; cbn [length] in Hl; try lia;
      try (cbn; constructor; fail).
    cbn [process_escapes]. destruct (Z.eqb_spec c 92) as [->|Hc].
    - destruct s as [|d s]; [constructor|]. cbn [process_escapes length] in *.
      rewrite process_escapes_app. cbn [app].
      assert (Hs : unescape s (process_escapes s false [])) by (apply IH; lia).
      change (chz "n") with 110%Z. change (chz "t") with 116%Z.
      destruct (Z.eqb_spec d 110) as [->|H1]; [constructor; auto|].
      destruct (Z.eqb_spec d 116) as [->|H2]; constructor; auto.
    - rewrite process_escapes_app. cbn [app]. constructor; auto. apply IH; lia. }
  intros s; eapply H; eauto.
Qed.

Lemma unescape_fun : forall s a b, unescape s a -> unescape s b -> a = b.
Proof.
  intros s a b Ha; revert b; induction Ha; intros b Hb; inversion Hb; subst; auto;
    try congruence; f_equal; auto.
Qed.

Lemma unescape_length : forall s r, unescape s r -> (length r <= length s)%nat.
Proof. intros s r H; induction H; cbn; lia. Qed.

Lemma unescape_plain : forall s, ~ In 92%Z s -> unescape s s.
Proof.
  induction s as [|c s IH]; intros H; constructor; cbn in H; auto.
Qed.

Lemma process_escapes_plain : forall s, ~ In 92%Z s -> process_escapes s false [] = s.
Proof.
  intros s H. eapply unescape_fun; [apply process_escapes_unescape|].
  apply unescape_plain; auto.
Qed.

(** ** [str] and [sym] *)

Definition is_byte (b : N) : Prop := (b < 256)%N.

Lemma schar_byte : forall b, is_byte b -> byte_of_char (schar b) = b.
Proof.
  intros b H. unfold byte_of_char, schar, is_byte in *.
  destruct (Z.ltb_spec (Z.of_N b) 128).
  - rewrite Z.mod_small by lia. lia.
  - replace (Z.of_N b - 256)%Z with (Z.of_N b + (-1) * 256)%Z by lia.
    rewrite Z.mod_add by lia. rewrite Z.mod_small by lia. lia.
Qed.

Lemma byte_schar : forall c, (-128 <= c < 128)%Z -> schar (byte_of_char c) = c.
Proof.
  intros c H. unfold byte_of_char, schar.
  rewrite Z2N.id by (apply Z.mod_pos_bound; lia).
  destruct (Z.lt_ge_cases c 0) as [Hn|Hp].
  - assert (E : (c mod 256 = c + 256)%Z).
    { replace c with (c + 256 + (-1) * 256)%Z at 1 by lia.
      rewrite Z.mod_add by lia. apply Z.mod_small; lia. }
    rewrite E. destruct (Z.ltb_spec (c + 256) 128); lia.
  - rewrite Z.mod_small by lia. destruct (Z.ltb_spec c 128); lia.
Qed.

Lemma schar_92 : forall b, is_byte b -> schar b = 92%Z -> b = 92%N.
Proof.
  intros b H E. unfold schar, is_byte in *. destruct (Z.ltb_spec (Z.of_N b) 128); lia.
Qed.

Lemma make_string_plain : forall s, Forall is_byte s -> ~ In 92%N s ->
  make_string s = mk_chars (map schar s).
Proof.
  intros s Hb Hn. unfold make_string, make_string_chars.
  rewrite process_escapes_plain; auto. intros H. apply in_map_iff in H.
  destruct H as [b [E Hin]]. rewrite Forall_forall in Hb.
  apply schar_92 in E; auto. subst; auto.
Qed.

Lemma is_string_chars : forall l, is_string (mk_chars l) = true.
Proof. induction l; cbn; auto. Qed.

Lemma cstring_bytes_chars : forall l n,
  cstring_bytes n (mk_chars l) = firstn n (map byte_of_char l).
Proof.
  unfold mk_chars.
  induction l as [|c l IH]; intros [|n]; cbn; auto. rewrite IH; auto.
Qed.

Lemma map_id_on : forall (A : Type) (f : A -> A) l, Forall (fun x => f x = x) l -> map f l = l.
Proof. induction l; cbn; intros H; auto. inversion H; subst. rewrite IHl by auto. congruence. Qed.

Lemma map_byte_schar : forall l, Forall is_byte l -> map byte_of_char (map schar l) = l.
Proof.
  induction l as [|b l IH]; cbn; intros H; auto. inversion H; subst.
  rewrite schar_byte, IH; auto.
Qed.

Lemma map_schar_byte : forall l, Forall (fun c => -128 <= c < 128)%Z l ->
  map schar (map byte_of_char l) = l.
Proof.
  induction l as [|b l IH]; cbn; intros H; auto. inversion H; subst.
  rewrite byte_schar, IH; auto.
Qed.

Lemma cstr_id : forall s, Forall (fun b => b <> 0%N) s -> cstr s = s.
Proof.
  intros s H. rewrite <- (app_nil_r s) at 1. rewrite cstr_app_nul by auto.
  cbn. apply app_nil_r.
Qed.

Lemma sym_str_inverse : forall t name,
  Forall is_byte name -> Forall (fun b => b <> 0%N) name -> ~ In 92%N name ->
  name <> [] ->
  exists s, str_of (Sym t (mk_symbol name)) = Some s /\ sym_of s = Symb (mk_symbol name).
Proof.
  intros t name Hb Hz Hn Hne. unfold str_of. cbn [sym_field].
  eexists; split; [reflexivity|].
  change (cstr (mk_symbol name)) with (sym_text (mk_symbol name)).
  rewrite sym_text_mk, (cstr_id name) by auto.
  set (nm := firstn 16 name).
  assert (Hb' : Forall is_byte nm) by (apply Forall_firstn; auto).
  assert (Hn' : ~ In 92%N nm).
  { intros H. apply Hn. unfold nm in H. rewrite <- (firstn_skipn 16 name).
    apply in_or_app; auto. }
  rewrite make_string_plain by auto. unfold sym_of.
  assert (Hp : is_pair (mk_chars (map schar nm)) = true).
  { unfold nm. destruct name as [|b r]; [congruence|]. reflexivity. }
  rewrite Hp, is_string_chars. cbn [andb].
  rewrite cstring_bytes_chars, map_byte_schar by auto.
  f_equal. apply mk_symbol_eq. unfold symbol_length.
  rewrite !(cstr_id name) by auto.
  rewrite cstr_id.
  - rewrite firstn_firstn. cbn [Nat.min]. unfold nm. rewrite firstn_firstn. auto.
  - apply Forall_firstn, Forall_firstn; auto.
Qed.

Lemma str_sym_inverse : forall l,
  Forall (fun c => -128 <= c < 128 /\ c <> 0 /\ c <> 92)%Z l ->
  (1 <= length l <= 16)%nat ->
  str_of (sym_of (mk_chars l)) = Some (mk_chars l).
Proof.
  intros l Hl Hlen. unfold sym_of.
  assert (Hp : is_pair (mk_chars l) = true).
  { destruct l; cbn in *; auto; lia. }
  rewrite Hp, is_string_chars. cbn [andb].
  rewrite cstring_bytes_chars. unfold str_of. cbn [sym_field]. f_equal.
  change (cstr (mk_symbol ?x)) with (sym_text (mk_symbol x)). rewrite sym_text_mk.
  unfold symbol_length.
  assert (Hf : firstn 16 (map byte_of_char l) = map byte_of_char l).
  { apply firstn_all2. rewrite map_length. lia. }
  rewrite Hf.
  assert (Hne : Forall (fun b => b <> 0%N) (map byte_of_char l)).
  { apply Forall_forall. intros b Hb. apply in_map_iff in Hb.
    destruct Hb as [c [<- Hc]]. rewrite Forall_forall in Hl. apply Hl in Hc.
    intros E. assert (schar (byte_of_char c) = schar 0%N) by congruence.
    rewrite byte_schar in H by lia. unfold schar in H. cbn in H. lia. }
  rewrite cstr_id by auto. etransitivity; [apply f_equal; exact Hf|].
  rewrite make_string_plain.
  - rewrite map_schar_byte; auto. eapply Forall_impl; [|exact Hl]. cbn; intros; lia.
  - apply Forall_forall. intros b Hb. apply in_map_iff in Hb.
    destruct Hb as [c [<- Hc]]. unfold is_byte, byte_of_char.
    pose proof (Z.mod_pos_bound c 256). lia.
  - intros Hb. apply in_map_iff in Hb. destruct Hb as [c [E Hc]].
    rewrite Forall_forall in Hl. apply Hl in Hc.
    assert (schar (byte_of_char c) = schar 92%N) by congruence.
    rewrite byte_schar in H by lia. unfold schar in H. cbn in H. lia.
Qed.

(** ** Statements in terms of the specifications *)

Lemma equ_equivalence :
  (forall a, equ a a = true) /\
  (forall a b, equ a b = true -> equ b a = true) /\
  (forall a b c, equ a b = true -> equ b c = true -> equ a c = true).
Proof.
  ands.
  - intros a; apply equ_same, same_refl.
  - intros a b H; apply equ_same, same_symm, equ_same, H.
  - intros a b c H K; apply equ_same. apply equ_same in H, K. eapply same_trans; eauto.
Qed.

Lemma equ_num_chr : forall z, equ (Num z) (Chr z) = false.
Proof. reflexivity. Qed.

Lemma neq_same : forall a b, neq a b = true <-> ~ same a b.
Proof.
  intros a b. rewrite neq_equ, <- equ_same. destruct (equ a b); cbn; split; congruence.
Qed.

Lemma bind_part : forall pat val c k p,
  occurs pat p k -> (forall p', occurs pat p' k -> p' = p) ->
  shows (bind c pat val) k (Some (part val p)).
Proof. intros. apply env_get_shows. apply bind_hit; auto. Qed.

Lemma bind_frame : forall pat val c k r,
  (forall p, ~ occurs pat p k) -> shows c k r -> shows (bind c pat val) k r.
Proof.
  intros pat val c k r H S. apply env_get_shows. rewrite bind_other by auto.
  apply env_get_shows; auto.
Qed.

Lemma merge_map : forall root alst k r,
  last_of alst k r ->
  shows (merge root alst) k (match r with Some v => Some v | None => env_get root k end).
Proof.
  intros root alst k r H. apply env_get_shows. rewrite merge_get.
  rewrite (last_of_rev _ _ _ H). auto.
Qed.

Lemma merge_sorted : forall root alst,
  increasing root -> increasing (merge root alst) /\ NoDup (map fst (merge root alst)).
Proof.
  intros root alst H. pose proof (merge_increasing alst root H).
  split; auto using increasing_NoDup.
Qed.

Lemma sorted_canonical : forall a b, increasing a -> increasing b ->
  (forall k r, shows a k r <-> shows b k r) -> a = b.
Proof.
  intros a b Ha Hb H. apply increasing_ext; auto. intros k.
  symmetry. apply env_get_shows. apply H. apply env_get_shows. auto.
Qed.

Lemma may_apply_fixed_iff : forall args vals,
  may_apply (arg_list args Nil) (mk_list vals) = true <-> (length vals <= length args)%nat.
Proof. intros. rewrite may_apply_fixed. apply Nat.leb_le. Qed.

Lemma escapes_exact : forall s,
  unescape s (process_escapes s false []) /\
  (forall r, unescape s r -> r = process_escapes s false []).
Proof.
  intros s. split; [apply process_escapes_unescape|].
  intros r H. eapply unescape_fun; eauto using process_escapes_unescape.
Qed.

Lemma escapes_length : forall s, (length (process_escapes s false []) <= length s)%nat.
Proof. intros s. apply unescape_length, process_escapes_unescape. Qed.

Lemma sym_compare_spec : forall a b,
  (sym_compare a b = Lt <-> sym_lt a b) /\
  (sym_compare a b = Eq <-> a = b) /\
  (sym_compare a b = Gt <-> sym_lt b a).
Proof. intros a b. ands; [apply memcmp_lt|apply memcmp_eq|apply memcmp_gt]. Qed.

Lemma sym_total_order :
  (forall a, ~ sym_lt a a) /\
  (forall a b c, sym_lt a b -> sym_lt b c -> sym_lt a c) /\
  (forall a b, a = b \/ sym_lt a b \/ sym_lt b a).
Proof. ands; [apply sym_lt_irrefl|apply sym_lt_trans|apply sym_lt_total]. Qed.

Lemma str_sym_refuted :
  (exists s, str_of (Symb (sy "a\b")) = Some s /\ sym_of s <> Symb (sy "a\b")) /\
  (exists l, (1 <= length l <= 16)%nat /\ Forall (fun c => 0 < c < 128)%Z l /\
             str_of (sym_of (mk_chars l)) <> Some (mk_chars l)).
Proof.
  split.
  - eexists. split; [reflexivity|]. vm_compute. discriminate.
  - exists [92; 97]%Z. ands.
    + cbn; lia.
    + cbn; lia.
    + repeat constructor; lia.
    + vm_compute. discriminate.
Qed.
