(** * Sem3: currying, [let], assignments, definitions, [match], arithmetic. *)
From Verif Require Import Value ValueSpec ValueProofs Tails Print Eval EvalSpec EvalProofs Sem1 Sem2.
Open Scope nat_scope.

(** ** Names of a parameter list *)

Lemma occurs_mk_list : forall ps i p q k, nth_error ps i = Some p -> occurs p q k ->
  occurs (mk_list ps) (repeat true i ++ false :: q) k.
Proof.
  induction ps as [|x ps IH]; intros [|i] p q k E H; cbn in *; try discriminate.
  - injection E as ->; auto.
  - eapply IH; eauto.
Qed.
Lemma bound_all_names : forall ps vs k, In k (map fst (bound_all ps vs [])) ->
  exists i p q, nth_error ps i = Some p /\ occurs p q k.
Proof.
  induction ps as [|x ps IH]; intros [|v vs] k H; cbn [bound_all] in H; try (cbn in H; tauto).
  rewrite bound_all_app, map_app in H. apply in_app_or in H. destruct H as [H|H].
  - destruct (IH _ _ H) as [i [p [q [E X]]]]. exists (S i), p, q. auto.
  - destruct (occurs_dec x k) as [[q Hq]|N].
    + exists 0, x, q. auto.
    + assert (E := bind_other x v [] k N). apply env_get_none in E. tauto.
Qed.
Lemma repeat_true_inj : forall i j (p q : list bool), repeat true i ++ false :: p = repeat true j ++ false :: q ->
  i = j /\ p = q.
Proof.
  induction i as [|i IH]; intros [|j] p q H; cbn in H; try discriminate.
  - injection H as ->; auto.
  - injection H as H. destruct (IH _ _ _ H); subst; auto.
Qed.
Lemma linear_each : forall ps, linear (mk_list ps) -> Forall linear ps.
Proof.
  intros ps L. apply Forall_forall. intros p Hp k q1 q2 H1 H2.
  apply In_nth_error in Hp. destruct Hp as [i E].
  assert (X := L k _ _ (occurs_mk_list ps i p q1 k E H1) (occurs_mk_list ps i p q2 k E H2)).
  apply repeat_true_inj in X. tauto.
Qed.
Lemma linear_disjoint : forall ps1 ps2 vs1 vs2 k, linear (mk_list (ps1 ++ ps2)) ->
  In k (map fst (bound_all ps1 vs1 [])) -> ~ In k (map fst (bound_all ps2 vs2 [])).
Proof.
  intros ps1 ps2 vs1 vs2 k L H1 H2.
  apply bound_all_names in H1; apply bound_all_names in H2.
  destruct H1 as [i [p [q [E X]]]], H2 as [j [p' [q' [E' X']]]].
  assert (A : nth_error (ps1 ++ ps2) i = Some p).
  { rewrite nth_error_app1; auto. apply nth_error_Some. congruence. }
  assert (B : nth_error (ps1 ++ ps2) (length ps1 + j) = Some p').
  { rewrite nth_error_app2 by lia. rewrite Nat.add_comm, Nat.add_sub; auto. }
  assert (C := L k _ _ (occurs_mk_list _ _ _ _ _ A X) (occurs_mk_list _ _ _ _ _ B X')).
  apply repeat_true_inj in C. assert (i < length ps1) by (apply nth_error_Some; congruence). lia.
Qed.

Lemma merge_curried : forall c d b1 b2, increasing c -> NoDup (map fst d) -> 
  (forall k, In k (map fst b1) -> ~ In k (map fst b2)) ->
  (forall k, In k (map fst b1) -> ~ In k (map fst d)) ->
  merge (merge c d) (b2 ++ b1) = merge (merge c (b1 ++ d)) b2.
Proof.
  intros c d b1 b2 I N D1 D2. apply increasing_ext.
  - apply merge_increasing, merge_increasing; auto.
  - apply merge_increasing, merge_increasing; auto.
  - intro k. rewrite !merge_get, !rev_app_distr, !env_get_app.
    rewrite (get_rev_NoDup d) by auto.
    destruct (env_get (rev b1) k) eqn:E.
    2: { destruct (env_get (rev b2) k); auto. destruct (env_get d k); auto. }
    assert (H : In k (map fst b1)).
    { apply env_get_in in E. apply in_rev in E. apply in_map_iff. exists (k, a); auto. }
    assert (X : env_get (rev b2) k = None).
    { apply env_get_none. rewrite map_rev. intro Y. apply in_rev in Y. apply (D1 k); auto. }
    assert (Y : env_get d k = None). { apply env_get_none. auto. }
    rewrite X, Y; auto.
Qed.

Lemma andthen_l {A B} (P P' : out A -> Prop) (Q : A -> world -> out B -> Prop) o :
  (forall x, P x <-> P' x) -> (andthen P Q o <-> andthen P' Q o).
Proof. intro H. apply andthen_iff; [auto|intros; tauto]. Qed.

Section Sem.
Variable O : oracle.
Notation Runs := (runs O).

Lemma runs_to : forall c x w v w1, Runs c x w (Ret v w1) -> forall o, Runs c x w o <-> o = Ret v w1.
Proof.
  intros c x w v w1 H o. split; [intro X; apply (runs_unique O c x w); auto|intros ->; auto].
Qed.

(** C30 *)
Lemma symbol_runs : forall c t k w o, Runs c (Sym t k) w o <-> exists v, o = Ret v w /\ means c w k v.
Proof.
  intros. rewrite runs_sym. split.
  - intros ->. unfold lookup. eexists. split; [reflexivity|]. apply means_lookup. reflexivity.
  - intros [v [-> H]]. apply means_lookup in H. auto.
Qed.
Lemma means_exists : forall c w k, exists v, means c w k v.
Proof. intros. eexists. apply means_lookup. reflexivity. Qed.
Lemma means_unique : forall c w k v v', means c w k v -> means c w k v' -> v = v'.
Proof. intros c w k v v' H H'. apply means_lookup in H, H'. congruence. Qed.

(** C31 *)
Lemma too_many : forall c t h w f w1 entries vs o,
  Runs c h w (Ret f w1) -> is_func f = true -> car f = arg_list entries Nil ->
  length entries < length vs ->
  (Runs c (Pair t h (mk_list vs)) w o <-> o = Ret Nil w1).
Proof.
  intros c t h w f w1 entries vs o H F E L. rewrite (runs_call O c t h _ w f w1 o H F).
  rewrite Rfunc_eq, E, may_apply_fixed.
  assert (X : (length vs <=? length entries) = false) by (apply Nat.leb_gt; auto).
  rewrite X. tauto.
Qed.

(** Partial application *)
Lemma partial_runs : forall c t h ps1 ps2 tail d body es w w1 o,
  Runs c h w (Ret (lam (arg_list (ps1 ++ ps2) tail) d body) w1) -> body <> [] ->
  tail = Nil \/ is_symb tail = true -> ps2 <> [] -> length es = length ps1 ->
  (Runs c (Pair t h (mk_list es)) w o <->
   andthen (runs_list O c es w1) (fun vs w2 o =>
     o = Ret (lam (arg_list ps2 tail) (bound_all ps1 vs [] ++ d) body) w2) o).
Proof.
  intros c t h ps1 ps2 tail d body es w w1 o H B T P E.
  rewrite (runs_call O c t h _ w _ w1 o H) by (apply lam_func; auto).
  rewrite Rfunc_eq. unfold lam. cbn [car cdr]. rewrite arg_list_app.
  rewrite <- (app_nil_r es) at 1. rewrite may_apply_tail by auto.
  destruct ps2 as [|p ps2]; [congruence|]. cbn [mk_list arg_list may_apply].
  rewrite (andthen_l _ (andthen (runs_list O c es w1) (fun vs w2 o =>
      o = Ret (bound_all ps1 vs [], arg_list (p :: ps2) tail) w2)) _ o).
  2: { intro x. rewrite <- (app_nil_r es) at 1.
       change (Cons p (arg_list ps2 tail)) with (arg_list (p :: ps2) tail).
       rewrite args_app by auto. apply andthen_iff; [tauto|]. intros vs w2 o2. apply Rargs_out. reflexivity. }
  rewrite andthen_assoc. apply andthen_iff; [tauto|]. intros vs w2 o2.
  rewrite andthen_ret. cbn [fst snd arg_list is_null]. rewrite env_of_atom_of_env. tauto.
Qed.

(** C32 *)
Lemma curry : forall c t h ps1 ps2 d body es1 es2 w w1,
  Runs c h w (Ret (lam (mk_list (ps1 ++ ps2)) d body) w1) -> body <> [] -> is_tail_call h = false ->
  linear (mk_list (ps1 ++ ps2)) -> NoDup (map fst d) -> increasing c ->
  (forall k p, occurs (mk_list ps1) p k -> shows d k None) ->
  length es1 = length ps1 -> es2 <> [] -> length es2 <= length ps2 ->
  (forall vs w2 ls S o, runs_list O c (es1 ++ es2) w1 (Ret vs w2) -> layers (ps1 ++ ps2) vs ls ->
     scope (ls ++ [d; c]) S -> runs_body O S body Nil w2 o -> quiet o) ->
  forall o, Runs c (Pair t (Cons h (mk_list es1)) (mk_list es2)) w o <->
            Runs c (Pair t h (mk_list (es1 ++ es2))) w o.
Proof.
  intros c t h ps1 ps2 d body es1 es2 w w1 H B T L N I D E1 NE E2 Q o.
  assert (P2 : ps2 <> []). { intros ->. destruct es2; [congruence|cbn in E2; lia]. }
  rewrite mk_arg_list in H.
  (* direct call *)
  rewrite (runs_call O c t h _ w _ w1 o H) by (apply lam_func; auto).
  rewrite Rfunc_eq. unfold lam at 1 2 3 4 5 6 7 8 9. cbn [car cdr].
  rewrite arg_list_app. rewrite may_apply_tail by auto.
  assert (M : may_apply (arg_list ps2 Nil) (mk_list es2) = true).
  { rewrite may_apply_fixed. apply Nat.leb_le; auto. }
  rewrite M.
  rewrite (andthen_iff _ _ _ _ o (fun x => args_app O ps1 (arg_list ps2 Nil) c es1 es2 [] w1 x E1)
             (fun a w o => iff_refl _)).
  rewrite andthen_assoc.
  (* curried call *)
  rewrite runs_pair.
  rewrite (andthen_iff _ _ _ _ o (fun x => partial_runs c false h ps1 ps2 Nil d body es1 w w1 x H B
             (or_introl eq_refl) P2 E1) (fun a w o => iff_refl _)).
  rewrite andthen_assoc.
  (* common first part *)
  assert (X : forall (P : out (list atom) -> Prop) Q Q' (o : out atom),
    (forall a w, P (Ret a w) -> (Q a w o <-> Q' a w o)) -> (andthen P Q o <-> andthen P Q' o)).
  { clear. intros P Q Q' o Z. unfold andthen. split; (intros [[a [w [U V]]]|[e [U V]]]; [left|right]).
    - exists a, w. split; auto. apply Z; auto.
    - exists e; auto.
    - exists a, w. split; auto. apply Z; auto.
    - exists e; auto. }
  apply X. intros vs1 w2 R1. rewrite andthen_ret.
  rewrite lam_func by auto.
  rewrite Rfunc_eq. unfold lam. cbn [car cdr]. rewrite M.
  assert (V1 := runs_list_len O _ _ _ _ _ R1).
  set (b1 := bound_all ps1 vs1 []) in *.
  destruct (Nat.eq_dec (length es2) (length ps2)) as [EQ|NQ].
  - (* all arguments are there *)
    rewrite <- (app_nil_r es2).
    rewrite (andthen_iff _ _ _ _ o (fun x => args_app O ps2 Nil c es2 [] [] w2 x EQ)
             (fun a w o => iff_refl _)).
    rewrite (andthen_iff _ _ _ _ o (fun x => args_app O ps2 Nil c es2 [] b1 w2 x EQ)
             (fun a w o => iff_refl _)).
    rewrite !andthen_assoc. apply X. intros vs2 w3 R2.
    rewrite (andthen_iff _ _ _ _ o (fun x => Rargs_nil O c _ _ w3 x) (fun a w o => iff_refl _)).
    rewrite andthen_ret.
    rewrite (andthen_iff _ _ _ _ o (fun x => Rargs_nil O c _ _ w3 x) (fun a w o => iff_refl _)).
    rewrite andthen_ret.
    cbn [fst snd is_null]. rewrite !env_of_atom_of_env, T. cbn [is_tail_call].
    assert (V2 := runs_list_len O _ _ _ _ _ R2).
    set (b2 := bound_all ps2 vs2 []).
    assert (EB : bound_all ps2 vs2 b1 = b2 ++ b1) by apply bound_all_app. rewrite EB.
    assert (D1 : forall k, In k (map fst b1) -> ~ In k (map fst b2)).
    { intros k. apply linear_disjoint; auto. }
    assert (D2 : forall k, In k (map fst b1) -> ~ In k (map fst d)).
    { intros k Hk. apply bound_all_names in Hk. destruct Hk as [i [p [q [Z1 Z2]]]].
      apply env_get_none. apply env_get_shows.
      apply (D k (repeat true i ++ false :: q)). eapply occurs_mk_list; eauto. }
    assert (ME := merge_curried c d b1 b2 I N D1 D2).
    destruct body as [|x body]; [congruence|]. cbn [mk_list].
    change (Cons x (mk_list body)) with (mk_list (x :: body)).
    assert (QQ : forall o, Rprog O (merge (merge c d) (b2 ++ b1)) (mk_list (x :: body)) Nil w3 o -> quiet o).
    { intros o1 H1. apply Rprog_list in H1.
      assert (LV : length (vs1 ++ vs2) = length (ps1 ++ ps2)).
      { rewrite !app_length. lia. }
      destruct (layers_exist (ps1 ++ ps2) (vs1 ++ vs2) (linear_each _ L) LV) as [ls HL].
      apply (Q (vs1 ++ vs2) w3 ls (merge (merge c d) (b2 ++ b1)) o1); auto.
      - apply runs_list_app. left. exists vs1, w2. split; auto. left. exists vs2, w3. auto.
      - assert (Y := merge2_scope c d (b2 ++ b1) I N). apply scope_iff in Y. destruct Y as [Y1 Y2].
        apply scope_iff. split; auto. intro k. rewrite Y2. cbn [lget]. rewrite lget_app. cbn [lget].
        assert (EA : b2 ++ b1 = bound_all (ps1 ++ ps2) (vs1 ++ vs2) []).
        { rewrite <- EB. unfold b1. clear -V1 E1.
          assert (LL : length vs1 = length ps1) by congruence. clear V1 E1.
          generalize (@nil (symbol * atom)). revert vs1 LL.
          induction ps1 as [|p ps1 IH]; intros [|v vs1] LL e; cbn in LL; try discriminate; auto.
          cbn [app bound_all]. apply IH. congruence. }
        rewrite EA, (bound_all_get _ _ _ HL (linear_each _ L)). cbn [rev env_get]. auto. }
    rewrite (Rloop_quiet O (merge c d) h) by auto.
    rewrite (Rloop_quiet O (merge c (b1 ++ d))) by (rewrite <- ME; auto).
    rewrite ME. tauto.
  - (* some arguments are still missing *)
    assert (exists pa pb, ps2 = pa ++ pb /\ length es2 = length pa /\ pb <> []) as [pa [pb [-> [EA EB]]]].
    { exists (firstn (length es2) ps2), (skipn (length es2) ps2). split; [symmetry; apply firstn_skipn|].
      rewrite firstn_length. split; [lia|]. intro Z. assert (Y := skipn_length (length es2) ps2).
      rewrite Z in Y. cbn in Y. lia. }
    rewrite arg_list_app. rewrite <- (app_nil_r es2).
    rewrite (andthen_iff _ _ _ _ o (fun x => args_app O pa (arg_list pb Nil) c es2 [] [] w2 x EA)
             (fun a w o => iff_refl _)).
    rewrite (andthen_iff _ _ _ _ o (fun x => args_app O pa (arg_list pb Nil) c es2 [] b1 w2 x EA)
             (fun a w o => iff_refl _)).
    rewrite !andthen_assoc. apply X. intros vs2 w3 R2.
    assert (SP : is_symb (arg_list pb Nil) = false) by (destruct pb; reflexivity).
    rewrite (andthen_iff _ _ _ _ o (fun x => Rargs_out O c _ _ w3 x SP) (fun a w o => iff_refl _)).
    rewrite andthen_ret.
    rewrite (andthen_iff _ _ _ _ o (fun x => Rargs_out O c _ _ w3 x SP) (fun a w o => iff_refl _)).
    rewrite andthen_ret.
    cbn [fst snd].
    assert (NP : is_null (arg_list pb Nil) = false) by (destruct pb; [congruence|reflexivity]).
    rewrite NP, !env_of_atom_of_env. rewrite (bound_all_app pa vs2 b1), app_assoc. tauto.
Qed.

End Sem.
