(** * TailsProofs: tail positions, marking, and the equivalence of the tail-call
    loop with ordinary recursion. *)
From Verif Require Import Value ValueSpec ValueProofs Tails Print Eval EvalSpec EvalProofs Sem1 Sem2 Sem3 Sem4 Sem5.
Open Scope nat_scope.

(** ** A map over tail expressions that marking is an instance of *)

Section Tmap.
Variable g : atom -> atom.
Fixpoint tmap (x : atom) : atom :=
  match x with
  | Pair t (Sym u s as h) d =>
      if named s "if" then
        match d with
        | Pair t1 c (Pair t2 th (Pair t3 el r)) =>
            Pair t h (Pair t1 c (Pair t2 (tmap th) (Pair t3 (tmap el) r)))
        | Pair t1 c (Pair t2 th r) => Pair t h (Pair t1 c (Pair t2 (tmap th) r))
        | _ => x
        end
      else if named s "cond" || named s "match" then
        match d with
        | Pair t1 c l =>
            Pair t h (Pair t1 c
              ((fix assoc (l : atom) : atom :=
                 match l with
                 | Pair t2 (Pair t3 k e) r => Pair t2 (Pair t3 k (tmap e)) (assoc r)
                 | Pair t2 a r => Pair t2 a (assoc r)
                 | _ => l
                 end) l))
        | _ => x
        end
      else if named s "prog" || named s "|>" then
        Pair t h
          ((fix last (l : atom) : atom :=
             match l with
             | Pair t1 a r =>
                 match r with
                 | Pair _ _ _ => Pair t1 a (last r)
                 | _ => Pair t1 (tmap a) r
                 end
             | _ => l
             end) d)
      else if named s "unless" || named s "when" then
        match d with
        | Pair t1 c (Pair t2 e r) => Pair t h (Pair t1 c (Pair t2 (tmap e) r))
        | _ => x
        end
      else g x
  | Pair _ _ _ => g x
  | _ => x
  end.
Fixpoint tassoc (l : atom) : atom :=
  match l with
  | Pair t2 (Pair t3 k e) r => Pair t2 (Pair t3 k (tmap e)) (tassoc r)
  | Pair t2 a r => Pair t2 a (tassoc r)
  | _ => l
  end.
Fixpoint tlast (l : atom) : atom :=
  match l with
  | Pair t1 a r =>
      match r with
      | Pair _ _ _ => Pair t1 a (tlast r)
      | _ => Pair t1 (tmap a) r
      end
  | _ => l
  end.
End Tmap.

Lemma mark_tmap : forall f args x, mark_expr f args x = tmap (mark_cell f args) x.
Proof. reflexivity. Qed.

Lemma tmap_clauses : forall g t u k t1 c l, In k ["cond"; "match"]%string ->
  tmap g (Pair t (Sym u (sy k)) (Pair t1 c l)) = Pair t (Sym u (sy k)) (Pair t1 c (tassoc g l)).
Proof. intros g t u k t1 c l [<-|[<-|[]]]; reflexivity. Qed.
Lemma tmap_prog : forall g t u d,
  tmap g (Pair t (Sym u (sy "prog")) d) = Pair t (Sym u (sy "prog")) (tlast g d).
Proof. reflexivity. Qed.
Lemma tmap_when : forall g t u k t1 c t2 e r, In k ["when"; "unless"]%string ->
  tmap g (Pair t (Sym u (sy k)) (Pair t1 c (Pair t2 e r))) =
  Pair t (Sym u (sy k)) (Pair t1 c (Pair t2 (tmap g e) r)).
Proof. intros g t u k t1 c t2 e r [<-|[<-|[]]]; reflexivity. Qed.
Lemma tmap_if2 : forall g t u t1 c t2 th r, is_pair r = false ->
  tmap g (Pair t (Sym u (sy "if")) (Pair t1 c (Pair t2 th r))) =
  Pair t (Sym u (sy "if")) (Pair t1 c (Pair t2 (tmap g th) r)).
Proof. intros g t u t1 c t2 th r H. destruct r; try discriminate; reflexivity. Qed.
Lemma tmap_if3 : forall g t u t1 c t2 th t3 el r,
  tmap g (Pair t (Sym u (sy "if")) (Pair t1 c (Pair t2 th (Pair t3 el r)))) =
  Pair t (Sym u (sy "if")) (Pair t1 c (Pair t2 (tmap g th) (Pair t3 (tmap g el) r))).
Proof. reflexivity. Qed.

Lemma named_neq : forall s n, s <> sy n -> named s n = false.
Proof. intros s n H. apply sym_match_neq; auto. Qed.
Lemma named_eq : forall s n, named s n = true -> s = sy n.
Proof. intros s n H. apply sym_match_eq; auto. Qed.
Lemma tmap_call : forall g t u s d, (forall k, In k keywords -> s <> sy k) ->
  tmap g (Pair t (Sym u s) d) = g (Pair t (Sym u s) d).
Proof.
  intros g t u s d H. cbn [tmap].
  rewrite !named_neq by (apply H; cbn; tauto). reflexivity.
Qed.
Lemma tmap_other : forall g t h d, is_symb h = false -> tmap g (Pair t h d) = g (Pair t h d).
Proof. intros g t h d H. destruct h; try discriminate; reflexivity. Qed.

(** What is needed of the map on leaves. *)
Definition leafy (g : atom -> atom) : Prop :=
  (forall y, is_pair y = false -> g y = y) /\
  (forall t u k d, In k keywords -> g (Pair t (Sym u (sy k)) d) = Pair t (Sym u (sy k)) d).

Fixpoint asize (x : atom) : nat :=
  match x with Pair _ a d => S (asize a + asize d) | _ => 1 end.

Lemma clause_size : forall l a e q, clause_of l a e q -> asize e < asize l.
Proof. intros l a e q H. induction H; cbn [asize]; lia. Qed.
Lemma last_size : forall l x q, last_expr l x q -> asize x < asize l.
Proof. intros l x q H. induction H; cbn [asize]; lia. Qed.

Lemma tassoc_id : forall g l, (forall a e q, clause_of l a e q -> tmap g e = e) -> tassoc g l = l.
Proof.
  intros g. induction l as [ | | | | | |t a _ d IH]; intro H; cbn [tassoc]; auto.
  rewrite IH by (intros a0 e q C; eapply H; constructor; eauto).
  destruct a; auto. rewrite (H _ _ _ (clause_here _ _ _ _ _)). auto.
Qed.
Lemma tlast_id : forall g l, (forall x q, last_expr l x q -> tmap g x = x) -> tlast g l = l.
Proof.
  intros g. induction l as [ | | | | | |t a _ d IH]; intro H; cbn [tlast]; auto.
  destruct d; try (rewrite (H a [false]) by (constructor; auto); auto; fail).
  rewrite IH; auto. intros x q C. eapply H. constructor; eauto.
Qed.
Lemma tmap_id : forall x, tmap (fun y => y) x = x.
Proof.
  intro x. assert (forall n, asize x < n -> tmap (fun y => y) x = x); [|eauto].
  intro n. revert x. induction n as [|n IH]; intros x L; [lia|].
  destruct x as [ | | | | | |t h d]; auto.
  destruct h as [ | | | | |u s|]; auto.
  assert (D : forall k, s = sy k \/ s <> sy k) by (intro k; destruct (sym_eq_dec s (sy k)); auto).
  assert (LA : forall l, asize l < n -> tassoc (fun y => y) l = l).
  { intros l Ll. apply tassoc_id. intros a e q C. apply clause_size in C. apply IH. lia. }
  assert (LL : forall l, asize l <= n -> tlast (fun y => y) l = l).
  { intros l Ll. apply tlast_id. intros y q C. apply last_size in C. apply IH. lia. }
  cbn [asize] in L.
  destruct (D "if"%string) as [->|N1].
  { destruct d as [ | | | | | |t1 c d]; auto. destruct d as [ | | | | | |t2 th r]; auto.
    cbn [asize] in L. destruct r as [ | | | | | |t3 el r].
    7: { rewrite tmap_if3. cbn [asize] in L. rewrite !IH by lia. auto. }
    all: rewrite tmap_if2, IH by (auto; lia); auto. }
  destruct (D "cond"%string) as [->|N2].
  { destruct d as [ | | | | | |t1 c d]; auto. cbn [asize] in L.
    rewrite (tmap_clauses _ _ _ "cond") by (cbn; auto). rewrite LA by lia. auto. }
  destruct (D "match"%string) as [->|N3].
  { destruct d as [ | | | | | |t1 c d]; auto. cbn [asize] in L.
    rewrite (tmap_clauses _ _ _ "match") by (cbn; auto). rewrite LA by lia. auto. }
  destruct (D "prog"%string) as [->|N4].
  { rewrite tmap_prog, LL by lia. auto. }
  destruct (D "|>"%string) as [->|N5].
  { change (Pair t (Sym u (sy "|>")) (tlast (fun y => y) d) = Pair t (Sym u (sy "|>")) d). rewrite LL by lia. auto. }
  destruct (D "when"%string) as [->|N6].
  { destruct d as [ | | | | | |t1 c d]; auto. destruct d as [ | | | | | |t2 e r]; auto. cbn [asize] in L.
    rewrite (tmap_when _ _ _ "when") by (cbn; auto). rewrite IH by lia. auto. }
  destruct (D "unless"%string) as [->|N7].
  { destruct d as [ | | | | | |t1 c d]; auto. destruct d as [ | | | | | |t2 e r]; auto. cbn [asize] in L.
    rewrite (tmap_when _ _ _ "unless") by (cbn; auto). rewrite IH by lia. auto. }
  rewrite tmap_call; auto. intros k K. cbn in K.
  repeat (destruct K as [<-|K]; [auto|]). tauto.
Qed.
Lemma id_leafy : leafy (fun y => y).
Proof. split; auto. Qed.
Lemma mark_leafy : forall f args, (forall k, In k keywords -> f <> sy k) -> leafy (mark_cell f args).
Proof.
  intros f args H. split.
  - intros y P. destruct y; try discriminate; auto.
  - intros t u k d K. cbn [mark_cell]. rewrite sym_match_neq; auto. intro E. apply (H k); auto.
Qed.

(** ** C39: marks are put at tail positions only *)

Lemma part_app : forall p q x, part x (p ++ q) = part (part x p) q.
Proof.
  induction p as [|b p IH]; intros q x; cbn [app part]; auto.
  destruct x; auto; destruct q; auto.
Qed.

(** A flagged head in a marked value. *)
Definition new_mark (x x' : atom) (f : symbol) (p : path) : Prop :=
  part x' p = Sym true f /\ exists q t u d, p = q ++ [false] /\ part x q = Pair t (Sym u f) d.

Lemma unmarked_part : forall p x, unmarked x = true -> unmarked (part x p) = true.
Proof.
  induction p as [|b p IH]; intros x H; cbn [part]; auto.
  destruct x; auto. cbn in H. apply andb_true_iff in H. destruct H as [H1 H2].
  apply andb_true_iff in H1. destruct b; apply IH; tauto.
Qed.

Lemma tassoc_part : forall g l p s, unmarked l = true ->
  part (tassoc g l) p = Sym true s ->
  exists a e q p', clause_of l a e q /\ p = q ++ p' /\ part (tmap g e) p' = Sym true s.
Proof.
  intros g. induction l as [ | | | | |u s0|t a _ d IH]; intros p s U H;
    try (destruct p; cbn in H, U; try discriminate; injection H as -> ->; discriminate).
  cbn in U. apply andb_true_iff in U. destruct U as [U Ud]. apply andb_true_iff in U. destruct U as [_ Ua].
  destruct p as [|[|] p].
  - cbn [tassoc part] in H. destruct a; discriminate.
  - assert (X : part (tassoc g d) p = Sym true s) by (cbn [tassoc] in H; destruct a; exact H).
    destruct (IH p s Ud X) as [a' [e [q [p' [C [-> Y]]]]]].
    exists a', e, (true :: q), p'. split; [constructor; auto|]. auto.
  - destruct a as [ | | | | |u s0|ta k e];
      try (cbn [tassoc part] in H; destruct p; cbn in H, Ua; try discriminate; injection H as -> ->; discriminate).
    cbn [tassoc part] in H. destruct p as [|[|] p]; [discriminate| |].
    + exists k, e, [false; true], p. split; [constructor|]. auto.
    + exfalso. cbn in Ua. apply andb_true_iff in Ua. destruct Ua as [Ua _]. apply andb_true_iff in Ua. destruct Ua as [_ Uk].
      cbn [part] in H. apply (unmarked_part p) in Uk. rewrite H in Uk. discriminate.
Qed.
Lemma tlast_part : forall g l p s, unmarked l = true ->
  part (tlast g l) p = Sym true s ->
  exists x q p', last_expr l x q /\ p = q ++ p' /\ part (tmap g x) p' = Sym true s.
Proof.
  intros g. induction l as [ | | | | |u s0|t a _ d IH]; intros p s U H;
    try (destruct p; cbn in H, U; try discriminate; injection H as -> ->; discriminate).
  cbn in U. apply andb_true_iff in U. destruct U as [U Ud]. apply andb_true_iff in U. destruct U as [_ Ua].
  destruct (is_pair d) eqn:P.
  - assert (E : tlast g (Pair t a d) = Pair t a (tlast g d)) by (destruct d; try discriminate; reflexivity).
    rewrite E in H. destruct p as [|[|] p]; cbn [part] in H; [discriminate| |].
    + destruct (IH p s Ud H) as [x [q [p' [C [-> Y]]]]].
      exists x, (true :: q), p'. split; [constructor; auto|]. auto.
    + exfalso. apply (unmarked_part p) in Ua. rewrite H in Ua. discriminate.
  - assert (E : tlast g (Pair t a d) = Pair t (tmap g a) d) by (destruct d; try discriminate; reflexivity).
    rewrite E in H. destruct p as [|[|] p]; cbn [part] in H; [discriminate| |].
    + exfalso. apply (unmarked_part p) in Ud. rewrite H in Ud. discriminate.
    + exists a, [false], p. split; [constructor; auto|]. auto.
Qed.

Lemma mark_cell_part : forall f args x p s, unmarked x = true ->
  part (mark_cell f args x) p = Sym true s ->
  s = f /\ p = [false] /\ exists t u d, x = Pair t (Sym u f) d /\ may_apply args d = true.
Proof.
  intros f args x p s U H.
  assert (N : part x p = Sym true s -> False).
  { intro E. apply (unmarked_part p) in U. rewrite E in U. discriminate. }
  destruct x as [ | | | | | |t h d]; try (exfalso; apply N; exact H).
  destruct h as [ | | | | |u s0|]; try (exfalso; apply N; exact H).
  cbn [mark_cell] in H. destruct (sym_match s0 f && may_apply args d) eqn:E; [|exfalso; apply N; exact H].
  apply andb_true_iff in E. destruct E as [E M]. apply sym_match_eq in E. subst s0.
  destruct p as [|[|] p]; cbn [part] in H; [discriminate| |].
  - exfalso. cbn in U. apply andb_true_iff in U. destruct U as [_ U].
    apply (unmarked_part p) in U. rewrite H in U. discriminate.
  - destruct p; cbn [part] in H; [|discriminate]. injection H as ->. split; auto. split; auto.
    exists t, u, d. auto.
Qed.

Lemma marks_at_tails : forall f args x p s, simple_tails x -> unmarked x = true ->
  part (mark_expr f args x) p = Sym true s ->
  s = f /\ exists q t u d, p = q ++ [false] /\ tail_at x q /\ part x q = Pair t (Sym u f) d /\
    may_apply args d = true.
Proof.
  intros f args x p s. rewrite mark_tmap.
  set (g := mark_cell f args).
  assert (W : forall n x p, asize x < n -> simple_tails x -> unmarked x = true ->
    part (tmap g x) p = Sym true s ->
    s = f /\ exists q t u d, p = q ++ [false] /\ tail_at x q /\ part x q = Pair t (Sym u f) d /\
      may_apply args d = true); [|eauto].
  clear x p. induction n as [|n IH]; intros x p L T U H; [lia|].
  assert (N : part x p = Sym true s -> False).
  { intro E. apply (unmarked_part p) in U. rewrite E in U. discriminate. }
  assert (LF : tmap g x = g x -> s = f /\ exists q t u d, p = q ++ [false] /\ tail_at x q /\
     part x q = Pair t (Sym u f) d /\ may_apply args d = true).
  { intro E. rewrite E in H. apply mark_cell_part in H; auto.
    destruct H as [-> [-> [t [u [d [E' M]]]]]]. split; auto. exists [], t, u, d. split; auto.
    split; [constructor|]. auto. }
  assert (UP : forall t a d, unmarked (Pair t a d) = true -> unmarked a = true /\ unmarked d = true).
  { intros t a d X. cbn in X. apply andb_true_iff in X. destruct X as [X Y]. apply andb_true_iff in X. tauto. }
  destruct T as [x P|t h d P|t u d T1 T2|t u k d K T|t u d T|t u k d K T|t u s0 d K].
  - exfalso. apply N. destruct x; try discriminate; exact H.
  - apply LF. apply tmap_other; auto.
  - destruct d as [ | | | | | |t1 c d]; try (exfalso; apply N; exact H).
    destruct d as [ | | | | | |t2 th r]; try (exfalso; apply N; exact H).
    destruct (UP _ _ _ U) as [_ U1]. destruct (UP _ _ _ U1) as [_ U2]. destruct (UP _ _ _ U2) as [Uth Ur].
    cbn [asize] in L.
    (* position of the mark *)
    assert (C : (exists p', p = true :: true :: false :: p' /\ part (tmap g th) p' = Sym true s) \/
                (exists t3 el r' p', r = Pair t3 el r' /\ p = true :: true :: true :: false :: p' /\
                   part (tmap g el) p' = Sym true s)).
    { destruct (is_pair r) eqn:PR.
      - destruct r as [ | | | | | |t3 el r]; try discriminate. rewrite tmap_if3 in H.
        destruct p as [|[|] p]; [discriminate| |exfalso; apply N; exact H].
        destruct p as [|[|] p]; [discriminate| |exfalso; apply N; exact H].
        destruct p as [|[|] p]; [discriminate| |left; exists p; auto].
        destruct p as [|[|] p]; [discriminate|exfalso; apply N; exact H|].
        right. exists t3, el, r, p. auto.
      - rewrite tmap_if2 in H by auto.
        destruct p as [|[|] p]; [discriminate| |exfalso; apply N; exact H].
        destruct p as [|[|] p]; [discriminate| |exfalso; apply N; exact H].
        destruct p as [|[|] p]; [discriminate|exfalso; apply N; exact H|left; exists p; auto]. }
    destruct C as [[p' [-> X]]|[t3 [el [r' [p' [-> [-> X]]]]]]].
    + destruct (IH th p') as [-> [q [t' [u' [d' [-> [A [B M]]]]]]]]; eauto; [lia|].
      split; auto. exists (true :: true :: false :: q), t', u', d'. split; auto. split; [constructor; auto|]. auto.
    + destruct (UP _ _ _ Ur) as [Uel _]. cbn [asize] in L.
      destruct (IH el p') as [-> [q [t' [u' [d' [-> [A [B M]]]]]]]]; eauto; [lia|].
      split; auto. exists (true :: true :: true :: false :: q), t', u', d'. split; auto. split; [constructor; auto|]. auto.
  - destruct d as [ | | | | | |t1 c l];
      try (exfalso; apply N; destruct K as [<-|[<-|[]]]; exact H).
    destruct (UP _ _ _ U) as [_ U1]. destruct (UP _ _ _ U1) as [_ Ul].
    rewrite tmap_clauses in H by auto. cbn [asize] in L.
    destruct p as [|[|] p]; [discriminate| |exfalso; apply N; exact H].
    destruct p as [|[|] p]; [discriminate| |exfalso; apply N; exact H].
    cbn [part] in H. apply tassoc_part in H; auto. destruct H as [a [e [q [p' [C [-> X]]]]]].
    assert (S := clause_size _ _ _ _ C).
    assert (Ue : unmarked e = true /\ part l q = e).
    { clear -C Ul UP. induction C.
      - destruct (UP _ _ _ Ul) as [X _]. destruct (UP _ _ _ X). auto.
      - apply IHC. eapply UP; eauto. }
    destruct Ue as [Ue Pe].
    destruct (IH e p') as [-> [q' [t' [u' [d' [-> [A [B M]]]]]]]]; eauto; [lia|].
    split; auto. exists (true :: true :: q ++ q'), t', u', d'. split; [rewrite app_comm_cons, app_comm_cons, !app_assoc; auto|].
    split; [econstructor; eauto|]. split; auto. cbn [part]. rewrite part_app, Pe. auto.
  - destruct (UP _ _ _ U) as [_ Ud]. rewrite tmap_prog in H. cbn [asize] in L.
    destruct p as [|[|] p]; [discriminate| |exfalso; apply N; exact H].
    cbn [part] in H. apply tlast_part in H; auto. destruct H as [x [q [p' [C [-> X]]]]].
    assert (S := last_size _ _ _ C).
    assert (Ue : unmarked x = true /\ part d q = x).
    { clear -C Ud UP. induction C.
      - destruct (UP _ _ _ Ud). auto.
      - apply IHC. eapply UP; eauto. }
    destruct Ue as [Ue Pe].
    destruct (IH x p') as [-> [q' [t' [u' [d' [-> [A [B M]]]]]]]]; eauto; [lia|].
    split; auto. exists (true :: q ++ q'), t', u', d'. split; [rewrite app_comm_cons, !app_assoc; auto|].
    split; [econstructor; eauto|]. split; auto. cbn [part]. rewrite part_app, Pe. auto.
  - destruct d as [ | | | | | |t1 c d]; try (exfalso; apply N; destruct K as [<-|[<-|[]]]; exact H).
    destruct d as [ | | | | | |t2 e r]; try (exfalso; apply N; destruct K as [<-|[<-|[]]]; exact H).
    destruct (UP _ _ _ U) as [_ U1]. destruct (UP _ _ _ U1) as [_ U2]. destruct (UP _ _ _ U2) as [Ue _].
    rewrite tmap_when in H by auto. cbn [asize] in L. destruct (T _ _ _ _ _ eq_refl) as [PR TE].
    destruct p as [|[|] p]; [discriminate| |exfalso; apply N; exact H].
    destruct p as [|[|] p]; [discriminate| |exfalso; apply N; exact H].
    destruct p as [|[|] p]; [discriminate|exfalso; apply N; exact H|].
    cbn [part] in H.
    destruct (IH e p) as [-> [q [t' [u' [d' [-> [A [B M]]]]]]]]; eauto; [lia|].
    split; auto. exists (true :: true :: [false] ++ q), t', u', d'. split; auto.
    split; [econstructor; eauto; constructor; auto|]. auto.
  - apply LF. apply tmap_call. auto.
Qed.
