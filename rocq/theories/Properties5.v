(** * Properties C03 to C06: reference counts. *)
From Verif Require Import Value Heap HeapSpec HeapProofs HeapOps.
From Verif Require ValueSpec.
Open Scope nat_scope.
Open Scope heap_scope.

(** ** C03 *)

(** Dropping a reference returns, touches no freed cell, leaves the counts correct
    for the references that remain, and keeps all they reach. *)
Theorem C03_drop : forall h a others, correct h (a :: others) ->
  exists h', X a h = Done tt h' /\ correct h' others /\
    forall b, reach h others b ->
      exists c c', cells h b = Some c /\ cells h' b = Some c' /\ stored c' = stored c.
Proof.
  intros h a others C. destruct (X_spec h a others C) as [h' [D [C' S]]].
  exists h'. split; auto. split; auto. apply X_keeps; auto.
Qed.
Print Assumptions C03_drop.
(** ((1 2) . shared) and shared, where both hold the same cell: dropping the first
    keeps the second. *)
Definition shared_heap : HM (N * N) :=
  s <- plant (Pair false (Num 7) Nil) ;; s <- up s ;;
  x <- plant (Pair false (Num 1) (Pair false (Num 2) Nil)) ;;
  p <- hcons x s ;; done (p, s).
Lemma shared_own : wp shared_heap (fun ps h => own h [fst ps; snd ps]) empty.
Proof.
  apply wp_bind. apply (wp_plant _ _ _ _ own_empty). intros s h1 O1 _ _.
  apply wp_bind. apply (wp_up _ _ _ _ O1); [eapply own_alive; [exact O1|cbn; auto]|]. intros h2 O2 _.
  apply wp_bind. apply (wp_plant _ _ _ _ O2). intros x h3 O3 _ _.
  apply wp_bind. apply (wp_cons _ _ _ _ [s]); [reown|]. intros p h4 O4 _. exact O4.
Qed.
Definition gone (h : heap) (a : N) : bool := match cells h a with None => true | Some _ => false end.
Example C03_example : exists h p s h', correct h [p; s] /\ reach h [p] s /\
  X p h = Done tt h' /\ gone h' p = true /\ gone h' s = false.
Proof.
  assert (T : match shared_heap empty with
              | Done (p, s) h => match X p h with
                                 | Done tt h' => andb (gone h' p) (negb (gone h' s)) && existsb (N.eqb s) (fields_at h p)
                                 | _ => false end
              | _ => false end = true) by (vm_compute; reflexivity).
  pose proof shared_own as W. unfold wp in W.
  destruct (shared_heap empty) as [[p s] h| | | | |]; try discriminate T. cbn [fst snd] in W.
  destruct (X p h) as [[] h'| | | | |] eqn:D; try discriminate T.
  exists h, p, s, h'. split; [apply (proj1 W)|].
  apply andb_prop in T. destruct T as [T T3]. apply andb_prop in T. destruct T as [T1 T2].
  split; [|split; [auto|split; [auto|destruct (gone h' s); auto]]].
  apply reach_step with p; [apply reach_root; cbn; auto|]. apply existsb_in in T3. auto.
Qed.

(** ** C04 *)
Theorem C04_drop_returns : forall h a others, correct h (a :: others) -> exists h', X a h = Done tt h'.
Proof. intros h a others C. destruct (X_spec h a others C) as [h' [D _]]. eauto. Qed.
Print Assumptions C04_drop_returns.
(** Dropping all references leaves nothing behind, provided there is no cycle. *)
Theorem C04_no_leak : forall refs h, correct h refs -> acyclic h ->
  exists h', drop_all refs h = Done tt h' /\ forall a, cells h' a = None.
Proof.
  induction refs as [|a l IH]; intros h C A.
  - exists h. split; auto. apply empty_acyclic; auto.
  - destruct (X_spec h a l C) as [h1 [D [C1 S]]]. cbn [drop_all]. rewrite (run_done _ _ _ _ _ D). apply IH; auto.
    destruct A as [rank A]. exists rank. intros p q I. apply A. revert I. unfold fields_at.
    destruct S as [_ [_ S]]. destruct (cells h1 p) as [c1|] eqn:E1; [|intros []].
    destruct (S _ _ E1) as [c [E T]]. rewrite E. apply stored_eq in T. destruct T as [T1 [_ T3]].
    unfold fields. rewrite T1, T3. auto.
Qed.
Print Assumptions C04_no_leak.
(** Without the proviso it is false: a pair that is its own CDR survives. *)
Definition loop_heap : HM N := a <- plant (Pair false (Num 1) Nil) ;; b <- up a ;; hconc 5 a b.
Example C04_cycle : exists h a h', correct h [a] /\ drop_all [a] h = Done tt h' /\ cells h' a <> None.
Proof.
  assert (T : match loop_heap empty with
              | Done a h => match drop_all [a] h with Done tt h' => negb (gone h' a) | _ => false end
              | _ => false end = true) by (vm_compute; reflexivity).
  assert (W : wp loop_heap (fun a h => own h [a]) empty).
  { apply wp_bind. apply (wp_plant _ _ _ _ own_empty). intros a h1 O1 _ _.
    apply wp_bind. apply (wp_up _ _ _ _ O1); [eapply own_alive; [exact O1|cbn; auto]|]. intros h2 O2 _.
    eapply wp_mono; [apply (conc_spec 5 a a h2 [] 0%N O2 (young_zero _ _)); lia|]. intros r h3 [O3 _]. exact O3. }
  unfold wp in W. destruct (loop_heap empty) as [a h| | | | |]; try discriminate T.
  destruct (drop_all [a] h) as [[] h'| | | | |] eqn:D; try discriminate T.
  exists h, a, h'. split; [apply (proj1 W)|]. split; auto. unfold gone in T. destruct (cells h' a); [discriminate|discriminate T].
Qed.
Example C04_example : exists h p s, correct h [p; s] /\ acyclic h /\ gone h p = false.
Proof.
  assert (T : match shared_heap empty with
              | Done (p, s) h => forallb (fun a => forallb (fun b => N.ltb b a) (fields_at h a)) (addresses h) && negb (gone h p)
              | _ => false end = true) by (vm_compute; reflexivity).
  pose proof shared_own as W. unfold wp in W.
  destruct (shared_heap empty) as [[p s] h| | | | |]; try discriminate T. cbn [fst snd] in W.
  exists h, p, s. split; [apply (proj1 W)|]. apply andb_prop in T. destruct T as [T1 T2]. split; [|destruct (gone h p); auto].
  exists N.to_nat. intros a b I. rewrite forallb_forall in T1.
  destruct (N.lt_ge_cases a (nxt h)) as [L|L].
  - apply addresses_in in L. specialize (T1 a L). rewrite forallb_forall in T1. specialize (T1 b I). apply N.ltb_lt in T1. lia.
  - exfalso. unfold fields_at in I. destruct (cells h a) eqn:E; [|destruct I].
    assert (alive h a) as Al by (unfold alive; congruence). apply (own_bounded _ _ _ W) in Al. lia.
Qed.

(** ** C05 *)
Lemma wp_neutral : forall {A} (P : heap -> Prop) pre (m : HM A) post,
  (forall h frame, P h -> own h (pre ++ frame) -> wp m (fun r h' => own h' (post r ++ frame) /\ aux h' = aux h) h) ->
  neutral_when P pre m post.
Proof.
  intros A P pre m post H h frame Ph C S. specialize (H h frame Ph (conj C S)). unfold wp in H.
  destruct (m h); auto. destruct H as [[C' S'] X']. auto.
Qed.
Lemma wp_returns : forall {A} (P : heap -> Prop) pre (m : HM A) post, neutral_when P pre m post ->
  (forall h frame, P h -> own h (pre ++ frame) -> exists r h', m h = Done r h') -> returns P pre m post.
Proof.
  intros A P pre m post Ne D h frame Ph C S. specialize (Ne h frame Ph C S). destruct (D h frame Ph (conj C S)) as [r [h' R]].
  rewrite R in Ne. eauto.
Qed.
Definition anywhere (h : heap) : Prop := True.

(** Making an atom or a pair takes over the references the new cell holds. *)
Theorem C05_make : forall b, returns anywhere (kids b) (alloc b) (fun r => [r]).
Proof.
  intro b. apply wp_returns.
  - apply wp_neutral. intros h fr _ O. apply (wp_alloc _ _ _ _ O). intros a h' O' G. split; [exact O'|apply (g_aux _ _ _ _ G)].
  - intros h fr _ O. unfold alloc. eauto.
Qed.
Print Assumptions C05_make.
Theorem C05_cons : forall x y, returns anywhere [x; y] (hcons x y) (fun r => [r]).
Proof. intros x y. exact (C05_make (KPair x y)). Qed.
Print Assumptions C05_cons.
(** Heads and tails: a new reference; the argument is only borrowed. *)
Theorem C05_car : forall a, returns anywhere [a] (hcar a) (fun r => [r; a]).
Proof.
  intro a. apply wp_returns.
  - apply wp_neutral. intros h fr _ O. apply (wp_car _ _ _ _ O); [eapply own_alive; [exact O|cbn; auto]|].
    intros r h' O' A _. split; [exact O'|apply (a_aux _ _ A)].
  - intros h fr _ O. eapply car_done; eauto. eapply own_alive; [exact O|cbn; auto].
Qed.
Print Assumptions C05_car.
Theorem C05_cdr : forall a, returns anywhere [a] (hcdr a) (fun r => [r; a]).
Proof.
  intro a. apply wp_returns.
  - apply wp_neutral. intros h fr _ O. apply (wp_cdr _ _ _ _ O); [eapply own_alive; [exact O|cbn; auto]|].
    intros r h' O' A _. split; [exact O'|apply (a_aux _ _ A)].
  - intros h fr _ O. eapply cdr_done; eauto. eapply own_alive; [exact O|cbn; auto].
Qed.
Print Assumptions C05_cdr.
Lemma eventually : forall {A} (P : heap -> Prop) pre (m : nat -> HM A) post, (forall n, neutral_when P pre (m n) post) ->
  (forall h frame, P h -> own h (pre ++ frame) -> exists n0, forall n, n0 <= n -> exists r h', m n h = Done r h') ->
  returns_eventually P pre m post.
Proof.
  intros A P pre m post Ne D h frame Ph C S. destruct (D h frame Ph (conj C S)) as [n0 G]. exists n0. intros n L.
  destruct (G n L) as [r [h' R]]. specialize (Ne n h frame Ph C S). rewrite R in Ne. eauto.
Qed.
(** Shallow duplication: whatever the budget no freed cell is touched, and for a
    list that ends it returns. *)
Theorem C05_dup : forall a, (forall n, neutral [a] (hdup n a) (fun r => [r; a])) /\
  returns_eventually (fun h => ends h a) [a] (fun n => hdup n a) (fun r => [r; a]).
Proof.
  intro a. assert (G : forall P n, neutral_when P [a] (hdup n a) (fun r => [r; a])).
  { intros P n. apply wp_neutral. intros h fr _ O. eapply wp_mono; [apply (dup_spec n a h _ O)|].
    - eapply own_alive; [exact O|cbn; auto].
    - intros r h' [O' [A _]]. split; [exact O'|apply (a_aux _ _ A)]. }
  split; [intro n; apply G|]. apply eventually; [intro n; apply G|]. intros h fr E O. eapply dup_done; eauto.
Qed.
Print Assumptions C05_dup.
(** Destructive concatenation consumes both lists. *)
Theorem C05_conc : forall a b, (forall n, neutral [a; b] (fun h => hconc n a b h) (fun r => [r])) /\
  returns_eventually (fun h => ends h a) [a; b] (fun n => hconc n a b) (fun r => [r]).
Proof.
  intros a b. assert (G : forall P n, neutral_when P [a; b] (hconc n a b) (fun r => [r])).
  { intros P n. apply wp_neutral. intros h fr _ O. eapply wp_mono; [apply (conc_spec n a b h fr 0%N O (young_zero _ _)); lia|].
    intros r h' [O' [F _]]. split; [exact O'|apply (f_aux _ _ _ F)]. }
  split; [intro n; apply G|]. apply eventually; [intro n; apply G|]. intros h fr E O.
  destruct E as [a c E P|a c x y E B En].
  - exists 0. intros n _. unfold hconc. rewrite (run_done _ _ _ c h) by (unfold rd; rewrite E; auto). rewrite P.
    destruct (X_done _ _ _ O) as [h1 D1]. rewrite (run_done _ _ _ _ _ D1). unfold done. eauto.
  - assert (En' : ends h a) by (eapply ends_next; eauto).
    destruct (last_pair_ends h a En' _ _ _ E B) as [n0 [p [LO D]]]. exists n0. intros n L. specialize (D n L).
    unfold hconc. rewrite (run_done _ _ _ c h) by (unfold rd; rewrite E; auto).
    assert (is_pair_c c = true) as -> by (unfold is_pair_c; rewrite B; auto). rewrite (run_done _ _ _ _ _ D).
    assert (exists cp xp yp cy, cells h p = Some cp /\ body cp = KPair xp yp /\ cells h yp = Some cy /\ is_pair_c cy = false) as [cp [xp [yp [cy [Ep [Bp [Ey Py]]]]]]].
    { clear - LO. induction LO; eauto 8. }
    rewrite (run_done _ _ _ yp h) by (unfold CDR, hbind_, rd; rewrite Ep, Bp; auto).
    destruct (X_leaf h yp cy _ O Ey Py) as [h3 [D3 [_ [_ C3]]]]. rewrite (run_done _ _ _ _ _ D3).
    assert (E3 : cells h3 p = Some cp).
    { rewrite C3. destruct (N.eqb_spec p yp) as [Q|Q]; auto. subst yp. rewrite Ep in Ey. injection Ey as <-. unfold is_pair_c in Py. rewrite Bp in Py. discriminate. }
    rewrite (run_done _ _ _ cp h3) by (unfold rd; rewrite E3; auto). rewrite Bp. unfold hbind_, wr. rewrite E3. unfold done. eauto.
Qed.
Print Assumptions C05_conc.
Theorem C05_append : forall n l e, neutral [l; e] (happend n l e) (fun r => [r]).
Proof.
  intros n l e. apply wp_neutral. intros h fr _ O. eapply wp_mono; [apply (append_spec n l e h fr 0%N O (young_zero _ _)); lia|].
  intros r h' [O' [F _]]. split; [exact O'|apply (f_aux _ _ _ F)].
Qed.
Print Assumptions C05_append.
(** Destructuring: the environment, the pattern and the value are consumed. *)
Theorem C05_bind : forall clos arg val, (forall n, neutral [clos; arg; val] (hbind n clos arg val) (fun r => [r])) /\
  returns_eventually (fun h => finite h arg) [clos; arg; val] (fun n => hbind n clos arg val) (fun r => [r]).
Proof.
  intros clos arg val. assert (G : forall P n, neutral_when P [clos; arg; val] (hbind n clos arg val) (fun r => [r])).
  { intros P n. apply wp_neutral. intros h fr _ O. eapply wp_mono; [apply (bind_spec n clos arg val h fr O)|].
    intros r h' [O' F]. split; [exact O'|apply (f_aux _ _ _ F)]. }
  split; [intro n; apply G|]. apply eventually; [intro n; apply G|]. intros h fr E O.
  destruct (finite_deep _ _ E) as [d D]. exists (Datatypes.S d). intros n L. exact (bind_done n d h arg clos val fr D O L).
Qed.
Print Assumptions C05_bind.
(** Sorted update of an environment consumes the environment and the pair. *)
Theorem C05_update : forall root kv,
  (forall n, neutral_when (fun h => ends h root) [root; kv] (hsss n root kv) (fun r => [r])) /\
  returns_eventually (fun h => environment h root /\ entry h kv) [root; kv] (fun n => hsss n root kv) (fun r => [r]).
Proof.
  intros root kv. assert (G : forall (P : heap -> Prop) n, (forall h, P h -> ends h root) -> neutral_when P [root; kv] (hsss n root kv) (fun r => [r])).
  { intros P n I. apply wp_neutral. intros h fr Ph O. destruct (ends_spine _ _ (I h Ph)) as [ps [z S]].
    eapply wp_mono; [apply (sss_spec n ps root h kv fr 0%N z O S); [apply Forall_forall; intros; lia|lia]|].
    intros r h' [O' [F _]]. split; [exact O'|apply (f_aux _ _ _ F)]. }
  split; [intro n; apply G; auto|]. apply eventually.
  - intro n. apply G. intros h [E _]. apply environment_ends; auto.
  - intros h fr [E K] O. destruct (ends_spine _ _ (environment_ends _ _ E)) as [ps [z S]]. exists (Datatypes.S (length ps)). intros n L.
    apply (sss_done n ps root h kv (root :: fr) [] root z); auto; [reown|cbn; auto].
Qed.
Print Assumptions C05_update.
(** Merging bindings in a copy of an environment borrows both. *)
Theorem C05_merge : forall m n clos alst,
  neutral [clos; alst] (r0 <- hdup m clos ;; hmerge n r0 alst) (fun r => [r; clos; alst]).
Proof.
  intros m n clos alst. apply wp_neutral. intros h fr _ O. eapply wp_mono.
  - apply (dup_merge_spec n m clos alst h _ O); [eapply own_alive; [exact O|cbn; auto]|cbn; auto].
  - intros r h' [O' [F _]]. split; [exact O'|apply (f_aux _ _ _ F)].
Qed.
Print Assumptions C05_merge.
(** C10: extending a scope alters neither the scope nor anything else in use. *)
Lemma frozen_reads : forall h h' R R', own h R -> own h' R' -> frozen (nxt h) h h' ->
  forall a v, reads h a v -> alive h' a -> exists v', reads h' a v' /\ ValueSpec.same v' v.
Proof.
  intros h h' R R' O O' F. induction 1 as [a c E B|a c E B|a c E B|a c z E B|a c z E B|a c s E B|a c x y v w E B _ IHx _ IHy]; intros A;
    assert (L : (a < nxt h)%N) by (eapply own_bounded; [exact O|unfold alive; congruence]);
    unfold alive in A; destruct (cells h' a) as [c'|] eqn:E'; try congruence; clear A;
    pose proof (f_same _ _ _ F a c c' L E E') as B'; rewrite B in B'.
  - exists Nil. split; [eapply reads_nil; eauto|constructor].
  - exists Tru. split; [eapply reads_true; eauto|constructor].
  - exists Value.Wild. split; [eapply reads_wild; eauto|constructor].
  - exists (Chr z). split; [eapply reads_char; eauto|constructor].
  - exists (Num z). split; [eapply reads_num; eauto|constructor].
  - exists (Sym (tail c') s). split; [eapply reads_sym; eauto|constructor].
  - destruct (own_pair _ _ _ _ _ _ O' E' B') as [Ax Ay]. destruct (IHx Ax) as (v' & Rv & Sv). destruct (IHy Ay) as (w' & Rw & Sw).
    exists (Pair (tail c') v' w'). split; [eapply reads_pair; eauto|constructor; auto].
Qed.
Theorem C10_unaltered : forall m n clos alst frame h r h' k v,
  correct h ([clos; alst] ++ frame) -> strong h -> In k ([clos; alst] ++ frame) -> reads h k v ->
  (r0 <- hdup m clos ;; hmerge n r0 alst) h = Done r h' -> exists v', reads h' k v' /\ ValueSpec.same v' v.
Proof.
  intros m n clos alst frame h r h' k v C St I Rd D. assert (O : own h ([clos; alst] ++ frame)) by (split; auto).
  assert (W : wp (r0 <- hdup m clos ;; hmerge n r0 alst) (fun r h' => own h' (r :: [clos; alst] ++ frame) /\ frozen (nxt h) h h' /\ fresh_list (nxt h) h' r) h).
  { apply (dup_merge_spec n m clos alst h _ O); [eapply own_alive; [exact O|cbn; auto]|cbn; auto]. }
  unfold wp in W. rewrite D in W. destruct W as [O' [F _]].
  apply (frozen_reads h h' _ _ O O' F k v Rd). eapply own_alive; [exact O'|right; exact I].
Qed.
Print Assumptions C10_unaltered.
(** A heap with all that: a two-entry environment, a binding, a nested pattern. *)
Definition env2 : HM (N * N * N * N) :=
  e <- plant (Pair false (Pair false (Symb (sy "a")) (Num 1)) (Pair false (Pair false (Symb (sy "c")) (Num 3)) Nil)) ;;
  kv <- plant (Pair false (Symb (sy "b")) (Num 2)) ;;
  pat <- plant (Pair false (Pair false (Symb (sy "x")) (Symb (sy "y"))) (Symb (sy "z"))) ;;
  val <- plant (Pair false (Pair false (Num 4) (Num 5)) (Num 6)) ;;
  done (e, kv, pat, val).
Lemma env2_own : wp env2 (fun q h => let '(e, kv, pat, val) := q in own h [val; pat; kv; e]) empty.
Proof.
  apply wp_bind. apply (wp_plant _ _ _ _ own_empty). intros e h1 O1 _ _.
  apply wp_bind. apply (wp_plant _ _ _ _ O1). intros kv h2 O2 _ _.
  apply wp_bind. apply (wp_plant _ _ _ _ O2). intros pat h3 O3 _ _.
  apply wp_bind. apply (wp_plant _ _ _ _ O3). intros val h4 O4 _ _. exact O4.
Qed.
(** What a cell shows, for examples. *)
Fixpoint show (n : nat) (h : heap) (a : N) : option atom :=
  match n with
  | O => None
  | S n' =>
      match cells h a with
      | None => None
      | Some c =>
          match body c with
          | KNil => Some Nil | KTrue => Some Tru | KWild => Some Value.Wild
          | KChar z => Some (Chr z) | KNum z => Some (Num z) | KSym s => Some (Sym (tail c) s)
          | KPair x y => match show n' h x, show n' h y with Some v, Some w => Some (Pair (tail c) v w) | _, _ => None end
          end
      end
  end.
Lemma show_reads : forall n h a v, show n h a = Some v -> reads h a v.
Proof.
  induction n as [|n IH]; intros h a v H; [discriminate|]. cbn [show] in H.
  destruct (cells h a) as [c|] eqn:E; [|discriminate]. destruct (body c) eqn:B; try (injection H as <-; econstructor; eauto; fail).
  destruct (show n h a0) as [v0|] eqn:S1; [|discriminate]. destruct (show n h d) as [w|] eqn:S2; [|discriminate].
  injection H as <-. econstructor; eauto.
Qed.
Example C05_example :
  (* updating: ((a . 1) (b . 2) (c . 3)) *)
  (match env2 empty with
   | Done (e, kv, pat, val) h => match hsss 9 e kv h with Done r h' => show 9 h' r | _ => None end
   | _ => None end)
  = Some (Pair false (Pair false (Symb (sy "a")) (Num 1)) (Pair false (Pair false (Symb (sy "b")) (Num 2))
          (Pair false (Pair false (Symb (sy "c")) (Num 3)) Nil))) /\
  (* destructuring ((x . y) . z) against ((4 . 5) . 6) *)
  (match env2 empty with
   | Done (e, kv, pat, val) h => match hbind 9 e pat val h with Done r h' => match hcar r h' with Done b h2 => show 9 h2 b | _ => None end | _ => None end
   | _ => None end)
  = Some (Pair false (Symb (sy "z")) (Num 6)).
Proof. split; vm_compute; reflexivity. Qed.

Lemma reads_finite : forall h a v, reads h a v -> finite h a.
Proof.
  intros h a v H. induction H; try (eapply finite_leaf; [eassumption|unfold is_pair_c; match goal with B : body _ = _ |- _ => rewrite B end; reflexivity]).
  eapply finite_pair; eauto.
Qed.
Lemma finite_ends : forall h a, finite h a -> ends h a.
Proof. intros h a H. induction H; [eapply ends_here; eauto|eapply ends_next; eauto]. Qed.
Lemma reads_entry : forall h a t u s v, reads h a (Pair t (Sym u s) v) -> entry h a.
Proof. intros h a t u s v H. inversion H; subst. match goal with K : reads _ _ (Sym _ _) |- _ => inversion K; subst end. do 5 eexists. eauto. Qed.
Lemma reads_environment : forall h a t e r, reads h a (Pair t e r) -> (forall x, reads h x e -> entry h x) ->
  (forall x, reads h x r -> environment h x) -> environment h a.
Proof. intros h a t e r H F G. inversion H; subst. eapply environment_cons; eauto. Qed.
Lemma is_done : forall (A : Type) (o : hres A), match o with Done _ _ => true | _ => false end = true -> exists q h, o = Done q h.
Proof. intros A [q h| | | | |] E; try discriminate E. eauto. Qed.
Lemma triple_eq : forall (a b c x y z : option atom), (a, b, c) = (x, y, z) -> a = x /\ b = y /\ c = z.
Proof. intros a b c x y z E. injection E as -> -> ->. auto. Qed.
(** That heap meets the conditions of all of them: an environment, an entry and finite data,
    held by the caller. *)
Example C05_conditions : exists h e kv pat val, correct h [val; pat; kv; e] /\ strong h /\
  environment h e /\ entry h kv /\ ends h e /\ finite h pat.
Proof.
  assert (E : exists q h, env2 empty = Done q h) by (apply is_done; vm_compute; reflexivity).
  destruct E as [[[[e kv] pat] val] [h D]].
  assert (G : match env2 empty with Done (e, kv, pat, val) h => (show 9 h e, show 9 h kv, show 9 h pat) | _ => (None, None, None) end =
    (Some (Pair false (Pair false (Symb (sy "a")) (Num 1)) (Pair false (Pair false (Symb (sy "c")) (Num 3)) Nil)),
     Some (Pair false (Symb (sy "b")) (Num 2)),
     Some (Pair false (Pair false (Symb (sy "x")) (Symb (sy "y"))) (Symb (sy "z"))))) by (vm_compute; reflexivity).
  pose proof (done_wp _ _ _ env2_own _ _ D) as W. cbv beta iota in W. rewrite D in G. clear D.
  destruct (triple_eq _ _ _ _ _ _ G) as [Ge [Gk Gp]]. exists h, e, kv, pat, val.
  split; [apply (proj1 W)|]. split; [apply (proj2 W)|].
  apply show_reads in Ge. apply show_reads in Gk. apply show_reads in Gp.
  split; [|split; [|split]].
  - eapply reads_environment; [exact Ge|intros x Rx; eapply reads_entry; exact Rx|].
    intros y Ry. eapply reads_environment; [exact Ry|intros x Rx; eapply reads_entry; exact Rx|].
    intros z Rz. inversion Rz; subst. eapply environment_nil; eauto.
  - eapply reads_entry. exact Gk.
  - apply finite_ends. eapply reads_finite. exact Ge.
  - eapply reads_finite. exact Gp.
Qed.

(** Extending ((a . 1) (c . 3)) by ((a . 9) (b . 2)): the result, and the scope afterwards. *)
Example C10_unaltered_example :
  (match (e <- plant (Pair false (Pair false (Symb (sy "a")) (Num 1)) (Pair false (Pair false (Symb (sy "c")) (Num 3)) Nil)) ;;
          l <- plant (Pair false (Pair false (Symb (sy "a")) (Num 9)) (Pair false (Pair false (Symb (sy "b")) (Num 2)) Nil)) ;;
          done (e, l)) empty with
   | Done (e, l) h => match (r0 <- hdup 9 e ;; hmerge 9 r0 l) h with Done r h' => (show 9 h' r, show 9 h' e) | _ => (None, None) end
   | _ => (None, None) end)
  = (Some (Pair false (Pair false (Symb (sy "a")) (Num 9)) (Pair false (Pair false (Symb (sy "b")) (Num 2))
          (Pair false (Pair false (Symb (sy "c")) (Num 3)) Nil))),
     Some (Pair false (Pair false (Symb (sy "a")) (Num 1)) (Pair false (Pair false (Symb (sy "c")) (Num 3)) Nil))).
Proof. vm_compute. reflexivity. Qed.

(** ** C06 *)

(** When the last pair of [a] is neither in [b] nor in an element of [a], the result
    is the cell [a], and shows the elements of [a] followed by [b].  Missing: lists
    that share that pair, for which it is false (below). *)
Theorem C06_conc_partial : forall h frame a b p va vb, correct h (a :: b :: frame) -> strong h ->
  reads h a va -> reads h b vb -> last_of h a p ->
  ~ reach h [b] p -> (forall x, element h a x -> ~ reach h [x] p) ->
  exists n0, forall n, n0 <= n -> exists h', hconc n a b h = Done a h' /\ correct h' (a :: frame) /\ reads h' a (joined va vb).
Proof.
  intros h fr a b p va vb C S Ra Rb LO NB NE. destruct (conc_reads h fr a b p va vb (conj C S) Ra Rb LO NB NE) as [n0 G].
  exists n0. intros n L. destruct (G n L) as [h' [D [[C' _] R]]]. eauto.
Qed.
Print Assumptions C06_conc_partial.
(** [(conc x x)]: the result is not a finite list. *)
Theorem C06_self_refuted : exists h a, correct h [a; a] /\ strong h /\ reads h a (Pair false (Num 1) Nil) /\
  forall n, 5 <= n -> exists h', hconc n a a h = Done a h' /\ correct h' [a] /\ ~ exists v, reads h' a v.
Proof.
  destruct (plant_spec (Pair false (Num 1) Nil) empty [] own_empty) as [a [h1 [D1 [O1 [_ R1]]]]].
  destruct (up_done a h1) as [a' [h2 D2]]; [eapply own_alive; [exact O1|cbn; auto]|].
  assert (W2 : own h2 [a'; a] /\ adds h1 h2 /\ a' = a).
  { apply (done_wp (up a) (fun r h => own h [r; a] /\ adds h1 h /\ r = a) h1) with (r := a') (h' := h2); auto.
    apply (wp_up _ _ _ _ O1); auto. eapply own_alive; [exact O1|cbn; auto]. }
  destruct W2 as [O2 [A2 ->]]. pose proof (reads_adds _ _ _ R1 _ A2) as R2.
  exists h2, a. split; [apply (proj1 O2)|]. split; [apply (proj2 O2)|]. split; auto. intros n L.
  inversion R2 as [ | | | | | |a1 c x y v w E B Rx Ry]; subst.
  assert (exists cy, cells h2 y = Some cy /\ is_pair_c cy = false) as [cy [Ey Py]].
  { inversion Ry as [ay cy Ey By| | | | | |]; subst. exists cy. split; auto. unfold is_pair_c. rewrite By. auto. }
  assert (Q : a <> y). { intro Q. subst y. rewrite E in Ey. injection Ey as <-. unfold is_pair_c in Py. rewrite B in Py. discriminate. }
  destruct (X_leaf h2 y cy _ O2 Ey Py) as [h3 [D3 [_ [_ C3]]]].
  assert (E3 : cells h3 a = Some c). { rewrite C3. apply N.eqb_neq in Q. rewrite Q. auto. }
  set (h4 := set_cell h3 a (Some (with_body c (KPair x a)))).
  assert (RUN : hconc n a a h2 = Done a h4).
  { unfold hconc. rewrite (run_done _ _ _ c h2) by (unfold rd; rewrite E; auto).
    assert (is_pair_c c = true) as -> by (unfold is_pair_c; rewrite B; auto).
    rewrite (run_done _ _ _ a h2).
    - rewrite (run_done _ _ _ y h2) by (unfold CDR, hbind_, rd; rewrite E, B; auto). rewrite (run_done _ _ _ _ _ D3).
      rewrite (run_done _ _ _ c h3) by (unfold rd; rewrite E3; auto). rewrite B. unfold hbind_, wr. rewrite E3. auto.
    - destruct n as [|n]; [lia|]. cbn [last_pair]. rewrite (run_done _ _ _ y h2) by (unfold CDR, hbind_, rd; rewrite E, B; auto).
      rewrite (run_done _ _ _ cy h2) by (unfold rd; rewrite Ey; auto). rewrite Py. auto. }
  exists h4. split; auto. split.
  - assert (W : wp (hconc n a a) (fun r h' => own h' [r] /\ frozen 0 h2 h' /\ (young 0 h2 a -> young 0 h' r) /\ relinks a h2 h') h2)
      by (apply conc_spec; [auto|apply young_zero|lia]).
    apply (done_wp _ _ _ W _ _ RUN).
  - intros [v R4].
    assert (G : forall s v, reads h4 s v -> s = a -> False).
    { clear v R4. intros s v R4. induction R4 as [s cs Es Bs|s cs Es Bs|s cs Es Bs|s cs z Es Bs|s cs z Es Bs|s cs z Es Bs|s cs xs ys v w Es Bs _ _ _ IH];
        intros ->; unfold h4 in Es; rewrite set_same in Es; injection Es as <-; cbn in Bs; try discriminate.
      injection Bs as <- <-. auto. }
    apply (G a v R4 eq_refl).
Qed.
Print Assumptions C06_self_refuted.
Lemma reach_closed : forall h roots l, forallb (fun a => forallb (fun b => existsb (N.eqb b) l) (fields_at h a)) l = true ->
  forallb (fun a => existsb (N.eqb a) l) roots = true -> forall a, reach h roots a -> In a l.
Proof.
  intros h roots l F G a H. induction H as [a I|a b H IH I].
  - rewrite forallb_forall in G. apply existsb_in. auto.
  - rewrite forallb_forall in F. specialize (F a IH). rewrite forallb_forall in F. apply existsb_in. auto.
Qed.
(** Two lists that share nothing: the hypotheses hold, and the run shows the result. *)
Definition two : HM (N * N) :=
  a <- plant (Pair false (Num 1) (Pair false (Num 2) Nil)) ;; b <- plant (Pair false (Num 3) Nil) ;; done (a, b).
Example C06_example : exists h a b p, correct h [b; a] /\ strong h /\
  reads h a (Pair false (Num 1) (Pair false (Num 2) Nil)) /\ reads h b (Pair false (Num 3) Nil) /\
  last_of h a p /\ ~ reach h [b] p /\ (forall x, element h a x -> ~ reach h [x] p) /\
  exists h', hconc 9 a b h = Done a h' /\
  show 9 h' a = Some (Pair false (Num 1) (Pair false (Num 2) (Pair false (Num 3) Nil))).
Proof.
  assert (T : match two empty with
              | Done (a, b) h => match hconc 9 a b h with
                                 | Done r h' => (N.eqb r a, show 9 h' a, (a, b),
                                                 (cells h 4, cells h 3, cells h 2, (fields_at h 0, fields_at h 1, fields_at h 5, fields_at h 6, fields_at h 7))%N)
                                 | _ => (false, None, (a, b), (None, None, None, ([], [], [], [], []))) end
              | _ => (false, None, (0, 0)%N, (None, None, None, ([], [], [], [], []))) end
    = (true, Some (Pair false (Num 1) (Pair false (Num 2) (Pair false (Num 3) Nil))), (4, 7)%N,
       (Some (mkcell 1 false false (KPair 0 3)), Some (mkcell 1 false false (KPair 1 2)), Some (mkcell 1 false false KNil),
        ([], [], [], [], [5; 6])))%N) by (vm_compute; reflexivity).
  assert (W : wp two (fun p h => own h [snd p; fst p] /\ reads h (fst p) (Pair false (Num 1) (Pair false (Num 2) Nil)) /\ reads h (snd p) (Pair false (Num 3) Nil)) empty).
  { apply wp_bind. apply (wp_plant _ _ _ _ own_empty). intros a h1 O1 _ R1.
    apply wp_bind. apply (wp_plant _ _ _ _ O1). intros b h2 O2 A2 R2. split; [exact O2|]. split; [eapply reads_adds; eauto|exact R2]. }
  unfold wp in W. destruct (two empty) as [[a b] h| | | | |]; try discriminate T. destruct W as [[C SG] [Ra Rb]]. cbn [fst snd] in *.
  destruct (hconc 9 a b h) as [r h'| | | | |] eqn:D; try discriminate T.
  injection T as T1 T2 -> -> E4 E3 E2 F0 F1 F5 F6 F7. apply N.eqb_eq in T1. subst r.
  exists h, 4%N, 7%N, 3%N. split; [exact C|]. split; [exact SG|]. split; [exact Ra|]. split; [exact Rb|].
  assert (L3 : last_of h 3 3) by (eapply last_here; [exact E3|reflexivity|exact E2|reflexivity]).
  split; [eapply last_next; [exact E4|reflexivity|exact L3]|].
  split.
  { intro H. apply (reach_closed h [7]%N [5; 6; 7]%N) in H; [|cbn [forallb]; rewrite F5, F6, F7; reflexivity|reflexivity].
    cbn in H. intuition discriminate. }
  split.
  { intros x H.
    assert (X01 : x = 0%N \/ x = 1%N).
    { inversion H as [a1 c1 x1 y1 Ea Ba|a1 c1 x1 y1 e1 Ea Ba He]; subst; rewrite E4 in Ea; injection Ea as <-; cbn in Ba; injection Ba as <- <-; auto.
      inversion He as [a2 c2 x2 y2 Eb Bb|a2 c2 x2 y2 e2 Eb Bb Hf]; subst; rewrite E3 in Eb; injection Eb as <-; cbn in Bb; injection Bb as <- <-; auto.
      inversion Hf as [a3 c3 x3 y3 Ec Bc|a3 c3 x3 y3 e3 Ec Bc Hg]; subst; rewrite E2 in Ec; injection Ec as <-; discriminate Bc. }
    intro R. destruct X01 as [-> | ->].
    - apply (reach_closed h [0]%N [0]%N) in R; [|cbn [forallb]; rewrite F0; reflexivity|reflexivity]. cbn in R. intuition discriminate.
    - apply (reach_closed h [1]%N [1]%N) in R; [|cbn [forallb]; rewrite F1; reflexivity|reflexivity]. cbn in R. intuition discriminate. }
  exists h'. auto.
Qed.
