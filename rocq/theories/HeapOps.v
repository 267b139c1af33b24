(** * HeapOps: the list primitives keep the counts correct. *)
From Verif Require Import Value Heap HeapSpec HeapProofs.
Open Scope nat_scope.
Open Scope heap_scope.

(** ** Weakest preconditions: no freed cell is touched. *)
Definition wp {A} (m : HM A) (Q : A -> heap -> Prop) (h : heap) : Prop :=
  match m h with Done a h' => Q a h' | Freed => False | _ => True end.
Lemma wp_bind : forall {A B} (m : HM A) (k : A -> HM B) Q h,
  wp m (fun a h' => wp (k a) Q h') h -> wp (hbind_ m k) Q h.
Proof. intros A B m k Q h H. unfold wp, hbind_ in *. destruct (m h); auto. Qed.
Lemma wp_mono : forall {A} (m : HM A) (P Q : A -> heap -> Prop) h,
  wp m P h -> (forall a h', P a h' -> Q a h') -> wp m Q h.
Proof. intros A m P Q h H I. unfold wp in *. destruct (m h); auto. Qed.
Lemma wp_done : forall {A} (a : A) (Q : A -> heap -> Prop) h, Q a h -> wp (done a) Q h.
Proof. auto. Qed.
Lemma wp_wild : forall {A} (Q : A -> heap -> Prop) h, wp wild Q h.
Proof. intros; exact I. Qed.
Lemma wp_dry : forall {A} (Q : A -> heap -> Prop) h, wp dry Q h.
Proof. intros; exact I. Qed.

(** Correct counts and no weak reference: what the evaluator works in. *)
Definition own (h : heap) (R : list N) : Prop := correct h R /\ strong h.
Lemma own_perm : forall h R R', own h R -> (forall a, cnt a R = cnt a R') -> own h R'.
Proof. intros h R R' [C S] P. split; auto. eapply correct_perm; eauto. Qed.
Lemma own_alive : forall h R a, own h R -> In a R -> alive h a.
Proof. intros h R a [C _] I. eapply correct_alive; eauto. Qed.
Lemma own_pair : forall h R a c x y, own h R -> cells h a = Some c -> body c = KPair x y -> alive h x /\ alive h y.
Proof.
  intros h R a c x y [C S] E B. pose proof (S _ _ E) as W.
  split; apply (fields_alive h R a); auto; unfold fields_at, fields; rewrite E, B, W; cbn; auto.
Qed.
Lemma own_bounded : forall h R a, own h R -> alive h a -> (a < nxt h)%N.
Proof. intros h R a [C _]. apply (bounded _ _ C). Qed.

Ltac perm := let b := fresh "b" in intro b; cbn [cnt app]; rewrite ?cnt_app; cbn [cnt app]; lia.
Ltac reown := match goal with H : own ?h _ |- own ?h _ => apply (own_perm _ _ _ H); perm end.

(** ** What changes *)

(** From [h] to [h'] no cell below [b] changes what it holds. *)
Record frozen (b : N) (h h' : heap) : Prop := mkfrozen {
  f_nxt : (nxt h <= nxt h')%N;
  f_aux : aux h' = aux h;
  f_dead : forall a, (a < nxt h)%N -> cells h a = None -> cells h' a = None;
  f_same : forall a c c', (a < b)%N -> cells h a = Some c -> cells h' a = Some c' ->
             body c' = body c
}.
Lemma frozen_refl : forall b h, frozen b h h.
Proof. intros b h. constructor; auto; [lia|]. intros a c c' _ E E'. rewrite E in E'. injection E' as <-. auto. Qed.
Lemma frozen_trans : forall b h1 h2 h3, (b <= nxt h1)%N -> frozen b h1 h2 -> frozen b h2 h3 -> frozen b h1 h3.
Proof.
  intros b h1 h2 h3 L [A1 B1 C1 D1] [A2 B2 C2 D2]. constructor; [lia|congruence| |].
  - intros a H E. apply C2; [lia|]. auto.
  - intros a c c' H E E'. destruct (cells h2 a) as [c2|] eqn:E2.
    + pose proof (D1 _ _ _ H E E2). pose proof (D2 _ _ _ H E2 E'). congruence.
    + rewrite C2 in E'; [discriminate|lia|auto].
Qed.
Lemma frozen_mono : forall b b' h h', (b' <= b)%N -> frozen b h h' -> frozen b' h h'.
Proof. intros b b' h h' L [A B C D]. constructor; auto. intros a c c' H. apply D. lia. Qed.

Lemma shrinks_frozen : forall b h h', shrinks h h' -> frozen b h h'.
Proof.
  intros b h h' [A [B C]]. constructor; auto; [lia| |].
  - intros a _ E. destruct (cells h' a) as [c'|] eqn:E'; auto. destruct (C _ _ E') as [c [E1 _]]. congruence.
  - intros a c c' _ E E'. destruct (C _ _ E') as [c1 [E1 T]]. rewrite E in E1. injection E1 as <-.
    unfold stored in T. injection T as T1 T2 T3. auto.
Qed.

(** Everything in use stays in use, with the same contents. *)
Record adds (h h' : heap) : Prop := mkadds {
  a_nxt : (nxt h <= nxt h')%N;
  a_aux : aux h' = aux h;
  a_dead : forall a, (a < nxt h)%N -> cells h a = None -> cells h' a = None;
  a_cells : forall a c, cells h a = Some c -> exists c', cells h' a = Some c' /\ stored c' = stored c
}.
Lemma adds_refl : forall h, adds h h.
Proof. intro h. constructor; auto; [lia|]. eauto. Qed.
Lemma adds_trans : forall h1 h2 h3, adds h1 h2 -> adds h2 h3 -> adds h1 h3.
Proof.
  intros h1 h2 h3 [A1 B1 C1 D1] [A2 B2 C2 D2]. constructor; [lia|congruence| |].
  - intros a L E. apply C2; [lia|auto].
  - intros a c E. destruct (D1 _ _ E) as [c' [E' T']]. destruct (D2 _ _ E') as [c2 [E2 T2]]. exists c2. split; congruence.
Qed.
Lemma stored_eq : forall c c', stored c' = stored c -> body c' = body c /\ tail c' = tail c /\ weak c' = weak c.
Proof. intros c c' T. unfold stored in T. injection T as T1 T2 T3. auto. Qed.
Lemma adds_frozen : forall b h h', adds h h' -> frozen b h h'.
Proof.
  intros b h h' [A B C D]. constructor; auto.
  intros a c c' _ E E'. destruct (D _ _ E) as [c1 [E1 T]]. rewrite E' in E1. injection E1 as <-.
  apply stored_eq in T. tauto.
Qed.
Lemma adds_alive : forall h h' a, adds h h' -> alive h a -> alive h' a.
Proof.
  intros h h' a [_ _ _ D] H. unfold alive in *. destruct (cells h a) as [c|] eqn:E; [|congruence].
  destruct (D _ _ E) as [c' [E' _]]. congruence.
Qed.
Lemma adds_body : forall h h' a c, adds h h' -> cells h a = Some c -> exists c', cells h' a = Some c' /\ body c' = body c.
Proof. intros h h' a c S E. destruct (a_cells _ _ S _ _ E) as [c' [E' T]]. apply stored_eq in T. exists c'. tauto. Qed.

(** Cells reachable by any field. *)
Inductive path (h : heap) : N -> N -> Prop :=
| path_refl : forall a, path h a a
| path_car : forall a c x y p, cells h a = Some c -> body c = KPair x y -> path h x p -> path h a p
| path_cdr : forall a c x y p, cells h a = Some c -> body c = KPair x y -> path h y p -> path h a p.

(** What is reachable from a cell in use survives frozen steps. *)
Lemma frozen_path : forall h0 R0 h R a p, own h0 R0 -> own h R -> frozen (nxt h0) h0 h ->
  alive h0 a -> alive h a -> path h0 a p ->
  (p < nxt h0)%N /\ exists c c', cells h0 p = Some c /\ cells h p = Some c' /\ body c' = body c.
Proof.
  intros h0 R0 h R a p O0 O F A0 A P. revert A0 A.
  assert (ST : forall a c, alive h0 a -> alive h a -> cells h0 a = Some c -> exists c', cells h a = Some c' /\ body c' = body c).
  { intros a0 c0 A0 A E. unfold alive in A. destruct (cells h a0) as [c'|] eqn:E'; [|congruence].
    exists c'. split; auto. apply (f_same _ _ _ F a0 c0 c'); auto. eapply own_bounded; eauto. }
  induction P as [a|a c x y p E B P IH|a c x y p E B P IH]; intros A0 A.
  - split; [eapply own_bounded; eauto|]. pose proof A0 as A0'. unfold alive in A0. destruct (cells h0 a) as [c|] eqn:E; [|congruence].
    destruct (ST a c) as [c' [E' B']]; auto. eauto 6.
  - destruct (ST a c) as [c' [E' B']]; auto. rewrite B in B'.
    apply IH; [apply (own_pair _ _ _ _ _ _ O0 E B)|apply (own_pair _ _ _ _ _ _ O E' B')].
  - destruct (ST a c) as [c' [E' B']]; auto. rewrite B in B'.
    apply IH; [apply (own_pair _ _ _ _ _ _ O0 E B)|apply (own_pair _ _ _ _ _ _ O E' B')].
Qed.

(** The pairs of the list at [a]. *)
Inductive on_spine (h : heap) : N -> N -> Prop :=
| spine_here : forall a c x y, cells h a = Some c -> body c = KPair x y -> on_spine h a a
| spine_next : forall a c x y p, cells h a = Some c -> body c = KPair x y -> on_spine h y p -> on_spine h a p.
Definition young (b : N) (h : heap) (a : N) : Prop := forall p, on_spine h a p -> (b <= p)%N.
Lemma young_zero : forall h a, young 0 h a.
Proof. intros h a p _. lia. Qed.
Lemma young_mono : forall b b' h a, (b' <= b)%N -> young b h a -> young b' h a.
Proof. intros b b' h a L Y p H. specialize (Y p H). lia. Qed.
Lemma young_leaf : forall b h a c, cells h a = Some c -> is_pair_c c = false -> young b h a.
Proof.
  intros b h a c E P p H. unfold is_pair_c in P. inversion H; subst; rewrite E in *;
    match goal with X : Some _ = Some _ |- _ => injection X as <- end;
    match goal with X : body _ = KPair _ _ |- _ => rewrite X in P end; discriminate.
Qed.
Lemma young_cdr : forall b h a c x y, young b h a -> cells h a = Some c -> body c = KPair x y ->
  (b <= a)%N /\ young b h y.
Proof.
  intros b h a c x y Y E B. split.
  - apply Y. eapply spine_here; eauto.
  - intros p H. apply Y. eapply spine_next; eauto.
Qed.
Lemma young_cons : forall b h a c x y, cells h a = Some c -> body c = KPair x y -> (b <= a)%N -> young b h y -> young b h a.
Proof.
  intros b h a c x y E B L Y p H. inversion H; subst; auto.
  rewrite E in *. match goal with X : Some _ = Some _ |- _ => injection X as <- end.
  match goal with X : body _ = KPair _ _, X' : body _ = KPair _ _ |- _ => rewrite X in X'; injection X' as <- <- end. auto.
Qed.
(** ** Elementary steps *)

Lemma wp_rd : forall a (Q : cell -> heap -> Prop) h, alive h a ->
  (forall c, cells h a = Some c -> Q c h) -> wp (rd a) Q h.
Proof. intros a Q h A H. unfold wp, rd. unfold alive in A. destruct (cells h a); auto; congruence. Qed.
Lemma wp_rd' : forall a c (Q : cell -> heap -> Prop) h, cells h a = Some c -> Q c h -> wp (rd a) Q h.
Proof. intros a c Q h E H. unfold wp, rd. rewrite E. auto. Qed.
Lemma wp_test : forall f a (Q : bool -> heap -> Prop) h, alive h a ->
  (forall c, cells h a = Some c -> Q (f c) h) -> wp (test f a) Q h.
Proof. intros f a Q h A H. apply wp_bind. apply wp_rd; auto. Qed.
Lemma wp_CAR : forall a (Q : N -> heap -> Prop) h, alive h a ->
  (forall c x y, cells h a = Some c -> body c = KPair x y -> Q x h) -> wp (CAR a) Q h.
Proof. intros a Q h A H. apply wp_bind. apply wp_rd; auto. intros c E. destruct (body c) eqn:B; try apply wp_wild. apply wp_done. eauto. Qed.
Lemma wp_CDR : forall a (Q : N -> heap -> Prop) h, alive h a ->
  (forall c x y, cells h a = Some c -> body c = KPair x y -> Q y h) -> wp (CDR a) Q h.
Proof. intros a Q h A H. apply wp_bind. apply wp_rd; auto. intros c E. destruct (body c) eqn:B; try apply wp_wild. apply wp_done. eauto. Qed.
Lemma wp_symbol : forall a (Q : symbol -> heap -> Prop) h, alive h a ->
  (forall c s, cells h a = Some c -> body c = KSym s -> Q s h) -> wp (symbol_of a) Q h.
Proof. intros a Q h A H. apply wp_bind. apply wp_rd; auto. intros c E. destruct (body c) eqn:B; try apply wp_wild. apply wp_done. eauto. Qed.

(** Edges when one cell is replaced. *)
Lemma edges_set : forall h a c c' b, cells h a = Some c -> (a < nxt h)%N ->
  cnt b (edges (set_cell h a (Some c'))) + cnt b (fields c) = cnt b (edges h) + cnt b (fields c').
Proof.
  intros h a c c' b E L. pose proof (edgesZ_upd [] [] h (set_cell h a (Some c')) a b) as U.
  rewrite !edgesZ_nil in U. rewrite !fieldsZ_out in U by (intros []). unfold fields_at in U at 1 2.
  rewrite E, set_same in U. apply U; auto. intros x H. apply fieldsZ_same, set_other; auto.
Qed.

(** Replacing a cell: what it held is released to the program, what it holds now
    is taken from it. *)
Lemma own_set : forall h a c c' R R', own h R -> cells h a = Some c ->
  weak c' = false -> 0 < refs c' ->
  (forall b, cnt b (fields c') + cnt b R' + is a b * refs c = cnt b (fields c) + cnt b R + is a b * refs c') ->
  own (set_cell h a (Some c')) R'.
Proof.
  intros h a c c' R R' [C S] E W P H.
  assert (L : (a < nxt h)%N) by (apply (bounded _ _ C); unfold alive; congruence).
  split.
  - constructor.
    + intros b A. apply (bounded _ _ C). intro N0. apply A.
      destruct (N.eq_dec b a) as [X|X]; [subst; congruence|]. rewrite set_other; auto.
    + intros b cb Eb. pose proof (edges_set h a c c' b E L) as U. specialize (H b).
      destruct (N.eq_dec b a) as [X|X].
      * subst b. rewrite set_same in Eb. injection Eb as <-. rewrite is_same in H.
        destruct (counted _ _ C a c E) as [H1 H2]. split; [lia|auto].
      * rewrite set_other in Eb; auto. rewrite is_other in H by auto.
        destruct (counted _ _ C b cb Eb) as [H1 H2]. split; [lia|auto].
    + intros b A. pose proof (edges_set h a c c' b E L) as U. specialize (H b).
      destruct (N.eq_dec b a) as [X|X].
      * subst b. unfold alive. rewrite set_same. discriminate.
      * unfold alive. rewrite set_other; auto. rewrite is_other in H by auto. apply (present _ _ C). lia.
  - intros b cb Eb. destruct (N.eq_dec b a) as [X|X].
    + subst b. rewrite set_same in Eb. injection Eb as <-. auto.
    + rewrite set_other in Eb; eauto.
Qed.

(** Only the cells matter. *)
Lemma own_ext : forall h h' R, own h R -> nxt h' = nxt h -> (forall a, cells h' a = cells h a) -> own h' R.
Proof.
  intros h h' R [C S] Nx E.
  assert (ED : edges h' = edges h).
  { unfold edges, addresses. rewrite Nx. apply flat_map_ext. intro a. unfold fields_at. rewrite E. auto. }
  split; [constructor|].
  - intros a A. rewrite Nx. apply (bounded _ _ C). unfold alive in *. rewrite <- E. auto.
  - intros a c Ea. rewrite ED. rewrite E in Ea. apply (counted _ _ C); auto.
  - intros a H. rewrite ED in H. unfold alive. rewrite E. apply (present _ _ C); auto.
  - intros a c Ea. rewrite E in Ea. eauto.
Qed.

Lemma wp_wr : forall a c (Q : unit -> heap -> Prop) h, alive h a -> Q tt (set_cell h a (Some c)) -> wp (wr a c) Q h.
Proof. intros a c Q h A H. unfold wp, wr. unfold alive in A. destruct (cells h a); auto; congruence. Qed.

Lemma set_adds : forall h a c c', cells h a = Some c -> stored c' = stored c -> adds h (set_cell h a (Some c')).
Proof.
  intros h a c c' E T. constructor; auto; [cbn; lia| |].
  - intros x _ Ex. rewrite set_other; auto. congruence.
  - intros x cx Ex. destruct (N.eq_dec x a) as [X|X].
    + subst x. rewrite set_same. exists c'. split; congruence.
    + rewrite set_other; eauto.
Qed.

Lemma wp_up : forall a (Q : N -> heap -> Prop) h R, own h R -> alive h a ->
  (forall h', own h' (a :: R) -> adds h h' -> Q a h') -> wp (up a) Q h.
Proof.
  intros a Q h R O A H. unfold up. apply wp_bind. apply wp_rd; auto. intros c E.
  apply wp_bind. apply wp_wr; auto. apply wp_done. apply H.
  - eapply own_set; eauto.
    + cbn. apply (proj2 O _ _ E).
    + cbn. lia.
    + intro b. change (fields (with_refs c (S (refs c)))) with (fields c). cbn. lia.
  - eapply set_adds; eauto.
Qed.

Lemma wp_X : forall a (Q : unit -> heap -> Prop) h R, own h (a :: R) ->
  (forall h', own h' R -> shrinks h h' -> Q tt h') -> wp (X a) Q h.
Proof.
  intros a Q h R [C S] H. destruct (X_spec h a R C) as [h' [D [C' Sh]]].
  unfold wp. rewrite D. apply H; auto. split; auto. intros b cb Eb.
  destruct Sh as [_ [_ Sh]]. destruct (Sh _ _ Eb) as [c [E T]]. unfold stored in T. injection T as T1 T2 T3.
  rewrite T3. eauto.
Qed.

(** A new cell. *)
Definition kids (b : content) : list N := match b with KPair x y => [x; y] | _ => [] end.
Definition fresh_heap (h : heap) (b : content) : heap :=
  mkheap (fun x => if N.eqb x (nxt h) then Some (mkcell 1 false false b) else cells h x) (N.succ (nxt h)) (aux h).
Record grown (h h' : heap) (a : N) (b : content) : Prop := mkgrown {
  g_addr : a = nxt h;
  g_nxt : nxt h' = N.succ (nxt h);
  g_aux : aux h' = aux h;
  g_new : cells h' a = Some (mkcell 1 false false b);
  g_old : forall x, x <> a -> cells h' x = cells h x
}.
Lemma grown_adds : forall h R h' a k, own h R -> grown h h' a k -> adds h h'.
Proof.
  intros h R h' a k O [A B C D E]. constructor; auto; [lia| |].
  - intros x H Ex. rewrite E; auto. lia.
  - intros x c Ex. rewrite E; eauto. intro X. subst x.
    assert (alive h a) as Al by (unfold alive; congruence). apply (own_bounded _ _ _ O) in Al. lia.
Qed.
Lemma edges_fresh : forall h b x, cnt x (edges (fresh_heap h b)) = cnt x (edges h) + cnt x (kids b).
Proof.
  intros h b x. unfold edges, addresses. cbn [nxt fresh_heap].
  replace (N.to_nat (N.succ (nxt h))) with (S (N.to_nat (nxt h))) by lia.
  rewrite seq_S, map_app, flat_map_app, cnt_app. f_equal.
  - apply flat_cnt_out with (a := nxt h).
    + intro I. apply addresses_in in I. lia.
    + intros y Hy. unfold fields_at. cbn. apply N.eqb_neq in Hy. rewrite Hy. auto.
  - cbn [map flat_map Nat.add]. rewrite app_nil_r. rewrite N2Nat.id. unfold fields_at. cbn [cells fresh_heap].
    rewrite N.eqb_refl. unfold fields. cbn [body weak]. destruct b; auto.
Qed.
Lemma own_fresh : forall b h R, own h (kids b ++ R) -> own (fresh_heap h b) (nxt h :: R).
Proof.
  intros b h R [C S]. split.
  - constructor.
    + intros x A. cbn. unfold alive in A. cbn in A. destruct (N.eqb_spec x (nxt h)); [lia|].
      apply (bounded _ _ C) in A. lia.
    + intros x c E. rewrite edges_fresh. cbn [cells fresh_heap] in E. cbn [cnt].
      destruct (N.eqb_spec x (nxt h)) as [X|X].
      * injection E as <-. subst x. cbn [refs]. rewrite is_same. split; [|lia].
        destruct (Nat.eq_dec (cnt (nxt h) (edges h) + cnt (nxt h) (kids b ++ R)) 0) as [Z|Z].
        -- rewrite cnt_app in Z. lia.
        -- exfalso. assert (alive h (nxt h)) as A by (apply (present _ _ C); lia). apply (bounded _ _ C) in A. lia.
      * destruct (counted _ _ C x c E) as [H1 H2]. rewrite cnt_app in H1. rewrite is_other by auto. split; [lia|auto].
    + intros x A. unfold alive. cbn [cells fresh_heap]. destruct (N.eqb_spec x (nxt h)) as [X|X]; [discriminate|].
      apply (present _ _ C). rewrite edges_fresh in A. cbn [cnt] in A. rewrite is_other in A by auto. rewrite cnt_app. lia.
  - intros x c E. cbn [cells fresh_heap] in E. destruct (N.eqb x (nxt h)); [injection E as <-; auto|eauto].
Qed.
Lemma fresh_grown : forall h b, grown h (fresh_heap h b) (nxt h) b.
Proof.
  intros h b. constructor; auto.
  - cbn. rewrite N.eqb_refl. auto.
  - intros x X. cbn. apply N.eqb_neq in X. rewrite X. auto.
Qed.
Lemma wp_alloc : forall b (Q : N -> heap -> Prop) h R, own h (kids b ++ R) ->
  (forall a h', own h' (a :: R) -> grown h h' a b -> Q a h') -> wp (alloc b) Q h.
Proof.
  intros b Q h R O H. unfold wp, alloc. fold (fresh_heap h b). apply H; [apply own_fresh; auto|apply fresh_grown].
Qed.
Lemma wp_cons : forall x y (Q : N -> heap -> Prop) h R, own h (x :: y :: R) ->
  (forall a h', own h' (a :: R) -> grown h h' a (KPair x y) -> Q a h') -> wp (hcons x y) Q h.
Proof. intros x y Q h R O H. apply (wp_alloc (KPair x y) Q h R); auto. Qed.
Lemma wp_nil : forall (Q : N -> heap -> Prop) h R, own h R ->
  (forall a h', own h' (a :: R) -> grown h h' a KNil -> Q a h') -> wp make_nil Q h.
Proof. intros Q h R O H. apply (wp_alloc KNil Q h R); auto. Qed.

(** ** car, cdr *)
Lemma wp_car : forall a (Q : N -> heap -> Prop) h R, own h R -> alive h a ->
  (forall r h', own h' (r :: R) -> adds h h' -> (forall c x y, cells h a = Some c -> body c = KPair x y -> r = x) -> Q r h') -> wp (hcar a) Q h.
Proof.
  intros a Q h R O A H. apply wp_bind. apply wp_rd; auto. intros c E. destruct (body c) as [| | | | | |x y] eqn:B;
    try (apply (wp_nil _ _ R O); intros r h' O' G; apply H; auto; [eapply grown_adds; eauto|];
         intros c0 x0 y0 E0 B0; congruence).
  apply (wp_up _ _ _ R O).
  - apply (own_pair _ _ _ _ _ _ O E B).
  - intros h' O' S. apply H; auto. intros c0 x0 y0 E0 B0. congruence.
Qed.
Lemma wp_cdr : forall a (Q : N -> heap -> Prop) h R, own h R -> alive h a ->
  (forall r h', own h' (r :: R) -> adds h h' -> (forall c x y, cells h a = Some c -> body c = KPair x y -> r = y) -> Q r h') -> wp (hcdr a) Q h.
Proof.
  intros a Q h R O A H. apply wp_bind. apply wp_rd; auto. intros c E. destruct (body c) as [| | | | | |x y] eqn:B;
    try (apply (wp_nil _ _ R O); intros r h' O' G; apply H; auto; [eapply grown_adds; eauto|];
         intros c0 x0 y0 E0 B0; congruence).
  apply (wp_up _ _ _ R O).
  - apply (own_pair _ _ _ _ _ _ O E B).
  - intros h' O' S. apply H; auto. intros c0 x0 y0 E0 B0. congruence.
Qed.

(** ** Finite lists: the pairs, and what ends them *)
Definition cdr_of (c : cell) : option N := match body c with KPair _ y => Some y | _ => None end.
Inductive spine (h : heap) : N -> list N -> N -> Prop :=
| spine_end : forall a c, cells h a = Some c -> cdr_of c = None -> spine h a [] a
| spine_cons : forall a c y ps z, cells h a = Some c -> cdr_of c = Some y -> spine h y ps z -> spine h a (a :: ps) z.
Lemma spine_fun : forall h a ps z, spine h a ps z -> forall ps' z', spine h a ps' z' -> ps' = ps /\ z' = z.
Proof.
  intros h a ps z S. induction S as [a c E D|a c y ps z E D S IH]; intros ps' z' S'; inversion S'; subst; try congruence; auto.
  rewrite E in *. match goal with X : Some _ = Some _ |- _ => injection X as <- end.
  rewrite D in *. match goal with X : Some _ = Some _ |- _ => injection X as <- end.
  destruct (IH _ _ H1) as [-> ->]. auto.
Qed.
Lemma spine_at : forall h a ps z q, spine h a ps z -> In q ps -> exists ps', spine h q (q :: ps') z /\ length ps' < length ps.
Proof.
  intros h a ps z q S. induction S as [a c E D|a c y ps z E D S IH]; intros I; [destruct I|].
  destruct I as [I|I].
  - subst q. exists ps. split; [eapply spine_cons; eauto|cbn; lia].
  - destruct (IH I) as [ps' [S' L]]. exists ps'. split; auto. cbn; lia.
Qed.
Lemma spine_last : forall h a ps z, spine h a ps z -> exists c, cells h z = Some c /\ cdr_of c = None.
Proof. intros h a ps z S. induction S; eauto. Qed.
Lemma spine_nodup : forall h a ps z, spine h a ps z -> NoDup ps /\ ~ In z ps.
Proof.
  intros h a ps z S. induction S as [a c E D|a c y ps z E D S [IH1 IH2]]; [split; [constructor|intros []]|].
  assert (Sa : spine h a (a :: ps) z) by (eapply spine_cons; eauto).
  split.
  - constructor; auto. intro I. destruct (spine_at _ _ _ _ _ S I) as [ps' [S' L]].
    destruct (spine_fun _ _ _ _ Sa _ _ S') as [Q _]. injection Q as Q. subst ps'. lia.
  - intros [I|I]; auto. subst z. destruct (spine_last _ _ _ _ S) as [c' [E' D']].
    congruence.
Qed.
Lemma own_cdr : forall h R a c y, own h R -> cells h a = Some c -> cdr_of c = Some y -> alive h y.
Proof.
  intros h R a c y O E D. unfold cdr_of in D. destruct (body c) as [| | | | | |x y'] eqn:B; try discriminate.
  injection D as ->. apply (own_pair _ _ _ _ _ _ O E B).
Qed.
Lemma spine_keep : forall h a ps z, spine h a ps z -> forall h' R', own h' R' -> alive h' a ->
  (forall q c c', In q (ps ++ [z]) -> cells h q = Some c -> cells h' q = Some c' -> cdr_of c' = cdr_of c) ->
  spine h' a ps z.
Proof.
  intros h a ps z S. induction S as [a c E D|a c y ps z E D S IH]; intros h' R' O A K;
    pose proof A as A'; unfold alive in A; destruct (cells h' a) as [c'|] eqn:E'; try congruence.
  - eapply spine_end; eauto. rewrite (K a c c'); auto. cbn; auto.
  - assert (D' : cdr_of c' = Some y) by (rewrite (K a c c'); auto; cbn; auto).
    eapply spine_cons; eauto. eapply IH; eauto; [eapply own_cdr; eauto|].
    intros q cq cq' I. apply K. cbn. auto.
Qed.
Lemma spine_insert : forall pre h a ps z, spine h a ps z -> forall root post h' new c' y cn,
  ps = pre ++ root :: post ->
  spine h' y post z ->
  (forall q c, In q pre -> cells h q = Some c -> exists c', cells h' q = Some c' /\ cdr_of c' = cdr_of c) ->
  cells h' root = Some c' -> cdr_of c' = Some new ->
  cells h' new = Some cn -> cdr_of cn = Some y ->
  spine h' a (pre ++ root :: new :: post) z.
Proof.
  induction pre as [|p pre IH]; intros h a ps z S root post h' new c' y cn Q S' K E1 D1 E2 D2; subst ps.
  - inversion S; subst. cbn. eapply spine_cons; eauto. eapply spine_cons; eauto.
  - inversion S; subst. cbn. destruct (K p c) as [c2 [E3 D3]]; cbn; auto.
    eapply spine_cons; eauto; [rewrite D3; eauto|]. eapply IH; eauto. intros q cq I. apply K. cbn. auto.
Qed.
Lemma shrinks_body : forall h h' q c c', shrinks h h' -> cells h q = Some c -> cells h' q = Some c' -> stored c' = stored c.
Proof. intros h h' q c c' [_ [_ S]] E E'. destruct (S _ _ E') as [c0 [E0 T]]. congruence. Qed.
Lemma stored_cdr : forall c c', stored c' = stored c -> cdr_of c' = cdr_of c.
Proof. intros c c' T. apply stored_eq in T. unfold cdr_of. destruct T as [-> _]. auto. Qed.

(** ** dup *)
Definition fresh_list (b : N) (h : heap) (r : N) : Prop :=
  exists ps z, spine h r ps z /\ Forall (fun p => (b <= p)%N) ps.
Lemma spine_adds : forall h h' a ps z, adds h h' -> spine h a ps z -> spine h' a ps z.
Proof.
  intros h h' a ps z A S. induction S as [a c E D|a c y ps z E D S IH]; destruct (a_cells _ _ A _ _ E) as [c' [E' T]];
    apply stored_cdr in T.
  - eapply spine_end; eauto. congruence.
  - eapply spine_cons; eauto. congruence.
Qed.
Lemma dup_spec : forall n a h R, own h R -> alive h a ->
  wp (hdup n a) (fun r h' => own h' (r :: R) /\ adds h h' /\ fresh_list (nxt h) h' r) h.
Proof.
  induction n as [|n IH]; intros a h R O A; [apply wp_dry|]. cbn [hdup].
  apply wp_bind. apply wp_rd; auto. intros c E. destruct (body c) as [| | | | | |x y] eqn:B;
    try (apply (wp_up _ _ _ R O); auto; intros h' O' S; split; [auto|]; split; [auto|];
         destruct (adds_body _ _ _ _ S E) as [c' [E' B']]; exists [], a; split; [|constructor];
         apply (spine_end _ _ _ E'); unfold cdr_of; rewrite B', B; auto).
  destruct (own_pair _ _ _ _ _ _ O E B) as [Ax Ay].
  apply wp_bind. eapply wp_mono; [apply (IH y h R O Ay)|]. intros r h1 [O1 [S1 [ps [z [P1 Y1]]]]].
  apply wp_bind. apply (wp_up _ _ _ _ O1 (adds_alive _ _ _ S1 Ax)). intros h2 O2 S2.
  apply (wp_cons _ _ _ _ R O2). intros p h3 O3 G3. pose proof (grown_adds _ _ _ _ _ O2 G3) as S3.
  pose proof (adds_trans _ _ _ S1 S2) as S12. pose proof (adds_trans _ _ _ S12 S3) as S13. split; [auto|]. split; [auto|].
  exists (p :: ps), z. split.
  - eapply spine_cons; [apply (g_new _ _ _ _ G3)|reflexivity|]. eapply spine_adds; [exact S3|]. eapply spine_adds; [exact S2|exact P1].
  - constructor; auto. rewrite (g_addr _ _ _ _ G3). apply (a_nxt _ _ S12).
Qed.

(** ** bind *)
Lemma bind_spec : forall n clos arg val h R, own h (clos :: arg :: val :: R) ->
  wp (hbind n clos arg val) (fun r h' => own h' (r :: R) /\ frozen (nxt h) h h') h.
Proof.
  induction n as [|n IH]; intros clos arg val h R O; [apply wp_dry|]. cbn [hbind].
  assert (A : alive h arg) by (eapply own_alive; [exact O|cbn; auto]).
  apply wp_bind. apply wp_rd; auto. intros c E. destruct (body c) as [| | | | |s|x y] eqn:B.
  1-5: apply wp_bind; apply (wp_X _ _ _ (clos :: val :: R)); [reown|]; intros h1 O1 S1;
    apply wp_bind; apply (wp_X _ _ _ (clos :: R)); [reown|]; intros h2 O2 S2;
    apply wp_done; split; [auto|]; apply frozen_trans with h1; [lia|apply shrinks_frozen; auto|];
    apply shrinks_frozen; auto.
  - apply wp_bind. apply (wp_cons _ _ _ _ (clos :: R)); [reown|]. intros kv h1 O1 G1.
    apply (wp_cons _ _ _ _ R); [reown|]. intros r h2 O2 G2. split; [auto|].
    apply adds_frozen. eapply adds_trans; eapply grown_adds; eauto.
  - apply wp_bind. apply (wp_car _ _ _ _ O A). intros s h1 O1 S1 _.
    apply wp_bind. apply (wp_car _ _ _ _ O1); [eapply own_alive; [exact O1|cbn; auto]|]. intros v h2 O2 S2 _.
    apply wp_bind. apply (wp_cdr _ _ _ _ O2); [eapply own_alive; [exact O2|cbn; auto 8]|]. intros oth h3 O3 S3 _.
    apply wp_bind. apply (wp_cdr _ _ _ _ O3); [eapply own_alive; [exact O3|cbn; auto 8]|]. intros rem h4 O4 S4 _.
    apply wp_bind. apply (wp_X _ _ _ (clos :: s :: v :: oth :: rem :: val :: R)); [reown|]. intros h5 O5 S5.
    apply wp_bind. apply (wp_X _ _ _ (clos :: s :: v :: oth :: rem :: R)); [reown|]. intros h6 O6 S6.
    apply wp_bind. eapply wp_mono; [apply (IH clos s v h6 (oth :: rem :: R)); reown|]. intros cl0 h7 [O7 F7].
    eapply wp_mono; [apply (IH cl0 oth rem h7 R); reown|]. intros r h8 [O8 F8]. split; [auto|].
    assert (F4 : frozen (nxt h) h h4). { apply adds_frozen. eauto using adds_trans. }
    pose proof (f_nxt _ _ _ F4) as L4. pose proof S5 as [L5 _]. pose proof S6 as [L6 _]. pose proof (f_nxt _ _ _ F7) as L7.
    apply frozen_trans with h4; [lia|auto|]. apply frozen_trans with h5; [lia|apply shrinks_frozen; auto|].
    apply frozen_trans with h6; [lia|apply shrinks_frozen; auto|].
    apply frozen_trans with h7; [lia|eapply frozen_mono; [|eauto]; lia|]. eapply frozen_mono; [|eauto]; lia.
Qed.

Lemma spine_mid : forall pre h a p q ps z, spine h a (pre ++ p :: q :: ps) z ->
  exists c, cells h p = Some c /\ cdr_of c = Some q.
Proof.
  induction pre as [|x pre IH]; intros h a p q ps z S; inversion S as [|a' c y ps' z' E D S']; subst.
  - inversion S'; subst. eauto.
  - eapply IH; eauto.
Qed.

(** ** sss *)

(** A new pair between [root] and its CDR. *)
Lemma own_link : forall h R root c car cdr kv, own h (kv :: R) -> cells h root = Some c -> body c = KPair car cdr ->
  own (set_cell (fresh_heap h (KPair kv cdr)) root (Some (with_body c (KPair car (nxt h))))) R.
Proof.
  intros h R root c car cdr kv O E B.
  assert (L : (root < nxt h)%N) by (eapply own_bounded; [exact O|unfold alive; congruence]).
  assert (W : weak c = false) by (apply (proj2 O _ _ E)).
  assert (P : 0 < refs c) by (apply (counted _ _ (proj1 O) _ _ E)).
  set (ha := set_cell h root (Some (with_body c KNil))).
  assert (Oa : own ha (kv :: cdr :: car :: R)).
  { eapply own_set; eauto. intro b. unfold fields. cbn [body with_body weak refs]. rewrite B, W. cbn [cnt]. lia. }
  assert (Ob : own (fresh_heap ha (KPair kv cdr)) (nxt h :: car :: R)) by (exact (own_fresh (KPair kv cdr) ha (car :: R) Oa)).
  assert (Er : cells (fresh_heap ha (KPair kv cdr)) root = Some (with_body c KNil)).
  { cbn. destruct (N.eqb_spec root (nxt h)); [lia|]. rewrite N.eqb_refl. auto. }
  assert (Oc : own (set_cell (fresh_heap ha (KPair kv cdr)) root (Some (with_body c (KPair car (nxt h))))) R).
  { eapply own_set; eauto. intro b. unfold fields. cbn [body with_body weak refs]. rewrite W. cbn [cnt]. lia. }
  apply (own_ext _ _ _ Oc); auto. intro a. destruct (N.eq_dec a root) as [X|X].
  - subst a. rewrite !set_same. auto.
  - rewrite !set_other by auto. cbn. destruct (N.eqb_spec a (nxt h)); auto. destruct (N.eqb_spec a root); [congruence|auto].
Qed.

(** What [hsss] leaves when it puts the pair [kv] in the list at [root], a part of
    the list [top] the program holds: either the list has changed in place, or the
    pair goes in front, in a new cell that takes over the reference to [root]. *)
Definition sss_out (b : N) (h : heap) (R : list N) (pre : list N) (top root z kv r : N) (h' : heap) : Prop :=
  (r = root /\ own h' R /\ frozen b h h' /\
   exists ps', spine h' top (pre ++ root :: ps') z /\ Forall (fun p => (b <= p)%N) (root :: ps'))
  \/ (r = nxt h /\ h' = fresh_heap h (KPair kv root)).
Lemma sss_inner : forall n ps root h kv R b pre top z, own h (kv :: R) -> In top R ->
  spine h top (pre ++ ps) z -> spine h root ps z -> Forall (fun p => (b <= p)%N) ps -> (b <= nxt h)%N ->
  wp (hsss n root kv) (sss_out b h R pre top root z kv) h.
Proof.
  induction n as [|n IH]; intros ps root h kv R b pre top z O T SP SR Y L; [apply wp_dry|]. cbn [hsss].
  assert (Ar : alive h root) by (inversion SR; subst; unfold alive; congruence).
  apply wp_bind. apply wp_rd; auto. intros c E. destruct (is_nil_c c) eqn:NI.
  { right. unfold hcons, alloc. auto. }
  apply wp_bind. apply wp_CAR; auto. intros c0 car cdr E0 B0. rewrite E in E0. injection E0 as <-.
  apply wp_bind. apply wp_CDR; auto. intros c0 car0 cdr0 E0 B0'. rewrite E in E0. injection E0 as <-.
  rewrite B0 in B0'. injection B0' as <- <-.
  destruct (own_pair _ _ _ _ _ _ O E B0) as [Acar Acdr].
  apply wp_bind. apply wp_CAR; auto. intros c1 k' y1 E1 B1. destruct (own_pair _ _ _ _ _ _ O E1 B1) as [Ak' _].
  apply wp_bind. apply wp_symbol; auto. intros c2 s' E2 B2.
  assert (Akv : alive h kv) by (eapply own_alive; [exact O|cbn; auto]).
  apply wp_bind. apply wp_CAR; auto. intros c3 k y3 E3 B3. destruct (own_pair _ _ _ _ _ _ O E3 B3) as [Ak _].
  apply wp_bind. apply wp_symbol; auto. intros c4 s E4 B4.
  assert (SR' := SR). inversion SR' as [a' c' E' D'|a' c' y ps' z' E' D' S']; subst.
  { rewrite E in E'. injection E' as <-. unfold cdr_of in D'. rewrite B0 in D'. discriminate. }
  rewrite E in E'. injection E' as <-. unfold cdr_of in D'. rewrite B0 in D'. injection D' as <-.
  inversion Y as [|? ? Y1 Y2]; subst. destruct (spine_nodup _ _ _ _ SP) as [ND NZ].
  assert (Wc : weak c = false) by (apply (proj2 O _ _ E)).
  assert (Pc : 0 < refs c) by (apply (counted _ _ (proj1 O) _ _ E)).
  destruct (sym_compare s' s) eqn:CMP.
  - (* replaced *)
    apply wp_bind. apply (wp_rd' _ c); auto. rewrite B0. apply wp_bind. apply wp_wr; auto.
    set (h1 := set_cell h root (Some (with_body c (KPair kv cdr)))).
    assert (O1 : own h1 (car :: R)).
    { eapply own_set; eauto. intro b0. unfold fields. cbn [body with_body weak refs]. rewrite B0, Wc. cbn [cnt]. lia. }
    apply wp_bind. apply (wp_X _ _ _ R O1). intros h2 O2 S2. apply wp_done. left. split; [auto|]. split; [auto|].
    assert (F1 : frozen b h h1).
    { constructor; auto; [cbn; lia| |].
      - intros a _ Ea. unfold h1. rewrite set_other; auto. congruence.
      - intros a ca ca' La Ea Ea'. unfold h1 in Ea'. rewrite set_other in Ea' by lia. rewrite Ea in Ea'. injection Ea' as <-. auto. }
    split; [apply frozen_trans with h1; auto; apply shrinks_frozen; auto|].
    exists ps'. split; [|constructor; auto].
    eapply spine_keep; [exact SP|exact O2|eapply own_alive; eauto|].
    intros q cq cq' _ Eq Eq'. destruct (N.eq_dec q root) as [Q|Q].
    + subst q. rewrite E in Eq. injection Eq as <-. assert (E5 : cells h1 root = Some (with_body c (KPair kv cdr))) by apply set_same.
      rewrite (stored_cdr _ _ (shrinks_body _ _ _ _ _ S2 E5 Eq')). unfold cdr_of. cbn [body with_body]. rewrite B0. auto.
    + assert (E5 : cells h1 q = Some cq) by (unfold h1; rewrite set_other; auto).
      apply stored_cdr. eapply shrinks_body; eauto.
  - (* further down *)
    apply wp_bind. eapply wp_mono; [apply (IH ps' cdr h kv R b (pre ++ [root]) top z); auto; rewrite <- app_assoc; auto|].
    intros r h1 [[-> [O1 [F1 [ps1 [S1 Y3]]]]]|[-> ->]].
    + rewrite <- app_assoc in S1. cbn [app] in S1.
      destruct (spine_at _ _ _ _ root S1) as [ps2 [S2 _]]; [apply in_or_app; cbn; auto|].
      assert (exists c1, cells h1 root = Some c1 /\ cdr_of c1 = Some cdr) as [c5 [E5 D5]].
      { eapply spine_mid; eauto. }
      apply wp_bind. apply (wp_rd' _ c5); auto. unfold cdr_of in D5. destruct (body c5) as [| | | | | |x5 y5] eqn:B5; try discriminate.
      injection D5 as ->. apply wp_bind. apply wp_wr; [unfold alive; congruence|]. apply wp_done. left. split; [auto|].
      assert (W5 : weak c5 = false) by (apply (proj2 O1 _ _ E5)).
      assert (O2 : own (set_cell h1 root (Some (with_body c5 (KPair x5 cdr)))) R).
      { eapply own_set; eauto; [apply (counted _ _ (proj1 O1) _ _ E5)|]. intro b0. unfold fields. cbn [body with_body weak refs]. rewrite B5. lia. }
      split; [auto|].
      assert (A2 : adds h1 (set_cell h1 root (Some (with_body c5 (KPair x5 cdr))))).
      { eapply set_adds; eauto. unfold stored. cbn [body with_body weak tail]. rewrite B5. auto. }
      split; [apply frozen_trans with h1; auto; apply adds_frozen; auto|].
      exists (cdr :: ps1). split; [|constructor; auto]. eapply spine_adds; eauto.
    + assert (Rn : root <> nxt h) by (pose proof (own_bounded _ _ _ O Ar); lia).
      set (h1 := fresh_heap h (KPair kv cdr)).
      assert (E5 : cells h1 root = Some c) by (unfold h1; cbn; apply N.eqb_neq in Rn; rewrite Rn; auto).
      assert (En : cells h1 (nxt h) = Some (mkcell 1 false false (KPair kv cdr))) by (unfold h1; cbn; rewrite N.eqb_refl; auto).
      apply wp_bind. apply (wp_rd' _ c); auto. rewrite B0. apply wp_bind. apply wp_wr; [unfold alive; congruence|].
      apply wp_done. left. split; [auto|].
      split; [apply own_link; auto|].
      set (h2 := set_cell h1 root (Some (with_body c (KPair car (nxt h))))).
      split.
      { constructor; auto; [cbn; lia| |].
        - intros a La Ea. unfold h2. rewrite set_other by congruence. unfold h1. cbn. destruct (N.eqb_spec a (nxt h)); [lia|auto].
        - intros a ca ca' La Ea Ea'. unfold h2 in Ea'. rewrite set_other in Ea' by lia. unfold h1 in Ea'. cbn in Ea'.
          destruct (N.eqb_spec a (nxt h)); [lia|]. rewrite Ea in Ea'. injection Ea' as <-. auto. }
      exists (nxt h :: ps'). split; [|constructor; auto].
      assert (KP : forall q cq, q <> root -> cells h q = Some cq -> cells h2 q = Some cq).
      { intros q cq Hq Eq. unfold h2. rewrite set_other by auto. unfold h1. cbn. destruct (N.eqb_spec q (nxt h)); auto.
        subst q. assert (alive h (nxt h)) as Al by (unfold alive; congruence). apply (own_bounded _ _ _ O) in Al. lia. }
      assert (R2 : own h2 R) by (apply own_link; auto).
      assert (N1 : ~ In root pre /\ ~ In root ps').
      { apply NoDup_remove_2 in ND. split; intro I; apply ND; apply in_or_app; auto. }
      eapply (spine_insert pre h top _ z SP root ps' h2 (nxt h)); eauto.
      * eapply spine_keep; [exact S'|exact R2| |].
        -- unfold alive. destruct (N.eq_dec cdr root) as [Q|Q]; [subst cdr; unfold h2; rewrite set_same; discriminate|].
           unfold alive in Acdr. destruct (cells h cdr) eqn:Ec; [|congruence]. rewrite (KP _ _ Q Ec). discriminate.
        -- intros q cq cq' I Eq Eq'. assert (q <> root).
           { intro Q. subst q. apply in_app_or in I. destruct I as [I|[I|[]]]; [tauto|]. subst z. apply NZ. apply in_or_app. cbn. auto. }
           rewrite (KP _ _ H Eq) in Eq'. injection Eq' as <-. auto.
      * intros q cq I Eq. exists cq. split; auto. apply KP; auto. intro Q. subst q. tauto.
      * unfold h2. apply set_same.
      * reflexivity.
      * unfold h2. rewrite set_other by auto. exact En.
      * reflexivity.
  - right. unfold hcons, alloc. auto.
Qed.
Lemma sss_spec : forall n ps root h kv R b z, own h (root :: kv :: R) ->
  spine h root ps z -> Forall (fun p => (b <= p)%N) ps -> (b <= nxt h)%N ->
  wp (hsss n root kv) (fun r h' => own h' (r :: R) /\ frozen b h h' /\ fresh_list b h' r) h.
Proof.
  intros n ps root h kv R b z O S Y L. eapply wp_mono.
  - apply (sss_inner n ps root h kv (root :: R) b [] root z); auto; [reown|cbn; auto].
  - intros r h' [[-> [O' [F [ps' [S' Y']]]]]|[-> ->]].
    + split; [auto|]. split; [auto|]. exists (root :: ps'), z. auto.
    + assert (O' : own (fresh_heap h (KPair kv root)) (nxt h :: R)) by (apply own_fresh; cbn [kids app]; reown).
      pose proof (fresh_grown h (KPair kv root)) as G. pose proof (grown_adds _ _ _ _ _ O G) as A.
      split; [auto|]. split; [apply adds_frozen; auto|].
      exists (nxt h :: ps), z. split; [|constructor; auto].
      eapply spine_cons; [apply (g_new _ _ _ _ G)|reflexivity|]. eapply spine_adds; eauto.
Qed.

(** ** merge *)
Lemma path_trans : forall h a b c, path h a b -> path h b c -> path h a c.
Proof. intros h a b c P Q. induction P; auto; [eapply path_car|eapply path_cdr]; eauto. Qed.
Lemma merge_loop_spec : forall n root elt h h0 R0 R holder, own h0 R0 -> own h (root :: R) -> frozen (nxt h0) h0 h ->
  In holder R -> alive h0 holder -> path h0 holder elt -> fresh_list (nxt h0) h root ->
  wp (hmerge_loop n root elt) (fun r h' => own h' (r :: R) /\ frozen (nxt h0) h0 h' /\ fresh_list (nxt h0) h' r) h.
Proof.
  induction n as [|n IH]; intros root elt h h0 R0 R holder O0 O F IH0 A0 P [ps [z [S Y]]]; [apply wp_dry|]. cbn [hmerge_loop].
  assert (FP : forall h1 R1 q, own h1 R1 -> frozen (nxt h0) h0 h1 -> In holder R1 -> path h0 holder q -> alive h1 q).
  { intros h1 R1 q O1 F1 I1 P1. destruct (frozen_path _ _ _ _ _ _ O0 O1 F1 A0 (own_alive _ _ _ O1 I1) P1) as [_ [c [c' [_ [E _]]]]].
    unfold alive. congruence. }
  destruct (frozen_path _ _ _ _ _ _ O0 O F A0 (own_alive _ _ _ O (or_intror IH0)) P) as [Lp [c0 [c [E0 [E B]]]]].
  apply wp_bind. apply wp_CAR; [unfold alive; congruence|]. intros c1 kv y E1 B1. rewrite E in E1. injection E1 as <-.
  rewrite B1 in B. destruct (own_pair _ _ _ _ _ _ O E B1) as [Akv Ay].
  apply wp_bind. apply (wp_up _ _ _ _ O Akv). intros h1 O1 S1.
  assert (L1 : (nxt h0 <= nxt h1)%N) by (pose proof (f_nxt _ _ _ F); pose proof (a_nxt _ _ S1); lia).
  assert (F1 : frozen (nxt h0) h0 h1) by (apply frozen_trans with h; [lia|auto|apply adds_frozen; auto]).
  apply wp_bind. eapply wp_mono.
  { apply (sss_spec n ps root h1 kv R (nxt h0) z); auto; [reown|eapply spine_adds; eauto]. }
  intros r h2 [O2 [F2 Y2]].
  assert (F3 : frozen (nxt h0) h0 h2) by (apply frozen_trans with h1; [lia|auto|auto]).
  apply wp_bind. apply wp_CDR; [eapply FP; eauto; cbn; auto|]. intros c2 x2 nx E2 B2.
  assert (Py : path h0 holder nx).
  { pose proof (f_same _ _ _ F3 elt c0 c2 ltac:(auto) ltac:(auto) ltac:(auto)) as B3. rewrite B2, <- B in B3. injection B3 as -> ->.
    eapply path_trans; [exact P|]. eapply path_cdr; [exact E0|symmetry; exact B|apply path_refl]. }
  apply wp_bind. apply wp_rd; [eapply FP; eauto; cbn; auto|]. intros c3 E3.
  destruct (is_pair_c c3); [|apply wp_done; auto].
  eapply IH; eauto.
Qed.
Lemma dup_merge_spec : forall n m clos alst h R, own h R -> alive h clos -> In alst R ->
  wp (r0 <- hdup m clos ;; hmerge n r0 alst) (fun r h' => own h' (r :: R) /\ frozen (nxt h) h h' /\ fresh_list (nxt h) h' r) h.
Proof.
  intros n m clos alst h R O A I. apply wp_bind. eapply wp_mono; [apply (dup_spec m clos h R O A)|].
  intros r0 h1 [O1 [S1 Y1]]. pose proof (own_alive _ _ _ O I) as A0. unfold hmerge.
  apply wp_bind. apply wp_rd; [eapply adds_alive; eauto|]. intros c E. destruct (is_nil_c c).
  - apply wp_done. split; [auto|]. split; [apply adds_frozen; auto|auto].
  - eapply merge_loop_spec; eauto; [apply adds_frozen; auto|apply path_refl].
Qed.

(** ** conc *)
Lemma last_pair_spec : forall n a h R, own h R -> alive h a ->
  wp (last_pair n a) (fun p h' => h' = h /\ on_spine h a p /\
    exists c x y cy, cells h p = Some c /\ body c = KPair x y /\ cells h y = Some cy /\ is_pair_c cy = false) h.
Proof.
  induction n as [|n IH]; intros a h R O A; [apply wp_dry|]. cbn [last_pair].
  apply wp_bind. apply wp_CDR; auto. intros c x y E B. destruct (own_pair _ _ _ _ _ _ O E B) as [_ Ay].
  apply wp_bind. apply wp_rd; auto. intros cy Ey. destruct (is_pair_c cy) eqn:P.
  - eapply wp_mono; [apply (IH y h R O Ay)|]. intros p h' [-> [S1 H]]. split; [auto|]. split; [eapply spine_next; eauto|auto].
  - apply wp_done. split; [auto|]. split; [eapply spine_here; eauto|]. exists c, x, y, cy. auto.
Qed.

(** Only the end of a list is replaced. *)
Definition relinks (b : N) (h h' : heap) : Prop :=
  forall q c c', cells h q = Some c -> cells h' q = Some c' ->
  body c' = body c \/
  exists x y cy, body c = KPair x y /\ body c' = KPair x b /\ cells h y = Some cy /\ is_pair_c cy = false.
Lemma shrunk_body : forall h h' q c c', shrinks h h' -> cells h q = Some c -> cells h' q = Some c' -> body c' = body c.
Proof.
  intros h h' q c c' [_ [_ S]] E E'. destruct (S _ _ E') as [c1 [E1 T]]. apply stored_eq in T.
  rewrite E in E1. injection E1 as <-. tauto.
Qed.
(** Dropping a cell that is not a pair. *)
Definition dropped (c : cell) : option cell := match refs c with S (S r) => Some (with_refs c (S r)) | _ => None end.
Lemma X_leaf : forall h a c R, own h R -> cells h a = Some c -> is_pair_c c = false ->
  exists h', X a h = Done tt h' /\ nxt h' = nxt h /\ aux h' = aux h /\ forall x, cells h' x = if N.eqb x a then dropped c else cells h x.
Proof.
  intros h a c R O E P. pose proof (proj2 (counted _ _ (proj1 O) _ _ E)) as Z. unfold dropped.
  unfold X. cbn [drop]. unfold hbind_, rd. rewrite E. destruct (refs c) as [|[|r]] eqn:RC; [lia| |].
  - unfold wr. rewrite E. unfold is_pair_c in P.
    destruct (body c) eqn:B; try discriminate; unfold release; rewrite set_same; eexists; (split; [reflexivity|]; split; [auto|]; split; [auto|]);
      intro x; cbn; destruct (N.eqb x a); auto.
  - unfold wr. rewrite E. eexists. split; [reflexivity|]. split; [auto|]. split; [auto|]. intro x. cbn. auto.
Qed.

Lemma conc_spec : forall n a b h R lim, own h (a :: b :: R) -> young lim h a -> (lim <= nxt h)%N ->
  wp (hconc n a b) (fun r h' => own h' (r :: R) /\ frozen lim h h' /\ (young lim h b -> young lim h' r) /\ relinks b h h') h.
Proof.
  intros n a b h R lim O Y L. unfold hconc.
  assert (Aa : alive h a) by (eapply own_alive; [exact O|cbn; auto]).
  apply wp_bind. apply wp_rd; auto. intros c0 E0. destruct (is_pair_c c0) eqn:P0.
  2:{ apply wp_bind. apply (wp_X _ _ _ (b :: R) O). intros h' O' S. apply wp_done. split; [auto|].
      split; [apply shrinks_frozen; auto|]. split; [|intros q cq cq' Eq Eq'; left; eapply shrunk_body; eauto]. intros Yb p H.
      apply Yb. clear - H S. induction H as [q c x y E B|q c x y p E B H IH]; destruct S as [_ [_ S]];
        destruct (S _ _ E) as [c' [E' T]]; apply stored_eq in T; destruct T as [T _]; rewrite B in T.
      - eapply spine_here; eauto.
      - eapply spine_next; eauto. }
  apply wp_bind. eapply wp_mono; [apply (last_pair_spec n a h _ O Aa)|].
  intros p h0 [-> [SP [c [x [y [cy [E [B [Ey Py]]]]]]]]].
  apply wp_bind. apply wp_CDR; [unfold alive; congruence|]. intros c1 x1 y1 E1 B1. rewrite E in E1. injection E1 as <-.
  rewrite B in B1. injection B1 as <- <-.
  assert (Yp : p <> y). { intro Q. subst y. rewrite E in Ey. injection Ey as <-. unfold is_pair_c in Py. rewrite B in Py. discriminate. }
  assert (W : weak c = false) by (apply (proj2 O _ _ E)).
  set (h1 := set_cell h p (Some (with_body c (KPair x b)))).
  assert (O1 : own h1 (y :: a :: R)).
  { eapply own_set; eauto; [apply (counted _ _ (proj1 O) _ _ E)|]. intro q. unfold fields. cbn [body with_body weak refs]. rewrite B, W. cbn [cnt]. lia. }
  assert (E1y : cells h1 y = Some cy) by (unfold h1; rewrite set_other; auto).
  destruct (X_leaf h1 y cy _ O1 E1y Py) as [h2 [D2 [Nx2 [Au2 C2]]]].
  assert (O2 : own h2 (a :: R)).
  { destruct (X_spec h1 y (a :: R) (proj1 O1)) as [h2' [D2' [C2' Sh]]]. rewrite D2 in D2'. injection D2' as <-. split; auto.
    intros q cq Eq. destruct Sh as [_ [_ Sh]]. destruct (Sh _ _ Eq) as [c' [E' T]]. apply stored_eq in T. destruct T as [_ [_ ->]].
    apply (proj2 O1 _ _ E'). }
  destruct (X_leaf h y cy _ O Ey Py) as [h3 [D3 [Nx3 [Au3 C3]]]].
  apply wp_bind. unfold wp at 1. rewrite D3.
  assert (E3 : cells h3 p = Some c). { rewrite C3. apply N.eqb_neq in Yp. rewrite Yp. auto. }
  apply wp_bind. apply (wp_rd' _ c); auto. rewrite B. apply wp_bind. apply wp_wr; [unfold alive; congruence|]. apply wp_done.
  set (h4 := set_cell h3 p (Some (with_body c (KPair x b)))).
  assert (C4 : forall q, cells h4 q = cells h2 q).
  { intro q. unfold h4. rewrite C2. destruct (N.eq_dec q p) as [Q|Q].
    - subst q. rewrite set_same. assert (T := Yp). apply N.eqb_neq in T. rewrite T. unfold h1. rewrite set_same. auto.
    - rewrite set_other by auto. rewrite C3. unfold h1. rewrite set_other by auto. auto. }
  assert (O4 : own h4 (a :: R)).
  { apply (own_ext h2); auto. rewrite Nx2. unfold h4. cbn. rewrite Nx3. auto. }
  split; [auto|].
  assert (Lp : (lim <= p)%N) by (apply Y; auto).
  assert (K4 : forall q cq, q <> p -> cells h q = Some cq -> forall cq', cells h4 q = Some cq' -> stored cq' = stored cq).
  { intros q cq Q Eq cq' Eq'. unfold h4 in Eq'. rewrite set_other in Eq' by auto. rewrite C3 in Eq'.
    destruct (N.eqb_spec q y) as [Z|Z]; [|congruence]. subst q. rewrite Ey in Eq. injection Eq as <-.
    unfold dropped in Eq'. destruct (refs cy) as [|[|r]]; try discriminate. injection Eq' as <-. auto. }
  assert (D4 : forall q, q <> p -> cells h q = None -> cells h4 q = None).
  { intros q Q Eq. unfold h4. rewrite set_other by auto. rewrite C3. destruct (N.eqb_spec q y); auto. subst; congruence. }
  split; [|split].
  - constructor; [unfold h4; cbn; lia|unfold h4; cbn; auto| |].
    + intros q _ Eq. apply D4; auto. congruence.
    + intros q cq cq' Lq Eq Eq'. assert (T := K4 q cq ltac:(lia) Eq cq' Eq'). apply stored_eq in T. tauto.
  - intros Yb q H.
    assert (G : forall s q, on_spine h4 s q -> (forall t, on_spine h s t -> (lim <= t)%N) -> (lim <= q)%N).
    { clear q H. intros s q H. induction H as [s cs xs ys Es Bs|s cs xs ys q Es Bs H IH]; intros HS.
      - destruct (N.eq_dec s p) as [Q|Q]; [subst; auto|].
        destruct (cells h s) as [ch|] eqn:Eh; [|rewrite (D4 _ Q Eh) in Es; discriminate].
        pose proof (K4 _ _ Q Eh _ Es) as T. apply stored_eq in T. destruct T as [T _]. rewrite Bs in T. apply HS. eapply spine_here; eauto.
      - apply IH. intros t Ht. destruct (N.eq_dec s p) as [Q|Q].
        + subst s. unfold h4 in Es. rewrite set_same in Es. injection Es as <-. cbn in Bs. injection Bs as <- <-. apply Yb; auto.
        + destruct (cells h s) as [ch|] eqn:Eh; [|rewrite (D4 _ Q Eh) in Es; discriminate].
          pose proof (K4 _ _ Q Eh _ Es) as T. apply stored_eq in T. destruct T as [T _]. rewrite Bs in T. apply HS. eapply spine_next; eauto. }
    apply (G a q H). auto.
  - intros q cq cq' Eq Eq'. destruct (N.eq_dec q p) as [Q|Q].
    + subst q. rewrite E in Eq. injection Eq as <-. unfold h4 in Eq'. rewrite set_same in Eq'. injection Eq' as <-.
      right. exists x, y, cy. auto.
    + left. pose proof (K4 _ _ Q Eq _ Eq') as T. apply stored_eq in T. tauto.
Qed.
Lemma young_adds : forall lim h h' R a, own h R -> adds h h' -> alive h a -> young lim h a -> young lim h' a.
Proof.
  intros lim h h' R a O A Al Y p H. apply Y. clear Y. induction H as [q c x y E B|q c x y p E B H IH];
    unfold alive in Al; destruct (cells h q) as [cq|] eqn:Eq; try congruence;
    destruct (adds_body _ _ _ _ A Eq) as [c' [E' B']]; rewrite E in E'; injection E' as <-; rewrite B in B'; symmetry in B'.
  - eapply spine_here; eauto.
  - eapply spine_next; eauto. apply IH. apply (own_pair _ _ _ _ _ _ O Eq B').
Qed.
Lemma append_spec : forall n l e h R lim, own h (l :: e :: R) -> young lim h l -> (lim <= nxt h)%N ->
  wp (happend n l e) (fun r h' => own h' (r :: R) /\ frozen lim h h' /\ young lim h' r) h.
Proof.
  intros n l e h R lim O Y L. unfold happend.
  apply wp_bind. apply (wp_nil _ _ _ O). intros z h1 O1 G1.
  apply wp_bind. apply (wp_cons _ _ _ _ (l :: R)); [reown|]. intros k h2 O2 G2.
  pose proof (grown_adds _ _ _ _ _ O G1) as A1. pose proof (grown_adds _ _ _ _ _ O1 G2) as A2.
  pose proof (adds_trans _ _ _ A1 A2) as A. pose proof (a_nxt _ _ A) as L2.
  assert (Y2 : young lim h2 l).
  { eapply young_adds; [exact O|exact A| |exact Y]. eapply own_alive; [exact O|cbn; auto]. }
  assert (Yk : young lim h2 k).
  { eapply young_cons; [apply (g_new _ _ _ _ G2)|reflexivity| |].
    - rewrite (g_addr _ _ _ _ G2). pose proof (a_nxt _ _ A1). lia.
    - eapply young_leaf; [rewrite (g_old _ _ _ _ G2); [apply (g_new _ _ _ _ G1)|]|reflexivity].
      rewrite (g_addr _ _ _ _ G2), (g_nxt _ _ _ _ G1), (g_addr _ _ _ _ G1). lia. }
  eapply wp_mono; [apply (conc_spec n l k h2 R lim); auto; [reown|lia]|]. intros r h' [O' [F' [Y' _]]].
  split; [auto|]. split; [|auto]. apply frozen_trans with h2; auto. apply adds_frozen; auto.
Qed.

(** ** What conc computes *)
Lemma reads_keep : forall h s v, reads h s v -> forall h' R', own h' R' -> alive h' s ->
  (forall q, path h s q -> forall c c', cells h q = Some c -> cells h' q = Some c' -> stored c' = stored c) ->
  reads h' s v.
Proof.
  intros h s v H. induction H as [a c E B|a c E B|a c E B|a c z E B|a c z E B|a c s0 E B|a c x y v w E B Hx IHx Hy IHy];
    intros h' R' O A K; pose proof A as A'; unfold alive in A; destruct (cells h' a) as [c'|] eqn:E'; try congruence;
    pose proof (K a (path_refl _ _) _ _ E E') as T; apply stored_eq in T; destruct T as [T [T2 _]]; rewrite B in T.
  - eapply reads_nil; eauto.
  - eapply reads_true; eauto.
  - eapply reads_wild; eauto.
  - eapply reads_char; eauto.
  - eapply reads_num; eauto.
  - rewrite <- T2. eapply reads_sym; eauto.
  - rewrite <- T2. destruct (own_pair _ _ _ _ _ _ O E' T) as [Ax Ay]. eapply reads_pair; eauto.
    + eapply IHx; eauto. intros q P. apply K. eapply path_car; eauto.
    + eapply IHy; eauto. intros q P. apply K. eapply path_cdr; eauto.
Qed.
Lemma path_reach : forall h a p, strong h -> path h a p -> reach h [a] p.
Proof.
  intros h a p S P. assert (G : forall r, reach h [r] a -> reach h [r] p).
  { induction P as [a|a c x y p E B P IH|a c x y p E B P IH]; intros r H; auto;
      apply IH; eapply reach_step; [exact H| |exact H|]; unfold fields_at, fields; rewrite E, B, (S _ _ E); cbn; auto. }
  apply G. apply reach_root. cbn; auto.
Qed.
Lemma last_pair_ends : forall h a, ends h a -> forall c x y, cells h a = Some c -> body c = KPair x y ->
  exists n0 p, last_of h a p /\ forall n, n0 <= n -> last_pair n a h = Done p h.
Proof.
  intros h a H. induction H as [a c E P|a c x y E B H IH]; intros c1 x1 y1 E1 B1; rewrite E in E1; injection E1 as <-.
  - unfold is_pair_c in P. rewrite B1 in P. discriminate.
  - rewrite B in B1. injection B1 as <- <-. assert (exists cy, cells h y = Some cy) as [cy Ey] by (inversion H; eauto).
    destruct (is_pair_c cy) eqn:Py.
    + assert (exists x2 y2, body cy = KPair x2 y2) as [x2 [y2 B2]] by (unfold is_pair_c in Py; destruct (body cy); try discriminate; eauto).
      destruct (IH _ _ _ Ey B2) as [n0 [p [L D]]]. exists (S n0), p. split; [eapply last_next; eauto|].
      intros n Hn. destruct n as [|n]; [lia|]. cbn [last_pair]. unfold hbind_, CDR, rd, hbind_. rewrite E, B. cbn. rewrite Ey, Py. apply D. lia.
    + exists 1, a. split; [eapply last_here; eauto|]. intros n Hn. destruct n as [|n]; [lia|].
      cbn [last_pair]. unfold hbind_, CDR, rd, hbind_. rewrite E, B. cbn. rewrite Ey, Py. auto.
Qed.
Lemma reads_ends : forall h a v, reads h a v -> ends h a.
Proof.
  intros h a v H. induction H; first [eapply ends_next; eassumption | eapply ends_here; [eassumption|unfold is_pair_c; rewrite H0; auto]].
Qed.

Lemma conc_reads : forall h R a b p va vb, own h (a :: b :: R) -> reads h a va -> reads h b vb -> last_of h a p ->
  ~ reach h [b] p -> (forall x, element h a x -> ~ reach h [x] p) ->
  exists n0, forall n, n0 <= n -> exists h', hconc n a b h = Done a h' /\ own h' (a :: R) /\ reads h' a (joined va vb).
Proof.
  intros h R a b p va vb O Ra Rb LO NB NE.
  assert (exists c0 x0 y0, cells h a = Some c0 /\ body c0 = KPair x0 y0) as [c0 [x0 [y0 [E0 B0]]]] by (inversion LO; eauto 6).
  destruct (last_pair_ends h a (reads_ends _ _ _ Ra) _ _ _ E0 B0) as [n0 [p' [LO' D]]].
  assert (LF : forall a p, last_of h a p -> forall p', last_of h a p' -> p' = p).
  { clear. intros a p L. induction L as [a c x y cy E B Ey Py|a c x y p E B L IH]; intros p' L'; inversion L'; subst; auto;
      rewrite E in *; match goal with X : Some _ = Some _ |- _ => injection X as <- end; rewrite B in *;
      match goal with X : KPair _ _ = KPair _ _ |- _ => injection X as <- <- end; auto.
    - exfalso. inversion H1; subst; rewrite Ey in *; match goal with X : Some _ = Some _ |- _ => injection X as <- end;
        unfold is_pair_c in Py; match goal with X : body cy = _ |- _ => rewrite X in Py end; discriminate.
    - exfalso. inversion L; subst; rewrite H1 in *; match goal with X : Some _ = Some _ |- _ => injection X as <- end;
        unfold is_pair_c in H2; match goal with X : body cy = _ |- _ => rewrite X in H2 end; discriminate. }
  assert (p' = p) by (eapply LF; eauto). subst p'.
  exists n0. intros n Hn. specialize (D n Hn).
  assert (exists c x y cy, cells h p = Some c /\ body c = KPair x y /\ cells h y = Some cy /\ is_pair_c cy = false) as [c [x [y [cy [E [B [Ey Py]]]]]]].
  { clear - LO. induction LO; eauto 8. }
  pose proof (conc_spec n a b h R 0%N O (young_zero _ _) ltac:(lia)) as W. unfold wp in W.
  assert (Yp : p <> y). { intro Q. subst y. rewrite E in Ey. injection Ey as <-. unfold is_pair_c in Py. rewrite B in Py. discriminate. }
  destruct (X_leaf h y cy _ O Ey Py) as [h3 [D3 [Nx3 [Au3 C3]]]].
  assert (E3 : cells h3 p = Some c). { rewrite C3. apply N.eqb_neq in Yp. rewrite Yp. auto. }
  set (h4 := set_cell h3 p (Some (with_body c (KPair x b)))).
  assert (RUN : hconc n a b h = Done a h4).
  { unfold hconc, hbind_ at 1, rd at 1. rewrite E0. unfold is_pair_c at 1. rewrite B0.
    unfold hbind_ at 1. rewrite D. unfold hbind_ at 1. unfold CDR, hbind_ at 1, rd at 1. rewrite E, B. cbn [done].
    unfold hbind_ at 1. unfold done at 1. rewrite D3. unfold hbind_ at 1, rd at 1. rewrite E3, B. unfold hbind_ at 1, wr at 1. rewrite E3. auto. }
  rewrite RUN in W. destruct W as [O4 _]. exists h4. split; [auto|]. split; [auto|].
  assert (K4 : forall q cq, q <> p -> cells h q = Some cq -> forall cq', cells h4 q = Some cq' -> stored cq' = stored cq).
  { intros q cq Q Eq cq' Eq'. unfold h4 in Eq'. rewrite set_other in Eq' by auto. rewrite C3 in Eq'.
    destruct (N.eqb_spec q y) as [Z|Z]; [|congruence]. subst q. rewrite Ey in Eq. injection Eq as <-.
    unfold dropped in Eq'. destruct (refs cy) as [|[|r]]; try discriminate. injection Eq' as <-. auto. }
  assert (E4 : cells h4 p = Some (with_body c (KPair x b))) by (unfold h4; apply set_same).
  assert (KR : forall s v, reads h s v -> alive h4 s -> ~ reach h [s] p -> reads h4 s v).
  { intros s v Hs As NR. eapply reads_keep; eauto. intros q Pq cq cq' Eq Eq'. apply (K4 q cq); auto.
    intro Q. subst q. apply NR. apply path_reach; auto. apply (proj2 O). }
  assert (Aa : alive h4 a) by (eapply own_alive; [exact O4|cbn; auto]).
  assert (G : forall s, last_of h s p -> forall v, reads h s v -> alive h4 s -> (forall x, element h s x -> ~ reach h [x] p) -> reads h4 s (joined v vb)).
  { intros s LS. remember p as p1 eqn:P1 in LS. induction LS as [s c1 x1 y1 cy1 E1 B1 Ey1 Py1|s c1 x1 y1 p1 E1 B1 L IH]; subst; intros v Rv As NS.
    - rewrite E in E1. injection E1 as <-. rewrite B in B1. injection B1 as <- <-.
      assert (B4 : body (with_body c (KPair x b)) = KPair x b) by auto.
      destruct (own_pair _ _ _ _ _ _ O4 E4 B4) as [Ax Ab].
      inversion Rv as [ | | | | | |a1 c1 x1 y1 v1 w1 E1 B1 Rx Ry]; subst; try congruence.
      rewrite E in E1. injection E1 as <-. rewrite B in B1. injection B1 as <- <-. cbn [joined].
      assert (JW : joined w1 vb = vb).
      { inversion Ry; subst; auto. rewrite Ey in H. injection H as <-. unfold is_pair_c in Py. rewrite H0 in Py. discriminate. }
      rewrite JW. change (tail c) with (tail (with_body c (KPair x b))). eapply reads_pair; eauto.
      apply KR; auto. apply NS. eapply element_here; eauto.
    - inversion Rv as [ | | | | | |a1 c2 x2 y2 v1 w1 E2 B2 Rx Ry]; subst; try congruence.
      rewrite E1 in E2. injection E2 as <-. rewrite B1 in B2. injection B2 as <- <-. cbn [joined].
      assert (Q : s <> p).
      { intro Q. subst s. rewrite E in E1. injection E1 as <-. rewrite B in B1. injection B1 as <- <-.
        inversion L; subst; rewrite Ey in *; match goal with X : Some _ = Some _ |- _ => injection X as <- end;
          unfold is_pair_c in Py; match goal with X : body cy = _ |- _ => rewrite X in Py end; discriminate. }
      unfold alive in As. destruct (cells h4 s) as [c2|] eqn:E2; [|congruence].
      pose proof (K4 _ _ Q E1 _ E2) as T. apply stored_eq in T. destruct T as [T [T2 _]]. rewrite B1 in T. rewrite <- T2.
      destruct (own_pair _ _ _ _ _ _ O4 E2 T) as [Ax Ay]. eapply reads_pair; eauto.
      + apply KR; auto. apply NS. eapply element_here; eauto.
      + apply IH; auto. intros e He. apply NS. eapply element_next; eauto. }
  apply G; auto.
Qed.

(** ** Operations return *)
Lemma done_wp : forall {A} (m : HM A) Q h, wp m Q h -> forall r h', m h = Done r h' -> Q r h'.
Proof. intros A m Q h W r h' D. unfold wp in W. rewrite D in W. auto. Qed.
Lemma finite_keep : forall h a, finite h a -> forall h' R', own h' R' -> alive h' a ->
  (forall q c c', cells h q = Some c -> cells h' q = Some c' -> body c' = body c) -> finite h' a.
Proof.
  intros h a H. induction H as [a c E P|a c x y E B Hx IHx Hy IHy]; intros h' R' O A K;
    pose proof A as A'; unfold alive in A; destruct (cells h' a) as [c'|] eqn:E'; try congruence; pose proof (K _ _ _ E E') as T.
  - eapply finite_leaf; eauto. unfold is_pair_c. rewrite T. auto.
  - rewrite B in T. destruct (own_pair _ _ _ _ _ _ O E' T). eapply finite_pair; eauto.
Qed.
Lemma finite_frozen : forall h a h' R R', finite h a -> own h R -> own h' R' -> alive h' a -> frozen (nxt h) h h' -> finite h' a.
Proof.
  intros h a h' R R' H O O' A F. eapply finite_keep; eauto. intros q c c' E E'. apply (f_same _ _ _ F q c c'); auto.
  eapply own_bounded; eauto. unfold alive; congruence.
Qed.
Lemma run_done : forall {A B} (m : HM A) (k : A -> HM B) h r h', m h = Done r h' -> hbind_ m k h = k r h'.
Proof. intros A B m k h r h' D. unfold hbind_. rewrite D. auto. Qed.
Lemma nil_done : forall h, exists r h', make_nil h = Done r h'.
Proof. intro h. unfold make_nil, alloc. eauto. Qed.
Lemma up_done : forall a h, alive h a -> exists r h', up a h = Done r h'.
Proof. intros a h A. unfold alive in A. unfold up, hbind_, rd. destruct (cells h a) as [c|] eqn:E; [|congruence]. unfold wr. rewrite E. unfold done. eauto. Qed.
Lemma dup_done : forall h a, ends h a -> forall R, own h R -> exists n0, forall n, n0 <= n -> exists r h', hdup n a h = Done r h'.
Proof.
  intros h a H. induction H as [a c E P|a c x y E B H IH]; intros R O.
  - exists 1. intros n Hn. destruct n as [|n]; [lia|]. cbn [hdup]. unfold hbind_ at 1, rd at 1. rewrite E.
    assert (D : exists r h', up a h = Done r h') by (apply up_done; unfold alive; congruence).
    unfold is_pair_c in P. destruct (body c); try discriminate; exact D.
  - destruct (IH R O) as [n0 G]. exists (S n0). intros n Hn. destruct n as [|n]; [lia|].
    destruct (G n ltac:(lia)) as [r [h1 D]]. cbn [hdup]. unfold hbind_ at 1, rd at 1. rewrite E, B. unfold hbind_ at 1. rewrite D.
    destruct (own_pair _ _ _ _ _ _ O E B) as [Ax Ay].
    destruct (done_wp _ _ _ (dup_spec n y h R O Ay) _ _ D) as [_ [S1 _]].
    destruct (up_done x h1 (adds_alive _ _ _ S1 Ax)) as [r2 [h2 D2]]. rewrite (run_done _ _ _ _ _ D2). unfold hcons, alloc. eauto.
Qed.
Lemma car_done : forall a h R, own h R -> alive h a -> exists r h', hcar a h = Done r h'.
Proof.
  intros a h R O A. unfold hcar, hbind_, rd. pose proof A as A'. unfold alive in A. destruct (cells h a) as [c|] eqn:E; [|congruence].
  destruct (body c) eqn:B; try apply nil_done. apply up_done. apply (own_pair _ _ _ _ _ _ O E B).
Qed.
Lemma cdr_done : forall a h R, own h R -> alive h a -> exists r h', hcdr a h = Done r h'.
Proof.
  intros a h R O A. unfold hcdr, hbind_, rd. pose proof A as A'. unfold alive in A. destruct (cells h a) as [c|] eqn:E; [|congruence].
  destruct (body c) eqn:B; try apply nil_done. apply up_done. apply (own_pair _ _ _ _ _ _ O E B).
Qed.
Lemma X_done : forall a h R, own h (a :: R) -> exists h', X a h = Done tt h'.
Proof. intros a h R O. destruct (X_spec _ _ _ (proj1 O)) as [h' [D _]]. eauto. Qed.
(** Run one step of a computation known to return. *)
Ltac run D := let r := fresh "r" in let h := fresh "h" in destruct D as [r [h D]]; rewrite (run_done _ _ _ _ _ D).

(** Data of bounded depth. *)
Inductive deep (h : heap) : nat -> N -> Prop :=
| deep_leaf : forall d a c, cells h a = Some c -> is_pair_c c = false -> deep h d a
| deep_pair : forall d a c x y, cells h a = Some c -> body c = KPair x y -> deep h d x -> deep h d y -> deep h (S d) a.
Lemma deep_mono : forall h d a, deep h d a -> forall d', d <= d' -> deep h d' a.
Proof.
  intros h d a H. induction H as [d a c E P|d a c x y E B Hx IHx Hy IHy]; intros d' L; [eapply deep_leaf; eauto|].
  destruct d' as [|d']; [lia|]. eapply deep_pair; eauto; [apply IHx|apply IHy]; lia.
Qed.
Lemma finite_deep : forall h a, finite h a -> exists d, deep h d a.
Proof.
  intros h a H. induction H as [a c E P|a c x y E B Hx [d1 D1] Hy [d2 D2]]; [exists 0; eapply deep_leaf; eauto|].
  exists (S (d1 + d2)). eapply deep_pair; eauto; eapply deep_mono; eauto; lia.
Qed.
Lemma deep_keep : forall h d a, deep h d a -> forall h' R', own h' R' -> alive h' a ->
  (forall q c c', cells h q = Some c -> cells h' q = Some c' -> body c' = body c) -> deep h' d a.
Proof.
  intros h d a H. induction H as [d a c E P|d a c x y E B Hx IHx Hy IHy]; intros h' R' O A K;
    pose proof A as A'; unfold alive in A; destruct (cells h' a) as [c'|] eqn:E'; try congruence; pose proof (K _ _ _ E E') as T.
  - eapply deep_leaf; eauto. unfold is_pair_c. rewrite T. auto.
  - rewrite B in T. destruct (own_pair _ _ _ _ _ _ O E' T). eapply deep_pair; eauto.
Qed.
Lemma deep_frozen : forall h d a h' R R', deep h d a -> own h R -> own h' R' -> alive h' a -> frozen (nxt h) h h' -> deep h' d a.
Proof.
  intros h d a h' R R' H O O' A F. eapply deep_keep; eauto. intros q c c' E E'. apply (f_same _ _ _ F q c c'); auto.
  eapply own_bounded; eauto. unfold alive; congruence.
Qed.
Lemma bind_done : forall n d h arg clos val R, deep h d arg -> own h (clos :: arg :: val :: R) -> d < n ->
  exists r h', hbind n clos arg val h = Done r h'.
Proof.
  induction n as [|n IH]; intros d h arg clos val R H O L; [lia|]. cbn [hbind].
  assert (A : alive h arg) by (eapply own_alive; [exact O|cbn; auto]).
  inversion H as [d' a c E P|d' a c x y E B Hx Hy]; subst; (rewrite (run_done _ _ _ c h) by (unfold rd; rewrite E; auto)).
  - unfold is_pair_c in P. destruct (body c) as [| | | | |s|] eqn:B; try discriminate; try (unfold hcons, alloc, hbind_; eauto; fail).
    all: destruct (X_done arg h (clos :: val :: R)) as [h1 D1]; [reown|]; rewrite (run_done _ _ _ _ _ D1);
      destruct (X_spec h arg (clos :: val :: R)) as [h1' [D1' [C1 S1]]]; [apply (correct_perm _ _ _ (proj1 O)); perm|];
      rewrite D1 in D1'; injection D1' as <-;
      destruct (X_spec h1 val (clos :: R)) as [h2 [D2 _]]; [apply (correct_perm _ _ _ C1); perm|];
      rewrite (run_done _ _ _ _ _ D2); unfold done; eauto.
  - rewrite B.
    destruct (car_done arg h _ O A) as [s [h1 D1]]. rewrite (run_done _ _ _ _ _ D1).
    assert (W1 : own h1 (s :: clos :: arg :: val :: R) /\ adds h h1 /\ s = x).
    { apply (done_wp (hcar arg) (fun r h' => own h' (r :: clos :: arg :: val :: R) /\ adds h h' /\ r = x) h) with (r := s) (h' := h1); auto.
      apply (wp_car _ _ _ _ O A). intros r h' O' S' K. split; auto. split; auto. eapply K; eauto. }
    destruct W1 as [O1 [S1 ->]].
    assert (Av1 : alive h1 val) by (eapply own_alive; [exact O1|cbn; auto 8]).
    destruct (car_done val h1 _ O1 Av1) as [v [h2 D2]]. rewrite (run_done _ _ _ _ _ D2).
    assert (W2 : own h2 (v :: x :: clos :: arg :: val :: R) /\ adds h1 h2).
    { apply (done_wp (hcar val) (fun r h' => own h' (r :: x :: clos :: arg :: val :: R) /\ adds h1 h') h1) with (r := v) (h' := h2); auto.
      apply (wp_car _ _ _ _ O1 Av1). intros r h' O' S' K. auto. }
    destruct W2 as [O2 S2].
    assert (Aa2 : alive h2 arg) by (eapply own_alive; [exact O2|cbn; auto 8]).
    destruct (cdr_done arg h2 _ O2 Aa2) as [oth [h3 D3]]. rewrite (run_done _ _ _ _ _ D3).
    destruct (adds_body _ _ _ _ (adds_trans _ _ _ S1 S2) E) as [c2 [E2 B2]]. rewrite B in B2.
    assert (W3 : own h3 (oth :: v :: x :: clos :: arg :: val :: R) /\ adds h2 h3 /\ oth = y).
    { apply (done_wp (hcdr arg) (fun r h' => own h' (r :: v :: x :: clos :: arg :: val :: R) /\ adds h2 h' /\ r = y) h2) with (r := oth) (h' := h3); auto.
      apply (wp_cdr _ _ _ _ O2 Aa2). intros r h' O' S' K. split; auto. split; auto. eapply K; eauto. }
    destruct W3 as [O3 [S3 ->]].
    assert (Av3 : alive h3 val) by (eapply own_alive; [exact O3|cbn; auto 8]).
    destruct (cdr_done val h3 _ O3 Av3) as [rem [h4 D4]]. rewrite (run_done _ _ _ _ _ D4).
    assert (W4 : own h4 (rem :: y :: v :: x :: clos :: arg :: val :: R) /\ adds h3 h4).
    { apply (done_wp (hcdr val) (fun r h' => own h' (r :: y :: v :: x :: clos :: arg :: val :: R) /\ adds h3 h') h3) with (r := rem) (h' := h4); auto.
      apply (wp_cdr _ _ _ _ O3 Av3). intros r h' O' S' K. auto. }
    destruct W4 as [O4 S4].
    assert (A4 : adds h h4) by eauto using adds_trans.
    assert (O4' : own h4 (arg :: val :: clos :: x :: v :: y :: rem :: R)) by reown.
    destruct (X_spec h4 arg _ (proj1 O4')) as [h5 [D5 [C5 S5]]]. rewrite (run_done _ _ _ _ _ D5).
    destruct (X_spec h5 val _ C5) as [h6 [D6 [C6 S6]]]. rewrite (run_done _ _ _ _ _ D6).
    assert (O6 : own h6 (clos :: x :: v :: y :: rem :: R)).
    { split; auto. intros q cq Eq. destruct S6 as [_ [_ S6]]. destruct (S6 _ _ Eq) as [cq5 [Eq5 T5]].
      destruct S5 as [_ [_ S5]]. destruct (S5 _ _ Eq5) as [cq4 [Eq4 T4]]. apply stored_eq in T5, T4.
      destruct T5 as [_ [_ ->]]. destruct T4 as [_ [_ ->]]. apply (proj2 O4 _ _ Eq4). }
    pose proof (a_nxt _ _ A4) as L4. pose proof S5 as [L5 _]. pose proof S6 as [L6 _].
    assert (F6 : frozen (nxt h) h h6).
    { apply frozen_trans with h4; [lia|apply adds_frozen; auto|]. apply frozen_trans with h5; [lia|apply shrinks_frozen; auto|].
      apply shrinks_frozen; auto. }
    assert (Hx6 : deep h6 d' x) by (eapply deep_frozen; eauto; eapply own_alive; [exact O6|cbn; auto]).
    destruct (IH d' h6 x clos v (y :: rem :: R) Hx6) as [cl0 [h7 D7]]; [reown|lia|]. rewrite (run_done _ _ _ _ _ D7).
    assert (W7 : wp (hbind n clos x v) (fun r h' => own h' (r :: y :: rem :: R) /\ frozen (nxt h6) h6 h') h6) by (apply bind_spec; reown).
    destruct (done_wp _ _ _ W7 _ _ D7) as [O7 F7].
    assert (Hy7 : deep h7 d' y).
    { eapply deep_frozen; [exact Hy|exact O|exact O7|eapply own_alive; [exact O7|cbn; auto]|].
      apply frozen_trans with h6; [lia|auto|]. eapply frozen_mono; [|exact F7]. lia. }
    apply (IH d' h7 y cl0 rem R Hy7); [reown|lia].
Qed.

(** ** Building values *)
Lemma own_empty : own empty [].
Proof.
  split; [constructor|].
  - intros a H. exfalso. apply H. auto.
  - intros a c H. discriminate.
  - intros a H. cbn in H. lia.
  - intros a c H. discriminate.
Qed.
Lemma flag_spec : forall t a h R c, own h R -> cells h a = Some c -> tail c = false ->
  exists h', flag t a h = Done a h' /\ own h' R /\ nxt h' = nxt h /\ aux h' = aux h /\
    (exists c', cells h' a = Some c' /\ body c' = body c /\ tail c' = t) /\ forall x, x <> a -> cells h' x = cells h x.
Proof.
  intros t a h R c O E T. unfold flag. destruct t.
  - unfold hbind_, rd, wr. rewrite E, E. eexists. split; [reflexivity|]. split.
    + eapply own_set; [exact O|exact E|apply (proj2 O _ _ E)|apply (counted _ _ (proj1 O) _ _ E)|]. intro b.
      change (fields (with_tail c)) with (fields c). cbn [refs with_tail]. lia.
    + split; [auto|]. split; [auto|]. split; [rewrite set_same; eexists; split; [reflexivity|]; auto|]. intros x Hx. apply set_other; auto.
  - exists h. split; [reflexivity|]. split; auto. split; auto. split; auto. split; eauto.
Qed.
Lemma reads_adds : forall h a v, reads h a v -> forall h', adds h h' -> reads h' a v.
Proof.
  intros h a v H. induction H; intros h' A; destruct (a_cells _ _ A _ _ H) as [c' [E' T]]; apply stored_eq in T; destruct T as [T [T2 _]];
    rewrite H0 in T; rewrite <- ?T2; econstructor; eauto.
Qed.
Lemma reads_alive : forall h a v, reads h a v -> alive h a.
Proof. intros h a v H. unfold alive. inversion H; congruence. Qed.
Lemma plant_spec : forall v h R, own h R -> exists a h', plant v h = Done a h' /\ own h' (a :: R) /\ adds h h' /\ reads h' a v.
Proof.
  assert (LF : forall b h R, kids b = [] -> own h R -> exists h', alloc b h = Done (nxt h) h' /\ own h' (nxt h :: R) /\ adds h h' /\ grown h h' (nxt h) b).
  { intros b h R K O. exists (fresh_heap h b). pose proof (fresh_grown h b) as G. split; [reflexivity|].
    split; [apply own_fresh; rewrite K; auto|]. split; [eapply grown_adds; eauto|auto]. }
  assert (FL : forall t a h R b h', own h R -> own h' (a :: R) -> grown h h' a b ->
    exists h2, flag t a h' = Done a h2 /\ own h2 (a :: R) /\ adds h h2 /\ exists c, cells h2 a = Some c /\ body c = b /\ tail c = t).
  { intros t a h R b h' O O' G. destruct (flag_spec t a h' _ _ O' (g_new _ _ _ _ G) eq_refl) as [h2 [D [O2 [N2 [A2 [[c [E [B T]]] K]]]]]].
    exists h2. split; auto. split; auto. split; [|exists c; auto].
    pose proof (grown_adds _ _ _ _ _ O G) as A. assert (La : ~ alive h a).
    { intro H. apply (own_bounded _ _ _ O) in H. rewrite (g_addr _ _ _ _ G) in H. lia. }
    constructor.
    - rewrite N2. apply (a_nxt _ _ A).
    - rewrite A2. apply (a_aux _ _ A).
    - intros q L E0. rewrite K; [apply (a_dead _ _ A); auto|]. rewrite (g_addr _ _ _ _ G). lia.
    - intros q cq E0. rewrite K; [apply (a_cells _ _ A); auto|]. intro Q. subst q. apply La. unfold alive; congruence. }
  induction v as [| | |z|z|t s|t x IHx y IHy]; intros h R O; cbn [plant].
  1-5: match goal with |- context [alloc ?b] => destruct (LF b h R eq_refl O) as [h' [D [O' [S G]]]]; exists (nxt h), h'; split; [exact D|]; split; [auto|]; split; [auto|];
        pose proof (g_new _ _ _ _ G) as E; econstructor; [exact E|reflexivity] end.
  - destruct (LF (KSym s) h R eq_refl O) as [h' [D [O' [S G]]]]. rewrite (run_done _ _ _ _ _ D).
    destruct (FL t _ _ _ _ _ O O' G) as [h2 [D2 [O2 [A2 [c [E [B T]]]]]]]. exists (nxt h), h2. split; auto. split; auto. split; auto.
    rewrite <- T. eapply reads_sym; eauto.
  - destruct (IHx h R O) as [a [h1 [D1 [O1 [A1 R1]]]]]. rewrite (run_done _ _ _ _ _ D1).
    destruct (IHy h1 _ O1) as [b [h2 [D2 [O2 [A2 R2]]]]]. rewrite (run_done _ _ _ _ _ D2).
    pose proof (fresh_grown h2 (KPair a b)) as G.
    assert (O3 : own (fresh_heap h2 (KPair a b)) (nxt h2 :: R)) by (apply own_fresh; cbn [kids app]; reown).
    rewrite (run_done _ _ _ (nxt h2) (fresh_heap h2 (KPair a b))) by reflexivity.
    assert (O2R : own h2 (b :: a :: R)) by auto.
    destruct (flag_spec t _ _ _ _ O3 (g_new _ _ _ _ G) eq_refl) as [h4 [D4 [O4 [N4 [A4 [[c [E [B T]]] K]]]]]].
    exists (nxt h2), h4. split; auto. split; auto.
    assert (A24 : adds h2 h4).
    { pose proof (grown_adds _ _ _ _ _ O2 G) as A. constructor.
      - rewrite N4. apply (a_nxt _ _ A).
      - rewrite A4. apply (a_aux _ _ A).
      - intros q L E0. rewrite K; [apply (a_dead _ _ A); auto|]. lia.
      - intros q cq E0. rewrite K; [apply (a_cells _ _ A); auto|]. intro Q. subst q.
        assert (alive h2 (nxt h2)) as Al by (unfold alive; congruence). apply (own_bounded _ _ _ O2) in Al. lia. }
    split; [eauto using adds_trans|]. rewrite <- T. eapply reads_pair; [exact E|exact B| |].
    + eapply reads_adds; [exact R1|]. eauto using adds_trans.
    + eapply reads_adds; eauto.
Qed.

(** ** sss returns *)
Lemma ends_spine : forall h a, ends h a -> exists ps z, spine h a ps z.
Proof.
  intros h a H. induction H as [a c E P|a c x y E B H [ps [z S]]].
  - exists [], a. eapply spine_end; eauto. unfold cdr_of, is_pair_c in *. destruct (body c); auto; discriminate.
  - exists (a :: ps), z. eapply spine_cons; eauto. unfold cdr_of. rewrite B. auto.
Qed.
Lemma environment_ends : forall h a, environment h a -> ends h a.
Proof.
  intros h a H. induction H as [a c E B|a c x y E B En H IH]; [|eapply ends_next; eauto].
  eapply ends_here; eauto. unfold is_pair_c. rewrite B. auto.
Qed.
Lemma entry_run : forall h e, entry h e -> exists c k v ck s, cells h e = Some c /\ body c = KPair k v /\ cells h k = Some ck /\ body ck = KSym s /\
  CAR e h = Done k h /\ symbol_of k h = Done s h.
Proof.
  intros h e [c [k [v [ck [s [E [B [Ek Bk]]]]]]]]. exists c, k, v, ck, s. repeat (split; [assumption|]).
  split; [unfold CAR, hbind_, rd; rewrite E, B; auto|unfold symbol_of, hbind_, rd; rewrite Ek, Bk; auto].
Qed.
Lemma sss_done : forall n ps root h kv R pre top z, own h (kv :: R) -> In top R ->
  spine h top (pre ++ ps) z -> spine h root ps z -> environment h root -> entry h kv -> length ps < n ->
  exists r h', hsss n root kv h = Done r h'.
Proof.
  induction n as [|n IH]; intros ps root h kv R pre top z O T SP SR EN EK L; [lia|]. cbn [hsss].
  destruct EN as [root c E B|root c x y E B Ex EN];
    rewrite (run_done _ _ _ c h) by (unfold rd; rewrite E; auto).
  { assert (is_nil_c c = true) as -> by (unfold is_nil_c; rewrite B; auto). unfold hcons, alloc. eauto. }
  assert (is_nil_c c = false) as -> by (unfold is_nil_c; rewrite B; auto).
  rewrite (run_done _ _ _ x h) by (unfold CAR, hbind_, rd; rewrite E, B; auto).
  rewrite (run_done _ _ _ y h) by (unfold CDR, hbind_, rd; rewrite E, B; auto).
  destruct (entry_run _ _ Ex) as [c1 [k' [v1 [ck [s' [_ [_ [_ [_ [D1 D2]]]]]]]]]].
  rewrite (run_done _ _ _ _ _ D1), (run_done _ _ _ _ _ D2).
  destruct (entry_run _ _ EK) as [c2 [k [v2 [ck2 [s [_ [_ [_ [_ [D3 D4]]]]]]]]]].
  rewrite (run_done _ _ _ _ _ D3), (run_done _ _ _ _ _ D4).
  inversion SR as [a' c' E' D'|a' c' y' ps' z' E' D' S']; subst.
  { rewrite E in E'. injection E' as <-. unfold cdr_of in D'. rewrite B in D'. discriminate. }
  rewrite E in E'. injection E' as <-. unfold cdr_of in D'. rewrite B in D'. injection D' as <-.
  destruct (sym_compare s' s).
  - rewrite (run_done _ _ _ c h) by (unfold rd; rewrite E; auto). rewrite B.
    set (h1 := set_cell h root (Some (with_body c (KPair kv y)))).
    rewrite (run_done _ _ _ tt h1) by (unfold wr; rewrite E; auto).
    assert (O1 : own h1 (x :: R)).
    { pose proof (proj2 O _ _ E) as W. eapply own_set; [exact O|exact E|auto|apply (counted _ _ (proj1 O) _ _ E)|].
      intro b. unfold fields. cbn [body with_body weak refs]. rewrite B, W. cbn [cnt]. lia. }
    destruct (X_done _ _ _ O1) as [h2 D5]. rewrite (run_done _ _ _ _ _ D5). unfold done. eauto.
  - destruct (IH ps' y h kv R (pre ++ [root]) top z) as [r [h1 D5]]; auto; [rewrite <- app_assoc; auto|cbn in L; lia|].
    rewrite (run_done _ _ _ _ _ D5).
    assert (W : wp (hsss n y kv) (sss_out 0 h R (pre ++ [root]) top y z kv) h).
    { apply (sss_inner n ps'); auto; [rewrite <- app_assoc; auto|apply Forall_forall; intros; lia|lia]. }
    assert (exists c1 x1 y1, cells h1 root = Some c1 /\ body c1 = KPair x1 y1) as [c5 [x5 [y5 [E5 B5]]]].
    { destruct (done_wp _ _ _ W _ _ D5) as [[_ [_ [_ [ps1 [S1 _]]]]]|[_ ->]].
      - rewrite <- app_assoc in S1. cbn [app] in S1. destruct (spine_mid _ _ _ _ _ _ _ S1) as [c5 [E5 D]].
        unfold cdr_of in D. destruct (body c5) eqn:B5; try discriminate. eauto.
      - exists c, x, y. split; auto. cbn. destruct (N.eqb_spec root (nxt h)); auto. subst root.
        assert (alive h (nxt h)) as Al by (unfold alive; congruence). apply (own_bounded _ _ _ O) in Al. lia. }
    rewrite (run_done _ _ _ c5 h1) by (unfold rd; rewrite E5; auto). rewrite B5. unfold hbind_, wr. rewrite E5. unfold done. eauto.
  - unfold hcons, alloc. eauto.
Qed.
Lemma wp_plant : forall v (Q : N -> heap -> Prop) h R, own h R ->
  (forall a h', own h' (a :: R) -> adds h h' -> reads h' a v -> Q a h') -> wp (plant v) Q h.
Proof.
  intros v Q h R O H. destruct (plant_spec v h R O) as [a [h' [D [O' [A' R']]]]]. unfold wp. rewrite D. auto.
Qed.
