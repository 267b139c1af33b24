(** * HEvalTails: marking tail calls on the heap keeps counts and contents. *)
From Verif Require Import Value Tails Heap HeapSpec HeapProofs HeapOps HEval HEvalSpec HEvalBase.
Open Scope nat_scope.
Open Scope heap_scope.

Lemma young_frozen : forall lim h h' S S' p, own h S -> own h' S' -> frozen (nxt h) h h' ->
  In p S -> young lim h p -> young lim h' p.
Proof.
  intros lim h h' S S' p O O' F I Y q H. apply Y.
  assert (Al : alive h p) by (eapply own_alive; eauto). clear I Y.
  induction H as [p c x y E B|p c x y q E B H IH]; unfold alive in Al; destruct (cells h p) as [c0|] eqn:E0; try congruence;
    assert (T : body c = body c0) by (apply (f_same _ _ _ F p); auto; eapply own_bounded; [exact O|unfold alive; congruence]);
    rewrite B in T; symmetry in T.
  - eapply spine_here; eauto.
  - eapply spine_next; eauto. apply IH. apply (own_pair _ _ _ _ _ _ O E0 T).
Qed.

(** What holds on the way: [F] from the start, and lists made since then. *)
Section From.
Variables (h0 : heap) (B : Type).
Implicit Types (Q : B -> heap -> Prop).
Definition since (h : heap) (R : list N) (fresh : list N) : Prop :=
  own h R /\ frozen (nxt h0) h0 h /\ (forall p, In p fresh -> In p R /\ young (nxt h0) h p).
Lemma since_next : forall h h' R R' l l', since h R l -> own h' R' -> frozen (nxt h) h h' ->
  (forall p, In p l' -> In p R' /\ (In p l \/ young (nxt h0) h' p)) -> since h' R' l'.
Proof.
  intros h h' R R' l l' [O [F Y]] O' F' I. pose proof (f_nxt _ _ _ F) as L. split; auto. split.
  - eapply frozen_trans; [|exact F|]; [lia|]. eapply frozen_mono; [|exact F']. auto.
  - intros p Ip. destruct (I p Ip) as [I1 [I2|I2]]; split; auto. destruct (Y p I2) as [I3 I4].
    eapply (young_frozen _ h h' R R'); eauto.
Qed.
Lemma since_perm : forall h R R' l, since h R l -> (forall a, cnt a R = cnt a R') -> (forall p, In p l -> In p R') -> since h R' l.
Proof. intros h R R' l [O [F Y]] P I. split; [eapply own_perm; eauto|]. split; auto. intros p Ip. split; auto. apply Y; auto. Qed.
Lemma ss_X : forall a k Q h R R' l, since h R' l -> (forall b, cnt b R' = cnt b (a :: R)) -> incl l R ->
  (forall h', since h' R l -> wp (k tt) Q h') -> wp (hbind_ (X a) k) Q h.
Proof.
  intros a k Q h R R' l S P I K. apply wp_bind. assert (O : own h (a :: R)) by (eapply own_perm; [apply S|auto]).
  apply (wp_X _ _ _ _ O). intros h' O' Sh. apply K. eapply since_next; [exact S|exact O'|apply shrinks_frozen; auto|].
  intros p Ip. auto.
Qed.
Lemma ss_car : forall a k Q h R l, since h R l -> In a R ->
  (forall r h', since h' (r :: R) l -> wp (k r) Q h') -> wp (hbind_ (hcar a) k) Q h.
Proof.
  intros a k Q h R l S I K. apply wp_bind. apply (wp_car _ _ _ R); [apply S|eapply own_alive; [apply S|auto]|].
  intros r h' O' Ad _. apply K. eapply since_next; [exact S|exact O'|apply adds_frozen; auto|].
  intros p Ip. split; auto. apply in_cons. apply S; auto.
Qed.
Lemma ss_cdr : forall a k Q h R l, since h R l -> In a R ->
  (forall r h', since h' (r :: R) l -> wp (k r) Q h') -> wp (hbind_ (hcdr a) k) Q h.
Proof.
  intros a k Q h R l S I K. apply wp_bind. apply (wp_cdr _ _ _ R); [apply S|eapply own_alive; [apply S|auto]|].
  intros r h' O' Ad _. apply K. eapply since_next; [exact S|exact O'|apply adds_frozen; auto|].
  intros p Ip. split; auto. apply in_cons. apply S; auto.
Qed.
(** Any operation that gives back a list made since it started. *)
Definition collects (m : HM N) (h : heap) (R : list N) : Prop :=
  wp m (fun r h' => own h' (r :: R) /\ frozen (nxt h) h h' /\ young (nxt h) h' r) h.
Lemma ss_collects : forall m k Q h R R' l, since h R' l -> collects m h R -> incl l R ->
  (forall r h', since h' (r :: R) (r :: l) -> wp (k r) Q h') -> wp (hbind_ m k) Q h.
Proof.
  intros m k Q h R R' l S C I K. apply wp_bind. eapply wp_mono; [exact C|]. intros r h' [O' [F' Y']]. apply K.
  pose proof (f_nxt _ _ _ (proj1 (proj2 S))) as L. eapply since_next; [exact S|exact O'|exact F'|].
  intros p [->|Ip]; [split; [apply in_eq|]|split; [apply in_cons; auto|auto]]. right. eapply young_mono; [|exact Y']. auto.
Qed.
End From.

Lemma wp_tail' : forall {A} (m : HM A) Q h, wp (hbind_ m done) Q h -> wp m Q h.
Proof. intros A m Q h H. unfold wp, hbind_, done in *. destruct (m h); auto. Qed.
Ltac inl := solve [repeat first [assumption | apply in_eq | apply in_cons]].
Ltac incl_tac := solve [let p := fresh in let I := fresh in intros p I; cbn [In] in I |- *; tauto].

Lemma conc_end : forall n a b h0 h R, since h0 h (b :: a :: R) [b; a] ->
  wp (hconc n a b) (fun r h' => own h' (r :: R) /\ frozen (nxt h0) h0 h' /\ young (nxt h0) h' r) h.
Proof.
  intros n a b h0 h R [O [F Y]]. pose proof (f_nxt _ _ _ F) as L.
  assert (O1 : own h (a :: b :: R)) by reown.
  eapply wp_mono; [apply (conc_spec n a b h R (nxt h0) O1); [apply Y; cbn; auto|lia]|].
  intros r h' [O' [F' [Y' _]]]. split; [auto|]. split; [|apply Y'; apply Y; cbn; auto].
  eapply frozen_trans; [|exact F|exact F']. lia.
Qed.
Lemma wrap_spec : forall x h R, own h (x :: R) -> collects (wrap x) h R.
Proof.
  intros x h R O. apply wp_bind. apply (wp_nil _ _ _ O). intros z h1 O1 G1.
  apply (wp_cons x z _ h1 R); [reown|]. intros r h2 O2 G2.
  assert (A1 : adds h h1) by (eapply grown_adds; eauto). assert (A2 : adds h1 h2) by (eapply grown_adds; eauto).
  split; auto. split; [apply adds_frozen; eapply adds_trans; eauto|].
  eapply young_cons; [apply (g_new _ _ _ _ G2)|cbn; auto|rewrite (g_addr _ _ _ _ G2); apply (a_nxt _ _ A1)|].
  destruct (adds_body _ _ _ _ A2 (g_new _ _ _ _ G1)) as [c [E B]]. eapply young_leaf; [exact E|].
  unfold is_pair_c. rewrite B. auto.
Qed.

Ltac ownp S := eapply own_perm; [apply S|perm].
(** Take one step; [S] is the [since] hypothesis. *)
Tactic Notation "dropx" hyp(S) constr(R) ident(h') :=
  eapply (ss_X _ _ _ _ _ _ R _ _ S); [perm|incl_tac|]; clear S; intros h' S.
Tactic Notation "takecar" hyp(S) ident(r) ident(h') := eapply (ss_car _ _ _ _ _ _ _ _ S); [inl|]; clear S; intros r h' S.
Tactic Notation "takecdr" hyp(S) ident(r) ident(h') := eapply (ss_cdr _ _ _ _ _ _ _ _ S); [inl|]; clear S; intros r h' S.
Tactic Notation "gather" hyp(S) constr(R) uconstr(IH) ident(r) ident(h') :=
  eapply (ss_collects _ _ _ _ _ _ R _ _ S); [eapply IH; ownp S|incl_tac|]; clear S; intros r h' S.
Lemma since_start : forall h R, own h R -> since h h R [].
Proof. intros h R O. split; auto. split; [apply frozen_refl|]. intros p []. Qed.
Lemma gather_done : forall h0 h r R l, since h0 h (r :: R) (r :: l) ->
  own h (r :: R) /\ frozen (nxt h0) h0 h /\ young (nxt h0) h r.
Proof. intros h0 h r R l [O [F Y]]. split; auto. split; auto. apply Y. apply in_eq. Qed.

Lemma collect_assoc_spec : forall col, (forall x h R, own h (x :: R) -> collects (col x) h R) ->
  forall n x h R, own h (x :: R) -> collects (hcollect_assoc col n x) h R.
Proof.
  intros col COL. induction n as [|n IH]; intros x h R O; [apply wp_dry|]. cbn [hcollect_assoc].
  apply wp_bind. apply wp_rd; [eapply own_alive; [exact O|apply in_eq]|]. intros c E.
  destruct (is_nil_c c) eqn:Nc.
  { apply wp_done. split; auto. split; [apply frozen_refl|]. eapply young_leaf; [exact E|].
    unfold is_nil_c, is_pair_c in *. destruct (body c); auto. }
  pose proof (since_start _ _ O) as S. destruct (is_pair_c c) eqn:Pc; cbn [negb].
  2:{ dropx S R h1. destruct S as [O1 [F1 _]]. apply (wp_nil _ _ _ O1). intros z h2 O2 G2. split; auto.
      assert (A2 : adds h1 h2) by (eapply grown_adds; eauto). split.
      - eapply frozen_trans; [|exact F1|apply adds_frozen; exact A2]. lia.
      - eapply young_leaf; [apply (g_new _ _ _ _ G2)|auto]. }
  takecar S car h1. takecdr S cdr h2. dropx S (cdr :: car :: R) h3. takecdr S e h4.
  gather S (cdr :: car :: R) COL head h5. dropx S (head :: cdr :: R) h6. gather S (head :: R) IH tl h7.
  apply conc_end. auto.
Qed.

Lemma collect_spec : forall n x h R, own h (x :: R) -> collects (hcollect n x) h R.
Proof.
  induction n as [|n IH]; intros x h R O; [apply wp_dry|]. cbn [hcollect].
  assert (Al : alive h x) by (eapply own_alive; [exact O|apply in_eq]).
  apply wp_bind. apply wp_rd; auto. intros c E.
  destruct (body c) as [| | | | | |a y] eqn:Bc; try (apply wrap_spec; auto).
  { apply wp_done. split; auto. split; [apply frozen_refl|]. eapply young_leaf; [exact E|].
    unfold is_pair_c. rewrite Bc. auto. }
  destruct (own_pair _ _ _ _ _ _ O E Bc) as [Aa _].
  apply wp_bind. apply wp_rd; auto. intros ca Ea.
  destruct (body ca) as [| | | | |s|]; try (apply wrap_spec; auto).
  pose proof (since_start _ _ O) as S.
  destruct (named s "if").
  { takecdr S cd0 h1. takecdr S cd1 h2. takecar S t h3. gather S (cd1 :: cd0 :: x :: R) IH thn h4.
    takecdr S cd2 h5. takecar S e h6. gather S (cd2 :: thn :: cd1 :: cd0 :: x :: R) IH els h7.
    dropx S (els :: cd2 :: thn :: cd1 :: cd0 :: R) h8. dropx S (els :: cd2 :: thn :: cd1 :: R) h9.
    dropx S (els :: cd2 :: thn :: R) h10. dropx S (els :: thn :: R) h11. apply conc_end. auto. }
  destruct (_ || _).
  { takecdr S cd0 h1. takecdr S cd1 h2. gather S (cd0 :: x :: R) (collect_assoc_spec _ IH) res h4.
    dropx S (res :: cd0 :: R) h5. dropx S (res :: R) h6. apply wp_done. eapply gather_done; eauto. }
  destruct (_ || _).
  { apply wp_bind. eapply wp_mono; [apply (last_pair_spec n x h _ O Al)|]. intros p h' [-> [_ [cp [u [v [_ [Ep [Bp _]]]]]]]].
    apply wp_bind. apply wp_CAR; [unfold alive; congruence|]. intros c1 l y1 E1 B1.
    destruct (own_pair _ _ _ _ _ _ O E1 B1) as [A1 _]. apply wp_bind. apply (wp_up _ _ _ _ O A1). intros h1 O1 Ad.
    eapply (since_next _ _ _ _ _ [] []) in S; [|exact O1|apply adds_frozen; auto|intros q []].
    gather S (x :: R) IH res h4. dropx S (res :: R) h5. apply wp_done. eapply gather_done; eauto. }
  destruct (_ || _); [|apply wrap_spec; auto].
  takecdr S cd0 h1. takecdr S cd1 h2. takecar S e h3. gather S (cd1 :: cd0 :: x :: R) IH res h4.
  dropx S (res :: cd1 :: cd0 :: R) h5. dropx S (res :: cd1 :: R) h6. dropx S (res :: R) h7.
  apply wp_done. eapply gather_done; eauto.
Qed.

(** ** Marking *)
Definition marks (h h' : heap) : Prop :=
  frozen (nxt h) h h' /\ nxt h' = nxt h /\ (forall a, alive h a -> alive h' a).
Lemma marks_refl : forall h, marks h h.
Proof. intro h. split; [apply frozen_refl|]. auto. Qed.
Lemma marks_trans : forall h1 h2 h3, marks h1 h2 -> marks h2 h3 -> marks h1 h3.
Proof.
  intros h1 h2 h3 [F1 [N1 A1]] [F2 [N2 A2]]. split; [|split; [congruence|auto]].
  eapply frozen_trans; [|exact F1|rewrite <- N1; exact F2]. lia.
Qed.
Lemma set_tail_spec : forall k h R, own h R -> alive h k ->
  wp (set_tail k) (fun _ h' => own h' R /\ marks h h') h.
Proof.
  intros k h R O A. apply wp_bind. apply wp_rd; auto. intros c E. unfold wp, wr. rewrite E.
  assert (O' : own (set_cell h k (Some (with_tail c))) R).
  { apply (own_set h k c (with_tail c) R R O E); cbn.
    - eapply (proj2 O); eauto.
    - apply (counted _ _ (proj1 O) _ _ E).
    - intro b. unfold fields. cbn. lia. }
  split; auto. split; [|split; [auto|]].
  - constructor; cbn; [lia|auto| |].
    + intros a L Ea. destruct (N.eqb_spec a k); [congruence|auto].
    + intros a c1 c2 L E1 E2. destruct (N.eqb_spec a k); [subst; injection E2 as <-; rewrite E in E1; injection E1 as <-; auto|congruence].
  - intros a Aa. unfold alive, set_cell in *. cbn. destruct (N.eqb a k); [discriminate|auto].
Qed.
Lemma mark_loop_spec : forall n symb args pt h R, own h R -> alive h symb -> alive h args -> alive h pt ->
  wp (hmark_loop n symb args pt) (fun _ h' => own h' R /\ marks h h') h.
Proof.
  induction n as [|n IH]; intros symb args pt h R O As Aa Ap; [apply wp_dry|]. cbn [hmark_loop].
  apply wp_bind. apply wp_CAR; auto. intros c x y E B. destruct (own_pair _ _ _ _ _ _ O E B) as [Ax Ay].
  apply wp_bind. apply wp_test; auto. intros cx Ex.
  apply wp_bind. apply (wp_mono _ (fun _ h' => own h' R /\ marks h h')).
  - destruct (is_pair_c cx); [|apply wp_done; split; [auto|apply marks_refl]].
    apply wp_bind. apply wp_CAR; auto. intros c1 k v E1 B1. destruct (own_pair _ _ _ _ _ _ O E1 B1) as [Ak Av].
    apply hs_pure; [eapply pure_same_key; eauto|]. intros [|]; [|apply wp_done; split; [auto|apply marks_refl]].
    apply wp_bind. apply wp_CDR; auto. intros c2 k2 v2 E2 B2. destruct (own_pair _ _ _ _ _ _ O E2 B2) as [_ Av2].
    apply hs_pure; [eapply pure_may_apply; eauto|]. intros [|]; [|apply wp_done; split; [auto|apply marks_refl]].
    apply set_tail_spec; auto.
  - intros _ h1 [O1 M1]. pose proof (proj2 (proj2 M1)) as K1.
    apply wp_bind. apply wp_CDR; auto. intros c2 x2 y2 E2 B2. destruct (own_pair _ _ _ _ _ _ O1 E2 B2) as [_ Ay2].
    apply wp_bind. apply wp_test; auto. intros cy Ey. destruct (is_pair_c cy); [|apply wp_done; auto].
    eapply wp_mono; [apply (IH symb args y2 h1 R O1); auto|]. intros _ h2 [O2 M2]. split; auto. eapply marks_trans; eauto.
Qed.
Lemma mark_spec : forall n symb args bdy h R, own h R ->
  (exists r, In r R /\ path h r symb) -> (exists r, In r R /\ path h r args) -> alive h bdy ->
  wp (hmark n symb args bdy) (fun _ h' => own h' R /\ frozen (nxt h) h h') h.
Proof.
  intros n symb args bdy h R O [rs [Is Ps]] [ra [Ia Pa]] A. apply wp_bind. apply wp_test; auto. intros cb Eb.
  destruct (is_nil_c cb); [apply wp_wild|].
  apply wp_bind. eapply wp_mono; [apply (last_pair_spec n bdy h _ O A)|]. intros p h' [-> [_ [cp [u [v [_ [Ep [Bp _]]]]]]]].
  apply wp_bind. apply wp_CAR; [unfold alive; congruence|]. intros c1 l y1 E1 B1.
  destruct (own_pair _ _ _ _ _ _ O E1 B1) as [A1 _]. apply wp_bind. apply (wp_up _ _ _ _ O A1). intros h1 O1 Ad.
  apply wp_bind. eapply wp_mono; [apply (collect_spec n l h1 R O1)|]. intros tails h2 [O2 [F2 _]].
  assert (F : frozen (nxt h) h h2).
  { eapply frozen_trans; [|apply adds_frozen; exact Ad|eapply frozen_mono; [|exact F2]]; [lia|]. apply (a_nxt _ _ Ad). }
  assert (KP : forall r q, In r R -> path h r q -> alive h2 q).
  { intros r q I P. destruct (frozen_path _ _ _ _ _ _ O O2 F (own_alive _ _ _ O I) (own_alive _ _ _ O2 (in_cons _ _ _ I)) P)
      as [_ [cq [cq' [_ [Eq _]]]]]. unfold alive. congruence. }
  assert (At : alive h2 tails) by (eapply own_alive; [exact O2|apply in_eq]).
  apply wp_bind. apply wp_test; auto. intros ct Et.
  apply wp_bind. apply (wp_mono _ (fun _ h' => own h' (tails :: R) /\ marks h2 h')).
  { destruct (is_nil_c ct); [apply wp_done; split; [auto|apply marks_refl]|].
    apply mark_loop_spec; auto; [apply (KP rs)|apply (KP ra)]; auto. }
  intros _ h3 [O3 [F3 [N3 _]]]. apply (wp_X _ _ _ _ O3). intros h4 O4 S4. split; auto.
  pose proof (f_nxt _ _ _ F) as L. pose proof (f_nxt _ _ _ F3) as L3.
  assert (F3' : frozen (nxt h) h2 h3) by (eapply frozen_mono; [|exact F3]; lia).
  pose proof (shrinks_frozen (nxt h) _ _ S4) as F4'.
  eapply frozen_trans; [|exact F|]; [lia|]. eapply frozen_trans; [|exact F3'|exact F4']. lia.
Qed.
