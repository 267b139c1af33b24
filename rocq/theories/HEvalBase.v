(** * HEvalBase: evaluation steps on the heap, and the elementary rules. *)
From Verif Require Import Value Tails Print Heap HeapSpec HeapProofs HeapOps HEval HEvalSpec ValueProofs.
Open Scope nat_scope.
Open Scope heap_scope.

Lemma holds_own : forall h R, holds h R -> own h (R ++ held_by_lisp (aux h)).
Proof. intros h R [C S _ _ _]. split; auto. Qed.
Lemma holds_perm : forall h R R', holds h R -> (forall a, cnt a R = cnt a R') -> holds h R'.
Proof.
  intros h R R' H P.
  destruct (own_perm _ _ (R' ++ held_by_lisp (aux h)) (holds_own _ _ H)) as [C S].
  - intro a. rewrite !cnt_app, P. auto.
  - constructor; auto; apply H.
Qed.
Lemma holds_alive : forall h R a, holds h R -> In a R -> alive h a.
Proof. intros h R a H I. eapply own_alive; [apply holds_own; eauto|]. apply in_or_app. auto. Qed.

Ltac rehold := match goal with H : holds ?h _ |- holds ?h _ => apply (holds_perm _ _ _ H); perm end.
Ltac inR := solve [repeat first [assumption | apply in_eq | apply in_cons]].

(** ** Steps *)

(** A field that may be replaced: the end of a list, or the value of a variable
    other than ANY. *)
Definition is_any (s : symbol) : bool := sym_match s (sy "ANY").
Definition loose (h : heap) (x y : N) : Prop :=
  (exists cy, cells h y = Some cy /\ is_pair_c cy = false) \/
  (exists cx s, cells h x = Some cx /\ body cx = KSym s /\ is_any s = false).
Record step0 (h h' : heap) : Prop := mkstep0 {
  s_own : exists R, own h R;
  s_own' : exists R, own h' R;
  s_nxt : (nxt h <= nxt h')%N;
  s_dead : forall a, (a < nxt h)%N -> cells h a = None -> cells h' a = None;
  s_body : forall a c c', cells h a = Some c -> cells h' a = Some c' ->
    body c' = body c \/ exists x y y', body c = KPair x y /\ body c' = KPair x y' /\ loose h x y
}.

Section Allowed.
Variable allowed : event -> bool.

(** Globals are never removed; the channels are restored; nothing is lost unless
    [<-] is used or [def] is given something else than a symbol. *)
Record later (r r' : rest) : Prop := mklater {
  l_binds : incl (map snd (binds r)) (map snd (binds r'));
  l_ichan : ichan r' = ichan r;
  l_ochan : ochan r' = ochan r;
  l_opens : (opens r <= opens r')%N;
  l_lost : allowed UsesSet = false -> allowed DefinesNonSymbol = false -> lost r' = lost r /\ strays r' = strays r
}.
Definition step (h h' : heap) : Prop := step0 h h' /\ later (aux h) (aux h').

Lemma later_refl : forall r, later r r.
Proof. intro r. constructor; auto; [apply incl_refl|lia]. Qed.
Lemma later_eq : forall r r', r' = r -> later r r'.
Proof. intros r r' ->. apply later_refl. Qed.
Lemma later_trans : forall r1 r2 r3, later r1 r2 -> later r2 r3 -> later r1 r3.
Proof.
  intros r1 r2 r3 [A1 B1 C1 P1 D1] [A2 B2 C2 P2 D2]. constructor; try congruence.
  - eapply incl_tran; eauto.
  - lia.
  - intros U D. destruct (D1 U D), (D2 U D). split; congruence.
Qed.

Lemma step0_refl : forall h R, own h R -> step0 h h.
Proof.
  intros h R O. constructor; eauto; [lia|]. intros a c c' E E'. left. congruence.
Qed.
Lemma step0_trans : forall h1 h2 h3, step0 h1 h2 -> step0 h2 h3 -> step0 h1 h3.
Proof.
  intros h1 h2 h3 [[R1 O1] [R2 O2] A1 B1 C1] [_ O3 A2 B2 C2]. constructor; eauto; [lia| |].
  - intros a L E. apply B2; [lia|]. auto.
  - intros a c c' E E'. destruct (cells h2 a) as [c2|] eqn:E2.
    2:{ exfalso. assert (a < nxt h1)%N by (eapply own_bounded; [exact O1|unfold alive; congruence]).
        rewrite B2 in E'; [discriminate|lia|auto]. }
    destruct (C1 _ _ _ E E2) as [T|[x [y [y' [T1 [T2 L]]]]]].
    + destruct (C2 _ _ _ E2 E') as [U|[x [y [y' [U1 [U2 L]]]]]]; [left; congruence|].
      right. rewrite T in U1. exists x, y, y'. split; [auto|]. split; [auto|].
      destruct (own_pair _ _ _ _ _ _ O1 E U1) as [Ax Ay].
      destruct L as [[cy [Ey Py]]|[cx [s [Ex [Bx Ny]]]]].
      * left. unfold alive in Ay. destruct (cells h1 y) as [cy1|] eqn:Ey1; [|congruence].
        exists cy1. split; auto. unfold is_pair_c in *. destruct (C1 _ _ _ Ey1 Ey) as [V|[u [v [v' [V1 [V2 _]]]]]].
        -- rewrite <- V. auto.
        -- rewrite V2 in Py. discriminate.
      * right. unfold alive in Ax. destruct (cells h1 x) as [cx1|] eqn:Ex1; [|congruence].
        exists cx1, s. split; auto. split; auto. destruct (C1 _ _ _ Ex1 Ex) as [V|[u [v [v' [V1 [V2 _]]]]]]; congruence.
    + right. destruct (C2 _ _ _ E2 E') as [U|[u [v [v' [U1 [U2 _]]]]]].
      * exists x, y, y'. split; auto. split; congruence.
      * rewrite T2 in U1. injection U1 as <- <-. exists x, y, v'. auto.
Qed.
Lemma step_refl : forall h R, holds h R -> step h h.
Proof. intros h R H. split; [eapply step0_refl; apply holds_own; eauto|apply later_refl]. Qed.
Lemma step_trans : forall h1 h2 h3, step h1 h2 -> step h2 h3 -> step h1 h3.
Proof. intros h1 h2 h3 [A B] [C D]. split; [eapply step0_trans; eauto|eapply later_trans; eauto]. Qed.

Lemma frozen_step0 : forall h h' R R', own h R -> own h' R' -> frozen (nxt h) h h' -> step0 h h'.
Proof.
  intros h h' R R' O O' [A B C D]. constructor; eauto.
  intros a c c' E E'. left. apply (D a); auto. eapply own_bounded; [exact O|unfold alive; congruence].
Qed.
Lemma frozen_step : forall h h' R R', own h R -> own h' R' -> frozen (nxt h) h h' -> step h h'.
Proof. intros h h' R R' O O' F. split; [eapply frozen_step0; eauto|]. apply later_eq. apply (f_aux _ _ _ F). Qed.
Lemma adds_step : forall h h' R R', own h R -> own h' R' -> adds h h' -> step h h'.
Proof. intros. eapply frozen_step; eauto using adds_frozen. Qed.
Lemma shrinks_step : forall h h' R R', own h R -> own h' R' -> shrinks h h' -> step h h'.
Proof. intros. eapply frozen_step; eauto using shrinks_frozen. Qed.

(** ** Cells that stay in use *)

(** From roots, through the CAR of pairs, and through the CDR where it cannot be
    replaced. *)
Inductive held (R : list N) (h : heap) : N -> Prop :=
| held_root : forall a, In a R -> held R h a
| held_car : forall a c x y, held R h a -> cells h a = Some c -> body c = KPair x y -> held R h x
| held_cdr : forall a c x y cx cy, held R h a -> cells h a = Some c -> body c = KPair x y ->
    cells h y = Some cy -> is_pair_c cy = true ->
    cells h x = Some cx -> (is_pair_c cx = true \/ exists s, body cx = KSym s /\ is_any s = true) ->
    held R h y.
Lemma held_alive : forall R S h a, own h S -> (forall r, In r R -> alive h r) -> held R h a -> alive h a.
Proof.
  intros R S h a O A H. induction H as [a I|a c x y H IH E B|a c x y cx cy H IH E B Ey Py Ex Px]; auto.
  - apply (own_pair _ _ _ _ _ _ O E B).
  - unfold alive. congruence.
Qed.
Lemma held_step : forall R h h' a, step0 h h' -> (forall r, In r R -> alive h' r) -> held R h a -> held R h' a.
Proof.
  intros R h h' a ST A H. pose proof (s_own' _ _ ST) as [S' O'].
  induction H as [a I|a c x y H IH E B|a c x y cx cy H IH E B Ey Py Ex Px].
  - apply held_root; auto.
  - pose proof (held_alive _ _ _ _ O' A IH) as Al. unfold alive in Al. destruct (cells h' a) as [c'|] eqn:E'; [|congruence].
    destruct (s_body _ _ ST _ _ _ E E') as [T|[u [v [v' [T1 [T2 _]]]]]].
    + rewrite B in T. eapply held_car; eauto.
    + rewrite B in T1. injection T1 as <- <-. eapply held_car; eauto.
  - pose proof (held_alive _ _ _ _ O' A IH) as Al. unfold alive in Al. destruct (cells h' a) as [c'|] eqn:E'; [|congruence].
    assert (B' : body c' = KPair x y).
    { destruct (s_body _ _ ST _ _ _ E E') as [T|[u [v [v' [T1 [T2 L]]]]]]; [congruence|].
      exfalso. rewrite B in T1. injection T1 as <- <-. destruct L as [[cy' [Ey' Py']]|[cx' [s [Ex' [Bx Nx]]]]].
      - congruence.
      - rewrite Ex in Ex'. injection Ex' as <-. destruct Px as [Px|[s' [Bs' As']]].
        + unfold is_pair_c in Px. rewrite Bx in Px. discriminate.
        + congruence. }
    destruct (own_pair _ _ _ _ _ _ O' E' B') as [Ax Ay]. unfold alive in Ax, Ay.
    destruct (cells h' x) as [cx'|] eqn:Ex'; [|congruence]. destruct (cells h' y) as [cy'|] eqn:Ey'; [|congruence].
    assert (KP : forall q cq cq', cells h q = Some cq -> cells h' q = Some cq' -> is_pair_c cq = true -> is_pair_c cq' = true).
    { intros q cq cq' Eq Eq' P. unfold is_pair_c in *. destruct (s_body _ _ ST _ _ _ Eq Eq') as [T|[u [v [v' [T1 [T2 _]]]]]].
      - rewrite T. auto.
      - rewrite T2. auto. }
    apply (held_cdr R h' a c' x y cx' cy' IH E' B' Ey' (KP _ _ _ Ey Ey' Py) Ex').
    destruct Px as [Px|[s [Bs As]]]; [left; eauto|]. right. exists s. split; auto.
    destruct (s_body _ _ ST _ _ _ Ex Ex') as [T|[u [v [v' [T1 [T2 _]]]]]]; congruence.
Qed.

(** The same struct lisp: what it holds is unchanged. *)
Lemma holds_keep : forall h h' R R', holds h R -> step0 h h' -> aux h' = aux h ->
  own h' (R' ++ held_by_lisp (aux h)) -> holds h' R'.
Proof.
  intros h h' R R' H ST E [C S]. constructor; rewrite ?E; auto; [|apply H|].
  2:{ intros Z a Ia. destruct (h_chans _ _ H Z a Ia) as [c [Ec Pc]].
      assert (Al : alive h' a).
      { eapply correct_alive; [exact C|]. apply in_or_app. right. unfold held_by_lisp. apply in_or_app. right.
        destruct Ia as [->| ->]; cbn; auto. }
      unfold alive in Al. destruct (cells h' a) as [c'|] eqn:E'; [|congruence]. exists c'. split; auto.
      unfold is_pair_c in *. destruct (s_body _ _ ST _ _ _ Ec E') as [T|[x [y [y' [T1 [T2 _]]]]]]; [rewrite T; auto|].
      rewrite T2. auto. }
  intros s kv I. destruct (h_globals _ _ H _ _ I) as [c [k [v [ck [Ec [Bc [Ek Bk]]]]]]].
  assert (Al : alive h' kv).
  { eapply correct_alive; [exact C|]. apply in_or_app. right. unfold held_by_lisp. apply in_or_app. left.
    apply in_map_iff. exists (s, kv). auto. }
  unfold alive in Al. destruct (cells h' kv) as [c'|] eqn:E'; [|congruence].
  assert (B' : exists v', body c' = KPair k v').
  { destruct (s_body _ _ ST _ _ _ Ec E') as [T|[x [y [y' [T1 [T2 _]]]]]]; [eexists; rewrite T; eauto|].
    rewrite Bc in T1. injection T1 as <- <-. eauto. }
  destruct B' as [v' B']. assert (OO : own h' (R' ++ held_by_lisp (aux h))) by (split; auto).
  destruct (own_pair _ _ _ _ _ _ OO E' B') as [Ak _].
  unfold alive in Ak. destruct (cells h' k) as [ck'|] eqn:Ek'; [|congruence].
  exists c', k, v', ck'. split; auto. split; auto. split; auto.
  destruct (s_body _ _ ST _ _ _ Ek Ek') as [T|[x [y [y' [T1 [T2 _]]]]]]; congruence.
Qed.

(** ** Rules *)
Lemma wp_tail : forall {A} (m : HM A) Q h, wp (hbind_ m done) Q h -> wp m Q h.
Proof. intros A m Q h H. unfold wp, hbind_, done in *. destruct (m h); auto. Qed.

Section Rules.
Context {B : Type}.
Implicit Types (Q : B -> heap -> Prop).

Lemma hs_done : forall {A} (a : A) k Q h, wp (k a) Q h -> wp (hbind_ (done a) k) Q h.
Proof. intros. apply wp_bind. apply wp_done. auto. Qed.
Lemma hs_wild : forall {A} (k : A -> HM B) Q h, wp (hbind_ wild k) Q h.
Proof. intros. apply wp_bind. apply wp_wild. Qed.
Lemma hs_dry : forall {A} (k : A -> HM B) Q h, wp (hbind_ dry k) Q h.
Proof. intros. apply wp_bind. apply wp_dry. Qed.
Lemma hs_rd : forall a k Q h, alive h a -> (forall c, cells h a = Some c -> wp (k c) Q h) -> wp (hbind_ (rd a) k) Q h.
Proof. intros. apply wp_bind. apply wp_rd; auto. Qed.
Lemma hs_test : forall f a k Q h, alive h a -> (forall c, cells h a = Some c -> wp (k (f c)) Q h) -> wp (hbind_ (test f a) k) Q h.
Proof. intros. apply wp_bind. apply wp_test; auto. Qed.
Lemma hs_CAR : forall a k Q h, alive h a ->
  (forall c x y, cells h a = Some c -> body c = KPair x y -> wp (k x) Q h) -> wp (hbind_ (CAR a) k) Q h.
Proof. intros. apply wp_bind. apply wp_CAR; auto. Qed.
Lemma hs_CDR : forall a k Q h, alive h a ->
  (forall c x y, cells h a = Some c -> body c = KPair x y -> wp (k y) Q h) -> wp (hbind_ (CDR a) k) Q h.
Proof. intros. apply wp_bind. apply wp_CDR; auto. Qed.
Lemma hs_symbol : forall a k Q h, alive h a ->
  (forall c s, cells h a = Some c -> body c = KSym s -> wp (k s) Q h) -> wp (hbind_ (symbol_of a) k) Q h.
Proof. intros. apply wp_bind. apply wp_symbol; auto. Qed.

Lemma hs_X : forall a k Q h R, holds h (a :: R) ->
  (forall h', holds h' R -> step h h' -> wp (k tt) Q h') -> wp (hbind_ (X a) k) Q h.
Proof.
  intros a k Q h R H K. apply wp_bind. pose proof (holds_own _ _ H) as O. apply (wp_X _ _ _ _ O).
  intros h' O' S. assert (E : aux h' = aux h) by apply S.
  pose proof (shrinks_step _ _ _ _ O O' S) as ST. apply K; auto.
  apply (holds_keep h _ _ _ H (proj1 ST) E O').
Qed.
(** Operations that only add cells. *)
Lemma holds_adds : forall h h' R R', holds h R -> adds h h' -> own h' (R' ++ held_by_lisp (aux h)) -> holds h' R' /\ step h h'.
Proof.
  intros h h' R R' H A O'. pose proof (holds_own _ _ H) as O. pose proof (adds_step _ _ _ _ O O' A) as ST.
  split; auto. apply (holds_keep h _ _ _ H (proj1 ST) (a_aux _ _ A) O').
Qed.
Lemma hs_up : forall a k Q h R, holds h R -> alive h a ->
  (forall h', holds h' (a :: R) -> step h h' -> adds h h' -> wp (k a) Q h') -> wp (hbind_ (up a) k) Q h.
Proof.
  intros a k Q h R H A K. apply wp_bind. apply (wp_up _ _ _ _ (holds_own _ _ H) A). intros h' O' Ad.
  destruct (holds_adds h h' R (a :: R) H Ad O'). auto.
Qed.
Lemma hs_car : forall a k Q h R, holds h R -> alive h a ->
  (forall r h', holds h' (r :: R) -> step h h' -> adds h h' ->
     (forall c x y, cells h a = Some c -> body c = KPair x y -> r = x) -> wp (k r) Q h') -> wp (hbind_ (hcar a) k) Q h.
Proof.
  intros a k Q h R H A K. apply wp_bind. apply (wp_car _ _ _ _ (holds_own _ _ H) A). intros r h' O' Ad F.
  destruct (holds_adds h h' R (r :: R) H Ad O'). auto.
Qed.
Lemma hs_cdr : forall a k Q h R, holds h R -> alive h a ->
  (forall r h', holds h' (r :: R) -> step h h' -> adds h h' ->
     (forall c x y, cells h a = Some c -> body c = KPair x y -> r = y) -> wp (k r) Q h') -> wp (hbind_ (hcdr a) k) Q h.
Proof.
  intros a k Q h R H A K. apply wp_bind. apply (wp_cdr _ _ _ _ (holds_own _ _ H) A). intros r h' O' Ad F.
  destruct (holds_adds h h' R (r :: R) H Ad O'). auto.
Qed.
Lemma hs_alloc : forall b k Q h R, kids b = [] -> holds h R ->
  (forall r h', holds h' (r :: R) -> step h h' -> adds h h' -> grown h h' r b -> wp (k r) Q h') -> wp (hbind_ (alloc b) k) Q h.
Proof.
  intros b k Q h R KB H K. apply wp_bind. pose proof (holds_own _ _ H) as O.
  apply (wp_alloc b _ h (R ++ held_by_lisp (aux h))); [rewrite KB; auto|]. intros r h' O' G.
  assert (Ad : adds h h') by (eapply grown_adds; eauto).
  destruct (holds_adds h h' R (r :: R) H Ad O'). auto.
Qed.
Lemma hs_nil : forall k Q h R, holds h R ->
  (forall r h', holds h' (r :: R) -> step h h' -> adds h h' -> grown h h' r KNil -> wp (k r) Q h') -> wp (hbind_ make_nil k) Q h.
Proof. intros. apply (hs_alloc KNil _ _ _ R); auto. Qed.
Lemma hs_cons : forall x y k Q h R, holds h (x :: y :: R) ->
  (forall r h', holds h' (r :: R) -> step h h' -> adds h h' -> grown h h' r (KPair x y) -> wp (k r) Q h') -> wp (hbind_ (hcons x y) k) Q h.
Proof.
  intros x y k Q h R H K. apply wp_bind. pose proof (holds_own _ _ H) as O.
  apply (wp_cons x y _ h (R ++ held_by_lisp (aux h)) O). intros r h' O' G.
  assert (Ad : adds h h') by (eapply grown_adds; eauto).
  destruct (holds_adds h h' _ (r :: R) H Ad O'). auto.
Qed.
Lemma hs_plant : forall v k Q h R, holds h R ->
  (forall r h', holds h' (r :: R) -> step h h' -> adds h h' -> wp (k r) Q h') -> wp (hbind_ (plant v) k) Q h.
Proof.
  intros v k Q h R H K. apply wp_bind. apply (wp_plant v _ h (R ++ held_by_lisp (aux h)) (holds_own _ _ H)).
  intros r h' O' Ad _. destruct (holds_adds h h' _ (r :: R) H Ad O'). auto.
Qed.
Lemma hs_dup : forall n a k Q h R, holds h R -> alive h a ->
  (forall r h', holds h' (r :: R) -> step h h' -> adds h h' -> wp (k r) Q h') -> wp (hbind_ (hdup n a) k) Q h.
Proof.
  intros n a k Q h R H A K. apply wp_bind. eapply wp_mono; [apply (dup_spec n a h _ (holds_own _ _ H) A)|].
  intros r h' [O' [Ad _]]. destruct (holds_adds h h' _ (r :: R) H Ad O'). auto.
Qed.
Lemma hs_mix : forall n c e k Q h R, holds h R -> alive h c -> In e R ->
  (forall r h', holds h' (r :: R) -> step h h' -> wp (k r) Q h') -> wp (hbind_ (hmix n c e) k) Q h.
Proof.
  intros n c e k Q h R H A I K. apply wp_bind. pose proof (holds_own _ _ H) as O.
  eapply wp_mono; [apply (dup_merge_spec n n c e h _ O A); apply in_or_app; auto|].
  intros r h' [O' [F _]]. pose proof (frozen_step _ _ _ _ O O' F) as ST.
  apply K; auto. apply (holds_keep h _ _ (r :: R) H (proj1 ST) (f_aux _ _ _ F) O').
Qed.
Lemma hs_bind : forall n clos arg val k Q h R, holds h (clos :: arg :: val :: R) ->
  (forall r h', holds h' (r :: R) -> step h h' -> wp (k r) Q h') -> wp (hbind_ (hbind n clos arg val) k) Q h.
Proof.
  intros n clos arg val k Q h R H K. apply wp_bind. pose proof (holds_own _ _ H) as O.
  eapply wp_mono; [apply (bind_spec n clos arg val h _ O)|].
  intros r h' [O' F]. pose proof (frozen_step _ _ _ _ O O' F) as ST.
  apply K; auto. apply (holds_keep h _ _ (r :: R) H (proj1 ST) (f_aux _ _ _ F) O').
Qed.
Lemma hs_conc : forall n a b k Q h R, holds h (a :: b :: R) ->
  (forall r h', holds h' (r :: R) -> step h h' -> wp (k r) Q h') -> wp (hbind_ (hconc n a b) k) Q h.
Proof.
  intros n a b k Q h R H K. apply wp_bind. pose proof (holds_own _ _ H) as O.
  eapply wp_mono; [apply (conc_spec n a b h _ 0%N O (young_zero _ _)); lia|].
  intros r h' [O' [F [_ RL]]].
  assert (ST : step0 h h').
  { constructor; eauto; [apply (f_nxt _ _ _ F)|apply (f_dead _ _ _ F)|]. intros q c c' E E'.
    destruct (RL _ _ _ E E') as [T|[x [y [cy [T1 [T2 [T3 T4]]]]]]]; auto.
    right. exists x, y, b. split; auto. split; auto. left. eauto. }
  apply K; [|split; [auto|apply later_eq; apply (f_aux _ _ _ F)]].
  apply (holds_keep h _ _ (r :: R) H ST (f_aux _ _ _ F) O').
Qed.

(** Operations that only read. *)
Definition pure {A} (m : HM A) (h : heap) : Prop := wp m (fun _ h' => h' = h) h.
Lemma hs_pure : forall {A} (m : HM A) k Q h, pure m h -> (forall r, wp (k r) Q h) -> wp (hbind_ m k) Q h.
Proof. intros A m k Q h P K. apply wp_bind. eapply wp_mono; [exact P|]. intros r h' ->. auto. Qed.
End Rules.
End Allowed.

Lemma pure_bind : forall {A B} (m : HM A) (k : A -> HM B) h, pure m h -> (forall r, pure (k r) h) -> pure (hbind_ m k) h.
Proof. intros A B m k h P K. apply (hs_pure m k _ h P). exact K. Qed.
Lemma pure_done : forall {A} (a : A) h, pure (done a) h.
Proof. intros. apply wp_done. auto. Qed.

Section Pure.
Variables (h : heap) (R : list N).
Hypothesis O : own h R.
Ltac two E B := let A1 := fresh "A" in let A2 := fresh "A" in destruct (own_pair _ _ _ _ _ _ O E B) as [A1 A2].

Lemma pure_number : forall a, alive h a -> pure (number_of a) h.
Proof.
  intros a A. apply hs_rd; auto. intros c E. destruct (num_field (leaf c)); [apply pure_done|apply wp_wild].
Qed.
Lemma pure_value : forall n a, alive h a -> pure (value_at n a) h.
Proof.
  induction n as [|n IH]; intros a A; [apply wp_dry|]. cbn [value_at]. apply hs_rd; auto. intros c E.
  destruct (body c) as [| | | | | |x y] eqn:B; try apply pure_done. two E B.
  apply pure_bind; auto. intro v. apply pure_bind; auto. intro w. apply pure_done.
Qed.
Lemma pure_equ : forall n a b, alive h a -> alive h b -> pure (hequ n a b) h.
Proof.
  induction n as [|n IH]; intros a b A A'; [apply wp_dry|]. cbn [hequ]. apply hs_rd; auto. intros c E.
  apply hs_rd; auto. intros d E'.
  destruct (body c) as [| | | | | |x y] eqn:B; destruct (body d) as [| | | | | |x' y'] eqn:B'; try apply pure_done.
  two E B. two E' B'. apply pure_bind; auto. intros [|]; auto. apply pure_done.
Qed.
Lemma pure_neq : forall n a b, alive h a -> alive h b -> pure (hneq n a b) h.
Proof.
  induction n as [|n IH]; intros a b A A'; [apply wp_dry|]. cbn [hneq]. apply hs_rd; auto. intros c E.
  apply hs_rd; auto. intros d E'.
  destruct (body c) as [| | | | | |x y] eqn:B; destruct (body d) as [| | | | | |x' y'] eqn:B'; try apply pure_done.
  two E B. two E' B'. apply pure_bind; auto. intros [|]; auto. apply pure_done.
Qed.
Lemma pure_match : forall n a b, alive h a -> alive h b -> pure (hmatch n a b) h.
Proof.
  induction n as [|n IH]; intros a b A A'; [apply wp_dry|]. cbn [hmatch]. apply hs_rd; auto. intros c E.
  destruct (is_wild_c c); [apply pure_done|]. apply hs_rd; auto. intros d E'.
  destruct (body c) as [| | | | | |x y] eqn:B; destruct (body d) as [| | | | | |x' y'] eqn:B'; try apply pure_done.
  two E B. two E' B'. apply pure_bind; auto. intros [|]; auto. apply pure_done.
Qed.
Lemma pure_may_apply : forall n a b, alive h a -> alive h b -> pure (hmay_apply n a b) h.
Proof.
  induction n as [|n IH]; intros a b A A'; [apply wp_dry|]. cbn [hmay_apply]. apply hs_rd; auto. intros c E.
  apply hs_rd; auto. intros d E'.
  destruct (_ && _); [apply pure_done|]. destruct (is_sym_c c); [apply pure_done|].
  destruct (_ && _); [apply pure_done|]. destruct (_ && _); [|apply pure_done].
  apply hs_CDR; auto. intros c1 x y E1 B1. apply hs_CDR; auto. intros c2 x' y' E2 B2.
  two E1 B1. two E2 B2. apply IH; auto.
Qed.
Lemma pure_len : forall n a, alive h a -> pure (hlen n a) h.
Proof.
  induction n as [|n IH]; intros a A; [apply wp_dry|]. cbn [hlen]. apply hs_CDR; auto. intros c x y E B. two E B.
  apply hs_test; auto. intros d E'. destruct (is_pair_c d); [|apply pure_done]. apply pure_bind; auto.
  intro k. apply pure_done.
Qed.
Lemma pure_func : forall a, alive h a -> pure (his_func a) h.
Proof.
  intros a A. apply hs_rd; auto. intros c E. destruct (body c) as [| | | | | |x y] eqn:B; try apply pure_done. two E B.
  apply hs_rd; auto. intros cx Ex. destruct (_ || _); [|apply pure_done]. apply hs_rd; auto. intros cy Ey.
  destruct (body cy) as [| | | | | |u v] eqn:By; try apply pure_done. two Ey By.
  apply hs_rd; auto. intros cu Eu. destruct (is_list_c cu); [|apply pure_done]. apply hs_rd; auto. intros cv Ev. apply pure_done.
Qed.
Lemma pure_key_is : forall a s, alive h a -> pure (key_is a s) h.
Proof. intros a s A. apply hs_rd; auto. intros c E. apply pure_done. Qed.
Lemma pure_same_key : forall a b, alive h a -> alive h b -> pure (same_key a b) h.
Proof. intros a b A A'. apply hs_rd; auto. intros c E. apply hs_rd; auto. intros d E'. apply pure_done. Qed.

Lemma pure_watch : forall allowed e n a ok, alive h a -> pure (watch allowed e n a ok) h.
Proof.
  intros allowed e n a ok A. unfold watch. destruct (allowed e); [apply pure_done|].
  apply pure_bind; [apply pure_value; auto|]. intro v. destruct (ok v); [apply pure_done|exact Logic.I].
Qed.
Lemma pure_watch_marks : forall allowed ow n s a b, alive h s -> alive h a -> alive h b -> pure (watch_marks allowed ow n s a b) h.
Proof.
  intros allowed ow n s a b As Aa Ab. unfold watch_marks. destruct (allowed MarksCode); [apply pure_done|].
  apply hs_symbol; auto. intros cs k Es Bs. apply pure_bind; [apply pure_value; auto|]. intro va.
  apply pure_bind; [apply pure_value; auto|]. intro vb.
  destruct (mark_body _ _ _) as [b'|]; [destruct (atom_dec vb b'); [apply pure_done|]|apply pure_done].
  unfold pure, wp. destruct (ow h); auto.
Qed.

(** A (NAME . VALUE) pair with a given name. *)
Definition named_pair (s : symbol) (kv : N) : Prop := exists c k v ck,
  cells h kv = Some c /\ body c = KPair k v /\ cells h k = Some ck /\ body ck = KSym s.
Lemma scan_spec : forall n c s, alive h c ->
  wp (scan n c s) (fun r h' => h' = h /\ match r with Some kv => named_pair s kv | None => True end) h.
Proof.
  induction n as [|n IH]; intros c s A; [apply wp_dry|]. cbn [scan].
  apply hs_CAR; auto. intros c1 kv y1 E1 B1. two E1 B1.
  apply hs_CAR; auto. intros c2 k v E2 B2. two E2 B2.
  apply wp_bind. unfold key_is. apply hs_rd; auto. intros ck Ek. apply wp_done.
  destruct (match body ck with KSym s' => sym_match s' s | _ => false end) eqn:M.
  - apply wp_done. split; auto. destruct (body ck) eqn:Bk; try discriminate. apply sym_match_eq in M. subst.
    exists c2, k, v, ck. auto.
  - apply hs_CDR; auto. intros c3 x y E3 B3. two E3 B3. apply hs_test; auto. intros cy Ey.
    destruct (is_pair_c cy); auto. apply wp_done. auto.
Qed.
Lemma find_local_spec : forall n c s, alive h c ->
  wp (find_local n c s) (fun r h' => h' = h /\ match r with Some kv => named_pair s kv | None => True end) h.
Proof.
  intros n c s A. apply hs_test; auto. intros cc E. destruct (is_nil_c cc); [apply wp_done; auto|]. apply scan_spec; auto.
Qed.
End Pure.
