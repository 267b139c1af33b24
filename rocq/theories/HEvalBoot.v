(** * HEvalBoot: the heap after start-up; whole sessions. *)
From Verif Require Import Value Eval Heap HeapSpec HeapProofs HeapOps HEval HEvalSpec HEvalBase HEvalTails HEvalProofs HEvalRun.
Open Scope nat_scope.

Section Boot.
Variable allowed : event -> bool.
Hypothesis NoAny : allowed AssignsAny = false.
Variable opened : N -> bool -> atom -> bool.
Variable pwd : atom.

Lemma load_ok : forall l h R, holds h R ->
  wp (hload allowed l) (fun _ h' => holds h' R /\ step allowed h h') h.
Proof.
  induction l as [|[s f] l IH]; intros h R H; cbn [hload].
  { apply wp_done. split; auto. eapply step_refl; eauto. }
  apply (hs_alloc allowed _ _ _ _ R); auto. intros sym h1 H1 S1 _ _.
  apply (hs_plant allowed _ _ _ _ _ H1). intros val h2 H2 S2 _.
  apply (hs_up allowed _ _ _ _ _ H2); [eapply holds_alive; [exact H2|cbn; auto]|]. intros h3 H3 S3 _.
  apply (hs_cons allowed sym val _ _ _ (sym :: R)); [eapply holds_perm; [exact H3|]; intro b; cbn [cnt]; lia|].
  intros cns h4 H4 S4 _ _.
  apply wp_bind. eapply wp_mono; [apply (setq_spec allowed NoAny cns h4 _ H4)|]. intros _ h5 [H5 S5].
  apply (hs_X allowed _ _ _ _ _ H5). intros h6 H6 S6.
  eapply wp_mono; [apply IH; exact H6|]. intros _ h7 [H7 S7]. split; auto.
  repeat (eapply step_trans; [eassumption|]). eapply step_refl; eauto.
Qed.

Lemma boot_ok : wp (hboot allowed pwd) (fun _ h => holds h [] /\ opens (aux h) = 2%N /\
   (allowed UsesSet = false -> allowed DefinesNonSymbol = false -> lost (aux h) = [] /\ strays (aux h) = 0)) empty.
Proof.
  unfold hboot. apply wp_bind. apply (wp_alloc KNil _ _ [] own_empty). intros i h1 O1 G1.
  apply wp_bind. apply (wp_alloc KNil _ _ _ O1). intros o h2 O2 G2.
  assert (EA : aux h2 = no_rest).
  { rewrite (g_aux _ _ _ _ G2), (g_aux _ _ _ _ G1). reflexivity. }
  apply wp_bind. unfold wp at 1, set_aux. cbv beta. rewrite EA. cbv iota.
  set (h3 := mkheap (cells h2) (nxt h2) (with_ochan (with_ichan no_rest i) o)).
  match goal with |- wp _ _ ?h => change h with h3 end.
  assert (H3 : holds h3 []).
  { constructor.
    - cbn. destruct O2 as [[C1 C2 C3] S2]. constructor; auto.
      + intros a c E. destruct (C2 a c E) as [A B]. split; auto. rewrite A. cbn [cnt]. change (edges h3) with (edges h2). lia.
      + intros a A. apply C3. cbn [cnt] in *. change (edges h3) with (edges h2) in A. lia.
    - apply O2.
    - cbn. intros s kv [].
    - cbn. intros a e [].
    - cbn. congruence. }
  apply wp_bind. eapply wp_mono; [apply (load_ok builtins h3 [] H3)|]. intros _ h4 [H4 S4].
  apply wp_bind. eapply wp_mono; [apply (push_spec allowed NoAny false 0%N pwd h4 [] H4)|].
  intros _ h5 [H5 [S5 [e5 [c5 [y5 [A5 [E5 [B5 [P5 K5]]]]]]]]].
  apply wp_bind. eapply wp_mono; [apply (push_spec allowed NoAny true 1%N pwd h5 [] H5)|].
  intros _ h6 [H6 [S6 [e6 [c6 [y6 [A6 [E6 [B6 [P6 K6]]]]]]]]].
  unfold wp, set_aux. destruct (proj2 S4) as [_ _ _ _ LL].
  assert (L6 : allowed UsesSet = false -> allowed DefinesNonSymbol = false -> lost (aux h6) = [] /\ strays (aux h6) = 0).
  { intros U D. rewrite A6, A5. cbn. destruct (LL U D) as [-> ->]. split; reflexivity. }
  split; [|split; [reflexivity|exact L6]].
  destruct H6 as [HC HS HG HK HH]. constructor; [|exact HS|exact HG|exact HK|].
  { destruct HC as [C1 C2 C3]. constructor; [exact C1|exact C2|exact C3]. }
  cbn. intros _ a Ia.
  assert (X6 : a_pair h6 (ochan (aux h6))).
  { rewrite A6. cbn. exists c6. unfold is_pair_c. rewrite B6. auto. }
  assert (X5 : a_pair h6 (ichan (aux h6))).
  { rewrite A6. cbn. rewrite A5. cbn. apply (a_pair_step h5 h6); auto.
    - apply K6. unfold alive. congruence.
    - exists c5. unfold is_pair_c. rewrite B5. auto. }
  destruct Ia as [->| ->]; auto.
Qed.

(** A session: start, then evaluate the expressions one after the other. *)
Definition session (n : nat) (l : list atom) : HM N :=
  hbind_ (hboot allowed pwd) (fun _ => hbind_ make_nil (fun z => hrun allowed opened pwd n l z)).

Lemma session_ok : forall n l, wp (session n l) (fun r h => holds h [r] /\
   (allowed UsesSet = false -> allowed DefinesNonSymbol = false -> lost (aux h) = [] /\ strays (aux h) = 0)) empty.
Proof.
  intros n l. unfold session. apply wp_bind. eapply wp_mono; [apply boot_ok|]. intros _ h [H [Z LL]].
  apply (hs_nil allowed _ _ _ _ H). intros z h1 H1 S1 _ _.
  assert (A : at_ allowed h h1 [z]).
  { constructor; auto. pose proof (l_opens _ _ _ (proj2 S1)). lia. }
  eapply wp_mono; [apply (run_ok allowed NoAny opened pwd n l z h h1 [] A)|].
  intros r h' A'. split; [apply A'|]. intros U D. destruct (LL U D) as [<- <-].
  destruct (proj2 (at_step _ _ _ _ A')) as [_ _ _ _ LL']. auto.
Qed.
End Boot.

(** ** Nothing unreachable is kept in use *)
Lemma cnt_in : forall a l, 0 < cnt a l -> In a l.
Proof.
  induction l as [|x l IH]; cbn; [lia|]. unfold is. destruct (N.eqb_spec x a) as [E|E]; intro L; [left; auto|right; apply IH; lia].
Qed.
Lemma acyclic_reach : forall h R, correct h R -> acyclic h -> forall a, alive h a -> reach h R a.
Proof.
  intros h R C [rank RK] a A.
  (* the ranks of the cells in use are bounded *)
  assert (MX : exists m, forall b, alive h b -> rank b < m).
  { exists (S (list_max (map rank (addresses h)))). intros b B. apply Nat.lt_succ_r.
    assert (I : In b (addresses h)).
    { pose proof (bounded _ _ C _ B). unfold addresses. apply in_map_iff. exists (N.to_nat b). split; [lia|].
      apply in_seq. lia. }
    pose proof (proj1 (list_max_le (map rank (addresses h)) _) (Nat.le_refl _)) as F.
    rewrite Forall_forall in F. apply F. apply in_map. auto. }
  destruct MX as [m MX].
  assert (G : forall k a, m - rank a < k -> alive h a -> reach h R a).
  { induction k as [|k IH]; intros b LT B; [lia|]. unfold alive in B. destruct (cells h b) as [c|] eqn:E; [|congruence].
    destruct (counted _ _ C _ _ E) as [Q P].
    destruct (Nat.eq_dec (cnt b R) 0) as [Z|Z].
    - assert (I : In b (edges h)) by (apply cnt_in; lia). unfold edges in I. apply in_flat_map in I.
      destruct I as [p [_ I]]. pose proof (RK _ _ I) as L.
      assert (AP : alive h p) by (unfold fields_at in I; unfold alive; destruct (cells h p); [congruence|destruct I]).
      apply (reach_step h R p b); auto. apply IH; auto. pose proof (MX p AP). lia.
    - apply reach_root. apply cnt_in. lia. }
  apply (G (S (m - rank a))); auto.
Qed.
Lemma holds_no_garbage : forall h R, holds h R -> acyclic h -> no_garbage h R.
Proof. intros h R H A a L. eapply acyclic_reach; eauto. apply H. Qed.
