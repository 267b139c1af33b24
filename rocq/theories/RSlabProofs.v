(** * RSlabProofs: the evaluator as a client of the allocator: what [REval.v] does to
    its memory is a history of [Slab.v]. *)
From Verif Require Import Value Heap Slab SlabProofs RSimSpec.
From Verif Require RHeap HEval REval Eval.
Import Eval(prim(..)).
Module E := REval.
Open Scope N_scope.

Section Bytes.
Variable enc : Heap.cell -> Slab.cell.
Notation linked := (linked enc).

Lemma chain_unique : forall m f l, chain m f l -> forall l', chain m f l' -> l = l'.
Proof.
  intros m f l H. induction H as [|i l L H IH]; intros l' H'; inversion H' as [|j k L' H2]; subst; auto; try lia.
  f_equal. auto.
Qed.
Lemma chain_head : forall m f a l, chain m f (a :: l) -> f = a /\ a < END_MK /\ chain m (c_next (m a)) l.
Proof. intros m f a l H. inversion H; subst. auto. Qed.
Lemma chain_nil : forall m f, chain m f [] -> f = END_MK.
Proof. intros m f H. inversion H. auto. Qed.
Lemma range_same : forall k lo, R.range lo k = nrange lo k.
Proof. induction k as [|k IH]; intro lo; cbn; auto. rewrite IH. replace (N.succ lo) with (lo + 1) by lia. auto. Qed.

(** ** Histories *)
Definition drives {A} (m : R.HM A) : Prop := forall ops r s hl,
  run ops = Running s hl -> linked r s hl ->
  match m r with
  | R.Done a r' => exists ops' s' hl', run (ops ++ ops') = Running s' hl' /\ linked r' s' hl'
  | R.Full r' => exists ops' s' hl', run (ops ++ ops') = Aborted s' hl' /\ linked r' s' hl' /\ slab_allocate true s' = None
  | _ => True
  end.
Lemma d_bind : forall A B (m : R.HM A) (k : A -> R.HM B), drives m -> (forall a, drives (k a)) -> drives (R.hbind_ m k).
Proof.
  intros A B m k D K ops r s hl E L. specialize (D ops r s hl E L). unfold R.hbind_. destruct (m r) as [a r'| | | |r'|]; auto.
  destruct D as [o1 [s1 [h1 [E1 L1]]]]. specialize (K a _ _ _ _ E1 L1). destruct (k a r') as [b r2| | | |r2|]; auto;
    destruct K as [o2 [s2 [h2 [E2 L2]]]]; exists (o1 ++ o2), s2, h2; rewrite app_assoc; auto.
Qed.
Lemma d_done : forall A (a : A), drives (R.done a).
Proof. intros A a ops r s hl E L. cbn. exists [], s, hl. rewrite app_nil_r. auto. Qed.
Lemma d_stop : forall A (m : R.HM A), (forall r, match m r with R.Done _ _ | R.Full _ => False | _ => True end) -> drives m.
Proof. intros A m H ops r s hl E L. specialize (H r). destruct (m r); auto; contradiction. Qed.
Lemma d_rd : forall a, drives (R.rd a).
Proof. intros a ops r s hl E L. unfold R.rd. destruct (R.cells r a); auto. exists [], s, hl. rewrite app_nil_r. auto. Qed.
Lemma run_more : forall ops l, run (ops ++ l) = fold_left step l (run ops).
Proof. intros. unfold run. apply fold_left_app. Qed.
Lemma apart : forall ops r s hl, run ops = Running s hl -> linked r s hl ->
  NoDup (R.free r) /\ (forall b, In b (R.free r) -> R.cells r b = None) /\ inv s hl.
Proof.
  intros ops r s hl E L. assert (I : inv s hl) by (eapply run_inv; eauto). destruct (inv_chain _ _ I) as [l [C [N I2]]].
  rewrite (chain_unique _ _ _ (k_free _ _ _ _ L) _ C). split; auto. split; auto.
  intros b H. apply I2 in H. destruct (R.cells r b) eqn:X; auto. exfalso. apply H. apply (k_given _ _ _ _ L). congruence.
Qed.
Lemma given_mem : forall r s hl a, linked r s hl -> R.cells r a <> None -> mem_N a hl = true.
Proof. intros r s hl a L H. apply mem_N_In. apply (k_given _ _ _ _ L). auto. Qed.
Lemma d_wr : forall a c, drives (R.wr a c).
Proof.
  intros a c ops r s hl E L. unfold R.wr. destruct (R.cells r a) as [c0|] eqn:X; auto.
  exists [OWrite a (enc c)], (client_write s a (enc c)), hl. rewrite run_more, E. cbn [fold_left step].
  rewrite (given_mem _ _ _ _ L) by congruence. split; auto.
  destruct (apart _ _ _ _ E L) as [ND [FR _]]. destruct L as [P S F G B]. constructor; auto.
  - cbn. eapply chain_ext; [exact F|]. intros i I. rewrite upd_other; auto. intros ->. apply FR in I. congruence.
  - intro b. rewrite G. cbn. destruct (N.eqb_spec b a) as [->|]; [|tauto]. split; congruence.
  - cbn. intros b d. unfold upd. destruct (N.eqb b a); [intros [= <-]; auto|auto].
Qed.
Lemma d_release : forall a, drives (R.release a).
Proof.
  intros a ops r s hl E L. unfold R.release. destruct (R.cells r a) as [c0|] eqn:X; auto.
  exists [OFree a], (slab_deallocate s a), (remove_N a hl). rewrite run_more, E. cbn [fold_left step].
  rewrite (given_mem _ _ _ _ L) by congruence. split; auto.
  destruct (apart _ _ _ _ E L) as [ND [FR I]]. destruct (remove_N_NoDup a hl (inv_held_nd _ _ I)) as [_ RM].
  assert (LT : a < END_MK).
  { assert (H : In a hl) by (apply (k_given _ _ _ _ L); congruence). apply (inv_held_bound _ _ I) in H.
    destruct (inv_pages _ _ I) as [k [Hk Hp]]. rewrite cell_count_pages, Hp in H. pose proof (pow2_bound k Hk). unfold END_MK. lia. }
  destruct L as [P S F G B]. constructor; auto.
  - cbn. constructor; auto. rewrite upd_same. cbn. eapply chain_ext; [exact F|]. intros i J. rewrite upd_other; auto.
    intros ->. apply FR in J. congruence.
  - intro b. rewrite RM, G. cbn. destruct (N.eqb_spec b a) as [->|]; [|intuition congruence]. split; [intros [_ H]; congruence|congruence].
  - cbn. intros b d. destruct (N.eqb_spec b a) as [->|]; [discriminate|]. intro H. rewrite upd_other; auto.
Qed.
Lemma taken : forall ops s hl s1 r b a l p, run ops = Running s hl ->
  (if N.eqb (first s) END_MK then slab_expand true s else Some s) = Some s1 -> inv s1 hl ->
  chain (entries s1) (first s1) (a :: l) -> n_pages s1 = p -> n_alloc s1 = R.served r ->
  (forall x, In x hl <-> R.cells r x <> None) -> (forall x c, R.cells r x = Some c -> entries s1 x = enc c) ->
  match R.take b a l p r with
  | R.Done _ r' => exists ops' s' hl', run (ops ++ ops') = Running s' hl' /\ linked r' s' hl'
  | _ => False
  end.
Proof.
  intros ops s hl s1 r b a l p E EX I C P S G B.
  destruct (inv_chain _ _ I) as [l' [C' [ND I2]]]. assert (l' = a :: l) as -> by (eapply chain_unique; eauto).
  destruct (chain_head _ _ _ _ C) as [F [LT C2]]. inversion ND as [|? ? NI ND']; subst.
  assert (NA : ~ In (first s1) hl) by (apply I2; left; auto).
  cbn [R.take].
  exists [OAlloc true; OWrite (first s1) (enc (Heap.mkcell 1 false false b))]. do 2 eexists.
  rewrite run_more, E. cbn [fold_left step]. unfold slab_allocate. rewrite EX. cbn [step fold_left mem_N existsb].
  rewrite N.eqb_refl. cbn [orb]. split; [reflexivity|].
  constructor; cbn [client_write n_pages n_alloc entries first R.pages R.served R.free R.cells]; auto.
  - lia.
  - eapply chain_ext; [exact C2|]. intros i J. rewrite !upd_other; auto; intros ->; contradiction.
  - intro x. cbn [In]. rewrite G. destruct (N.eqb_spec x (first s1)) as [->|]; [|intuition congruence]. split; [discriminate|auto].
  - intros x c. unfold upd. destruct (N.eqb x (first s1)); [intros [= <-]; auto|auto].
Qed.
Lemma d_alloc : forall b, drives (R.alloc b).
Proof.
  intros b ops r s hl E L. destruct (apart _ _ _ _ E L) as [ND [FR I]]. destruct L as [P S F G B].
  unfold R.alloc. destruct (R.free r) as [|a l] eqn:FE.
  - apply chain_nil in F. destruct (N.ltb_spec SLAB_SIZE (2 * R.pages r * PAGE_SIZE)) as [X|X].
    + exists [OAlloc true], s, hl. rewrite run_more, E. cbn [fold_left step]. unfold slab_allocate.
      rewrite F, N.eqb_refl. unfold slab_expand. rewrite P. destruct (N.ltb_spec SLAB_SIZE (2 * R.pages r * PAGE_SIZE)); [|lia].
      split; auto. split; [constructor; auto; rewrite FE, F; constructor|auto].
    + destruct (slab_expand true s) as [s1|] eqn:EX.
      2:{ unfold slab_expand in EX. rewrite P in EX. destruct (N.ltb_spec SLAB_SIZE (2 * R.pages r * PAGE_SIZE)); [lia|]. discriminate EX. }
      destruct (expand_inv _ _ _ _ I F EX) as [I1 [_ [P1 [_ B1]]]].
      assert (EX' := EX). unfold slab_expand in EX'. rewrite P in EX'.
      destruct (N.ltb_spec SLAB_SIZE (2 * R.pages r * PAGE_SIZE)); [lia|]. cbn [negb] in EX'. apply some_inj in EX'.
      destruct (inv_pages _ _ I) as [k [Hk Hp]]. pose proof (pow2_pos k) as PP. pose proof (pow2_bound k Hk) as PB.
      unfold R.count. rewrite !cell_count_pages. rewrite cell_count_pages in EX'. rewrite P in Hp.
      replace (128 * (2 * R.pages r) - 128 * R.pages r) with (2 * (128 * R.pages r) - 128 * R.pages r) by lia.
      remember (128 * R.pages r) as cc eqn:Ecc.
      assert (C1 : chain (entries s1) (first s1) (nrange cc (N.to_nat (2 * cc - cc)))).
      { subst s1. cbn [entries first]. apply chain_range.
        - unfold END_MK, SLAB_SIZE, PAGE_SIZE in *. lia.
        - lia.
        - intros j Hj. rewrite set_next_other by lia. apply link_loop_in. lia.
        - replace (cc + N.of_nat (N.to_nat (2 * cc - cc)) - 1) with (2 * cc - 1) by lia. apply set_next_same. }
      rewrite range_same. remember (N.to_nat (2 * cc - cc)) as n eqn:En. destruct n as [|n]; [lia|]. cbn [nrange] in *.
      assert (T := fun H H1 => taken ops s hl s1 r b cc (nrange (cc + 1) n) (2 * R.pages r) E H I1 C1 H1).
      rewrite F, N.eqb_refl, P1, P in T. specialize (T EX eq_refl).
      assert (S1 : n_alloc s1 = R.served r) by (subst s1; cbn; auto).
      specialize (T S1 G). lapply T; [clear T; intro T|intros x c Hx; rewrite B1; [auto|apply G; congruence]].
      destruct (R.take b cc (nrange (cc + 1) n) (2 * R.pages r) r); auto; contradiction.
  - pose proof (chain_head _ _ _ _ F) as [F1 [LT _]].
    assert (T := fun H => taken ops s hl s r b a l (R.pages r) E H I F P S G B).
    destruct (N.eqb_spec (first s) END_MK); [lia|]. specialize (T eq_refl).
    destruct (R.take b a l (R.pages r) r); auto; contradiction.
Qed.
Lemma d_get : drives E.get_aux.
Proof. intros ops r s hl X L. cbn. exists [], s, hl. rewrite app_nil_r. auto. Qed.
Lemma d_set : forall f, drives (E.set_aux f).
Proof. intros f ops r s hl X [P S F G B]. cbn. exists [], s, hl. rewrite app_nil_r. split; auto. constructor; auto. Qed.

(** ** Every function *)
Create HintDb drv discriminated.
Hint Resolve d_done d_rd d_wr d_release d_alloc d_get d_set : drv.
Ltac drv :=
  repeat (cbv beta; cbv zeta;
    lazymatch goal with
    | |- drives (R.hbind_ _ _) => apply d_bind; [|intro]
    | |- drives (R.wild) => apply d_stop; intro; exact I
    | |- drives (R.dry) => apply d_stop; intro; exact I
    | |- drives (fun _ => _) => apply d_stop; intro; exact I
    | |- drives (match ?x with _ => _ end) => destruct x
    | |- drives _ => solve [eauto 3 with drv]
    end).
Lemma d_make_nil : drives (R.make_nil).
Proof. intros. unfold R.make_nil. drv. Qed.
Hint Resolve d_make_nil : drv.
Lemma d_hcons : forall x y, drives (R.hcons x y).
Proof. intros. unfold R.hcons. drv. Qed.
Hint Resolve d_hcons : drv.
Lemma d_up : forall a, drives (R.up a).
Proof. intros. unfold R.up. drv. Qed.
Hint Resolve d_up : drv.
Lemma d_drop : forall n a, drives (R.drop n a).
Proof. induction n as [|n IH]; intros; cbn [R.drop]; drv. Qed.
Hint Resolve d_drop : drv.
Lemma d_X : forall a, drives (R.X a).
Proof. intros a ops r s hl X L. unfold R.X. apply (d_drop _ _ ops r s hl X L). Qed.
Hint Resolve d_X : drv.
Lemma d_CAR : forall a, drives (R.CAR a).
Proof. intros. unfold R.CAR. drv. Qed.
Hint Resolve d_CAR : drv.
Lemma d_CDR : forall a, drives (R.CDR a).
Proof. intros. unfold R.CDR. drv. Qed.
Hint Resolve d_CDR : drv.
Lemma d_test : forall f a, drives (R.test f a).
Proof. intros. unfold R.test. drv. Qed.
Hint Resolve d_test : drv.
Lemma d_hcar : forall a, drives (R.hcar a).
Proof. intros. unfold R.hcar. drv. Qed.
Hint Resolve d_hcar : drv.
Lemma d_hcdr : forall a, drives (R.hcdr a).
Proof. intros. unfold R.hcdr. drv. Qed.
Hint Resolve d_hcdr : drv.
Lemma d_last_pair : forall n a, drives (R.last_pair n a).
Proof. induction n as [|n IH]; intros; cbn [R.last_pair]; drv. Qed.
Hint Resolve d_last_pair : drv.
Lemma d_hconc : forall n a b, drives (R.hconc n a b).
Proof. intros. unfold R.hconc. drv. Qed.
Hint Resolve d_hconc : drv.
Lemma d_happend : forall n l e, drives (R.happend n l e).
Proof. intros. unfold R.happend. drv. Qed.
Hint Resolve d_happend : drv.
Lemma d_hdup : forall n a, drives (R.hdup n a).
Proof. induction n as [|n IH]; intros; cbn [R.hdup]; drv. Qed.
Hint Resolve d_hdup : drv.
Lemma d_hbind : forall n clos arg val, drives (R.hbind n clos arg val).
Proof. induction n as [|n IH]; intros; cbn [R.hbind]; drv. Qed.
Hint Resolve d_hbind : drv.
Lemma d_symbol_of : forall a, drives (R.symbol_of a).
Proof. intros. unfold R.symbol_of. drv. Qed.
Hint Resolve d_symbol_of : drv.
Lemma d_hsss : forall n root kv, drives (R.hsss n root kv).
Proof. induction n as [|n IH]; intros; cbn [R.hsss]; drv. Qed.
Hint Resolve d_hsss : drv.
Lemma d_hmerge_loop : forall n root elt, drives (R.hmerge_loop n root elt).
Proof. induction n as [|n IH]; intros; cbn [R.hmerge_loop]; drv. Qed.
Hint Resolve d_hmerge_loop : drv.
Lemma d_hmerge : forall n root alst, drives (R.hmerge n root alst).
Proof. intros. unfold R.hmerge. drv. Qed.
Hint Resolve d_hmerge : drv.
Lemma d_set_cdr : forall a y, drives (E.set_cdr a y).
Proof. intros. unfold E.set_cdr. drv. Qed.
Hint Resolve d_set_cdr : drv.
Lemma d_set_tail : forall a, drives (E.set_tail a).
Proof. intros. unfold E.set_tail. drv. Qed.
Hint Resolve d_set_tail : drv.
Lemma d_key_is : forall a s, drives (E.key_is a s).
Proof. intros. unfold E.key_is. drv. Qed.
Hint Resolve d_key_is : drv.
Lemma d_same_key : forall a b, drives (E.same_key a b).
Proof. intros. unfold E.same_key. drv. Qed.
Hint Resolve d_same_key : drv.
Lemma d_number_of : forall a, drives (E.number_of a).
Proof. intros. unfold E.number_of. drv. Qed.
Hint Resolve d_number_of : drv.
Lemma d_value_at : forall n a, drives (E.value_at n a).
Proof. induction n as [|n IH]; intros; cbn [E.value_at]; drv. Qed.
Hint Resolve d_value_at : drv.
Lemma d_make_truth : forall b, drives (E.make_truth b).
Proof. intros. unfold E.make_truth. drv. Qed.
Hint Resolve d_make_truth : drv.
Lemma d_hequ : forall n a b, drives (E.hequ n a b).
Proof. induction n as [|n IH]; intros; cbn [E.hequ]; drv. Qed.
Hint Resolve d_hequ : drv.
Lemma d_hneq : forall n a b, drives (E.hneq n a b).
Proof. induction n as [|n IH]; intros; cbn [E.hneq]; drv. Qed.
Hint Resolve d_hneq : drv.
Lemma d_hmatch : forall n a b, drives (E.hmatch n a b).
Proof. induction n as [|n IH]; intros; cbn [E.hmatch]; drv. Qed.
Hint Resolve d_hmatch : drv.
Lemma d_hmay_apply : forall n args vals, drives (E.hmay_apply n args vals).
Proof. induction n as [|n IH]; intros; cbn [E.hmay_apply]; drv. Qed.
Hint Resolve d_hmay_apply : drv.
Lemma d_hlen : forall n a, drives (E.hlen n a).
Proof. induction n as [|n IH]; intros; cbn [E.hlen]; drv. Qed.
Hint Resolve d_hlen : drv.
Lemma d_his_func : forall a, drives (E.his_func a).
Proof. intros. unfold E.his_func. drv. Qed.
Hint Resolve d_his_func : drv.
Lemma d_global : forall s, drives (E.global s).
Proof. intros. unfold E.global. drv. Qed.
Hint Resolve d_global : drv.
Lemma d_cached : forall a, drives (E.cached a).
Proof. intros. unfold E.cached. drv. Qed.
Hint Resolve d_cached : drv.
Lemma d_remember : forall a kv, drives (E.remember a kv).
Proof. intros. unfold E.remember. drv. Qed.
Hint Resolve d_remember : drv.
Lemma d_scan : forall n c s, drives (E.scan n c s).
Proof. induction n as [|n IH]; intros; cbn [E.scan]; drv. Qed.
Hint Resolve d_scan : drv.
Lemma d_find_local : forall n c s, drives (E.find_local n c s).
Proof. intros. unfold E.find_local. drv. Qed.
Hint Resolve d_find_local : drv.
Lemma d_hlookup : forall n c x, drives (E.hlookup n c x).
Proof. intros. unfold E.hlookup. drv. Qed.
Hint Resolve d_hlookup : drv.
Lemma d_hmix : forall n c e, drives (E.hmix n c e).
Proof. intros. unfold E.hmix. drv. Qed.
Hint Resolve d_hmix : drv.
Lemma d_flag : forall t a, drives (E.flag t a).
Proof. intros. unfold E.flag. drv. Qed.
Hint Resolve d_flag : drv.
Lemma d_plant : forall v, drives (E.plant v).
Proof. induction v; cbn [E.plant]; drv. Qed.
Hint Resolve d_plant : drv.
Lemma d_hcollect_assoc : forall col n a, (forall b, drives (col b)) -> drives (E.hcollect_assoc col n a).
Proof. intros col n a C. revert a. induction n as [|n IH]; intros; cbn [E.hcollect_assoc]; drv. Qed.
Hint Resolve d_hcollect_assoc : drv.
Lemma d_wrap : forall cell, drives (E.wrap cell).
Proof. intros. unfold E.wrap. drv. Qed.
Hint Resolve d_wrap : drv.
Lemma d_hcollect : forall n a, drives (E.hcollect n a).
Proof. induction n as [|n IH]; intros; cbn [E.hcollect]; drv. Qed.
Hint Resolve d_hcollect : drv.
Lemma d_hmark_loop : forall n symb args pt, drives (E.hmark_loop n symb args pt).
Proof. induction n as [|n IH]; intros; cbn [E.hmark_loop]; drv. Qed.
Hint Resolve d_hmark_loop : drv.
Lemma d_hmark : forall n symb args bdy, drives (E.hmark n symb args bdy).
Proof. intros. unfold E.hmark. drv. Qed.
Hint Resolve d_hmark : drv.
Lemma d_hemit : forall b, drives (E.hemit b).
Proof. intros. unfold E.hemit. drv. Qed.
Hint Resolve d_hemit : drv.
Lemma d_hprint : forall n a literal, drives (E.hprint n a literal).
Proof. intros. unfold E.hprint. drv. Qed.
Hint Resolve d_hprint : drv.
Lemma d_swap_values : forall data kv, drives (E.swap_values data kv).
Proof. intros. unfold E.swap_values. drv. Qed.
Hint Resolve d_swap_values : drv.
Lemma d_hsetq : forall pair, drives (E.hsetq pair).
Proof. intros. unfold E.hsetq. drv. Qed.
Hint Resolve d_hsetq : drv.
Section Oracle.
Variable opened : N -> bool -> atom -> bool.
Variable pwd : atom.
Section Rec.
Variable ev : N -> N -> R.HM N.
Hypothesis EV : forall c x, drives (ev c x).
Variable budget : nat.
Lemma d_heval_args : forall n c acc args vals, drives (E.heval_args ev n c acc args vals).
Proof. induction n as [|n IH]; intros; cbn [E.heval_args]; drv. Qed.
Hint Resolve d_heval_args : drv.
Lemma d_hprog : forall n c cell result, drives (E.hprog ev n c cell result).
Proof. induction n as [|n IH]; intros; cbn [E.hprog]; drv. Qed.
Hint Resolve d_hprog : drv.
Lemma d_htail_loop : forall n cls0 symb bdy bscl, drives (E.htail_loop ev n cls0 symb bdy bscl).
Proof. induction n as [|n IH]; intros; cbn [E.htail_loop]; drv. Qed.
Hint Resolve d_htail_loop : drv.
Lemma d_hcond : forall n c cell mtch, drives (E.hcond ev n c cell mtch).
Proof. induction n as [|n IH]; intros; cbn [E.hcond]; drv. Qed.
Hint Resolve d_hcond : drv.
Lemma d_hmatch_loop : forall n c v mtch, drives (E.hmatch_loop ev n c v mtch).
Proof. induction n as [|n IH]; intros; cbn [E.hmatch_loop]; drv. Qed.
Hint Resolve d_hmatch_loop : drv.
Lemma d_hlist : forall n c cell, drives (E.hlist ev n c cell).
Proof. induction n as [|n IH]; intros; cbn [E.hlist]; drv. Qed.
Hint Resolve d_hlist : drv.
Lemma d_hlet_bind : forall n c env cell, drives (E.hlet_bind ev n c env cell).
Proof. induction n as [|n IH]; intros; cbn [E.hlet_bind]; drv. Qed.
Hint Resolve d_hlet_bind : drv.
Lemma d_hlet : forall c cell, drives (E.hlet ev budget c cell).
Proof. intros. unfold E.hlet. drv. Qed.
Hint Resolve d_hlet : drv.
Lemma d_hstream : forall n c any expr, drives (E.hstream ev n c any expr).
Proof. induction n as [|n IH]; intros; cbn [E.hstream]; drv. Qed.
Hint Resolve d_hstream : drv.
Lemma d_hwhile : forall n c cnd prg res, drives (E.hwhile ev n c cnd prg res).
Proof. induction n as [|n IH]; intros; cbn [E.hwhile]; drv. Qed.
Hint Resolve d_hwhile : drv.
Lemma d_hprin_all : forall n literal c cell result, drives (E.hprin_all ev n literal c cell result).
Proof. induction n as [|n IH]; intros; cbn [E.hprin_all]; drv. Qed.
Hint Resolve d_hprin_all : drv.
Lemma d_hopen : forall output chan, drives (E.hopen opened output chan).
Proof. intros. unfold E.hopen. drv. Qed.
Hint Resolve d_hopen : drv.
Lemma d_hpush : forall output k dir, drives (E.hpush output k dir).
Proof. intros. unfold E.hpush. drv. Qed.
Hint Resolve d_hpush : drv.
Lemma d_hpop : forall output, drives (E.hpop output).
Proof. intros. unfold E.hpop. drv. Qed.
Hint Resolve d_hpop : drv.
Lemma d_hwith_chan : forall output c chan rem, drives (E.hwith_chan opened pwd ev budget output c chan rem).
Proof. intros. unfold E.hwith_chan. drv. Qed.
Hint Resolve d_hwith_chan : drv.
Lemma d_hdef : forall any, drives (E.hdef budget any).
Proof. intros. unfold E.hdef. drv. Qed.
Hint Resolve d_hdef : drv.
Lemma d_hrun_setq : forall c any, drives (E.hrun_setq ev c any).
Proof. intros. unfold E.hrun_setq. drv. Qed.
Hint Resolve d_hrun_setq : drv.
Lemma d_hrun_set : forall c any, drives (E.hrun_set ev budget c any).
Proof. intros. unfold E.hrun_set. drv. Qed.
Hint Resolve d_hrun_set : drv.
Lemma d_hrun_or : forall c any, drives (E.hrun_or ev c any).
Proof. intros. unfold E.hrun_or. drv. Qed.
Hint Resolve d_hrun_or : drv.
Lemma d_hprim1 : forall p full c x, drives (E.hprim1 ev budget p full c x).
Proof. intros. destruct p; cbn [E.hprim1]; drv. Qed.
Hint Resolve d_hprim1 : drv.
Lemma d_hprim2 : forall p c x y, drives (E.hprim2 opened pwd ev budget p c x y).
Proof. intros. destruct p; cbn [E.hprim2]; drv. Qed.
Hint Resolve d_hprim2 : drv.
Lemma d_pop_arg : forall clos name, drives (E.pop_arg clos name).
Proof. intros. unfold E.pop_arg. drv. Qed.
Hint Resolve d_pop_arg : drv.
Lemma d_hrun_prim : forall p full, drives (E.hrun_prim opened pwd ev budget p full).
Proof. intros. unfold E.hrun_prim. drv. Qed.
Hint Resolve d_hrun_prim : drv.
Lemma d_heval_func : forall c symb func vals, drives (E.heval_func opened pwd ev budget c symb func vals).
Proof. intros. unfold E.heval_func. drv. Qed.
Hint Resolve d_heval_func : drv.
Lemma d_heval_pair : forall c cell, drives (E.heval_pair opened pwd ev budget c cell).
Proof. intros. unfold E.heval_pair. drv. Qed.
Hint Resolve d_heval_pair : drv.
End Rec.
Hint Resolve d_hpush d_hpop : drv.
Lemma d_eval : forall n c x, drives (E.heval opened pwd n c x).
Proof. induction n as [|n IH]; intros; cbn [E.heval]; drv. apply d_heval_pair. exact IH. Qed.
Hint Resolve d_eval : drv.
Lemma d_run : forall n l r, drives (E.hrun opened pwd n l r).
Proof. intros n. induction l as [|x l IH]; intros; cbn [E.hrun]; drv. Qed.
Lemma d_load : forall l, drives (E.hload l).
Proof. induction l as [|[s f] l IH]; intros; cbn [E.hload]; drv. Qed.
Hint Resolve d_run d_load : drv.
Lemma d_hboot : drives (E.hboot pwd).
Proof. intros. unfold E.hboot. drv. Qed.
Hint Resolve d_hboot : drv.
Lemma d_session : forall n l, drives (E.session opened pwd n l).
Proof. intros. unfold E.session. drv. Qed.
End Oracle.

(** ** Program start *)
Lemma linked_empty : exists s, start = Running s [] /\ linked E.empty s [].
Proof.
  unfold start. destruct (slab_new true true) as [s|] eqn:N1; [|discriminate]. exists s. split; auto.
  assert (I := slab_new_inv _ N1). unfold slab_new in N1. apply some_inj in N1. subst s.
  constructor; cbn [n_pages n_alloc entries first R.pages R.served R.free R.cells E.empty]; auto; try congruence.
  - unfold R.fresh_free. rewrite range_same. change (R.count 16) with 2048. change (cell_count 16) with 2048.
    apply chain_range; rewrite ?N2Nat.id.
    + unfold END_MK. lia.
    + lia.
    + intros j Hj. rewrite set_next_other by lia. apply link_loop_in. lia.
    + change (0 + 2048 - 1) with (2048 - 1). apply set_next_same.
  - intros b. cbn. split; [tauto|congruence].
Qed.
Lemma session_history : forall opened pwd n l,
  match E.session opened pwd n l E.empty with
  | R.Done a r => exists ops s hl, run ops = Running s hl /\ linked r s hl
  | R.Full r => exists ops s hl, run ops = Aborted s hl /\ linked r s hl /\ slab_allocate true s = None
  | _ => True
  end.
Proof.
  intros opened pwd n l. destruct linked_empty as [s [E L]]. pose proof (d_session opened pwd n l [] E.empty s [] E L) as D.
  revert D. generalize (E.session opened pwd n l E.empty). intros o D. destruct o; exact D.
Qed.
End Bytes.
