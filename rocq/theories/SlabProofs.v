(** * Proofs about the slab allocator. *)
From Verif Require Import Base Slab.
From Coq Require Import ZifyBool ZifyNat ZifyN Permutation.
Open Scope N_scope.

Lemma some_inj : forall (A : Type) (a b : A), Some a = Some b -> a = b.
Proof. congruence. Qed.



(** Specification-side notion: [l] is the chain of cells reached from index [f]
    by following [next] up to the end mark. *)
Inductive chain (m : N -> cell) : N -> list N -> Prop :=
| chain_end : chain m END_MK []
| chain_cons : forall i l, i < END_MK -> chain m (c_next (m i)) l -> chain m i (i :: l).

Lemma chain_ext : forall m m' f l,
  chain m f l -> (forall i, In i l -> c_next (m i) = c_next (m' i)) -> chain m' f l.
Proof.
  intros m m' f l H; induction H as [|i l Hi H IH]; intros E.
  - constructor.
  - constructor; auto. rewrite <- (E i) by (left; auto).
    apply IH. intros j Hj; apply E; right; auto.
Qed.

Lemma upd_same : forall m i c, upd m i c i = c.
Proof. intros; unfold upd; rewrite N.eqb_refl; auto. Qed.
Lemma upd_other : forall m i c j, j <> i -> upd m i c j = m j.
Proof. intros; unfold upd; destruct (N.eqb_spec j i); congruence. Qed.

Lemma set_next_same : forall m i n, c_next (set_next m i n i) = n.
Proof. intros; unfold set_next; rewrite upd_same; auto. Qed.
Lemma set_next_other : forall m i n j, j <> i -> set_next m i n j = m j.
Proof. intros; unfold set_next; apply upd_other; auto. Qed.

Lemma link_loop_in : forall k i m j,
  i <= j < i + N.of_nat k -> c_next (link_loop k i m j) = j + 1.
Proof.
  induction k as [|k IH]; intros i m j H.
  - lia.
  - cbn [link_loop]. destruct (N.eq_dec j i) as [->|Hne].
    + assert (forall k i' m j, j < i' -> link_loop k i' m j = m j) as Hout.
      { clear. induction k as [|k IH]; intros i' m j Hj; cbn [link_loop]; auto.
        rewrite IH by lia. apply set_next_other; lia. }
      rewrite Hout by lia. apply set_next_same.
    + apply IH. lia.
Qed.

Lemma link_loop_out : forall k i m j,
  (j < i \/ i + N.of_nat k <= j) -> link_loop k i m j = m j.
Proof.
  induction k as [|k IH]; intros i m j H; cbn [link_loop]; auto.
  rewrite IH by lia. apply set_next_other; lia.
Qed.

(** [nrange lo k] = [lo; lo+1; ...; lo+k-1]. *)
Fixpoint nrange (lo : N) (k : nat) : list N :=
  match k with O => [] | S k' => lo :: nrange (lo + 1) k' end.

Lemma nrange_In : forall k lo i, In i (nrange lo k) <-> lo <= i < lo + N.of_nat k.
Proof.
  induction k as [|k IH]; intros lo i; cbn [nrange In].
  - lia.
  - rewrite IH. lia.
Qed.

Lemma nrange_NoDup : forall k lo, NoDup (nrange lo k).
Proof.
  induction k as [|k IH]; intros lo; cbn [nrange]; constructor; auto.
  rewrite nrange_In; lia.
Qed.

Lemma nrange_length : forall k lo, length (nrange lo k) = k.
Proof. induction k; intros; cbn; auto. Qed.

Lemma chain_range : forall k lo m,
  lo + N.of_nat k <= END_MK ->
  (0 < k)%nat ->
  (forall j, lo <= j < lo + N.of_nat k - 1 -> c_next (m j) = j + 1) ->
  c_next (m (lo + N.of_nat k - 1)) = END_MK ->
  chain m lo (nrange lo k).
Proof.
  induction k as [|k IH]; intros lo m Hb Hk Hn He; [lia|].
  cbn [nrange]. constructor; [lia|].
  destruct k as [|k].
  - replace (lo + N.of_nat 1 - 1) with lo in He by lia. rewrite He. constructor.
  - rewrite Hn by lia. apply IH; try lia.
    + intros j Hj. apply Hn. lia.
    + replace (lo + 1 + N.of_nat (S k) - 1) with (lo + N.of_nat (S (S k)) - 1) by lia.
      exact He.
Qed.

(** ** The invariant. *)
Record inv (s : slab) (held : list N) : Prop := {
  inv_pages : exists k, (k <= 10)%nat /\ n_pages s = 16 * 2 ^ N.of_nat k;
  inv_held_nd : NoDup held;
  inv_chain : exists l, chain (entries s) (first s) l /\ NoDup l /\
      (forall i, In i l <-> (i < cell_count (n_pages s) /\ ~ In i held));
  inv_held_bound : forall i, In i held -> i < cell_count (n_pages s);
  inv_count : n_alloc s = n_free s + N.of_nat (length held) }.

Lemma cell_count_pages : forall p, cell_count p = 128 * p.
Proof.
  intros p. unfold cell_count, PAGE_SIZE, ATOM_SIZE.
  replace (p * 4096) with ((128 * p) * 32) by lia.
  apply N.div_mul. lia.
Qed.

Lemma pow2_bound : forall k, (k <= 10)%nat -> 2 ^ N.of_nat k <= 1024.
Proof.
  intros k Hk. change 1024 with (2 ^ 10). apply N.pow_le_mono_r; lia.
Qed.

Lemma pow2_pos : forall k, 1 <= 2 ^ N.of_nat k.
Proof. intros k. pose proof (N.pow_nonzero 2 (N.of_nat k)). lia. Qed.

Lemma mem_N_In : forall i l, mem_N i l = true <-> In i l.
Proof.
  intros i l. unfold mem_N. rewrite existsb_exists. split.
  - intros [x [Hx E]]. apply N.eqb_eq in E. subst; auto.
  - intros H. exists i. split; auto. apply N.eqb_refl.
Qed.

Lemma remove_N_length : forall i l, In i l -> S (length (remove_N i l)) = length l.
Proof.
  induction l as [|x l IH]; cbn; intros H; [tauto|].
  destruct (N.eqb_spec x i); auto.
  destruct H as [H|H]; [congruence|]. cbn. rewrite IH; auto.
Qed.

Lemma remove_N_NoDup : forall i l, NoDup l ->
  NoDup (remove_N i l) /\ (forall j, In j (remove_N i l) <-> In j l /\ j <> i).
Proof.
  induction l as [|x l IH]; cbn; intros H.
  - split; [constructor|]. tauto.
  - inversion H as [|? ? Hx Hl]; subst. destruct (IH Hl) as [IH1 IH2].
    destruct (N.eqb_spec x i) as [->|Hne].
    + split; auto. intros j. split.
      * intros Hj. split; [right; auto|]. intros ->; auto.
      * intros [[Hj|Hj] Hji]; [congruence|auto].
    + split.
      * constructor; auto. rewrite IH2. tauto.
      * intros j. cbn. rewrite IH2. split.
        -- intros [->|[? ?]]; auto.
        -- intros [[->|?] ?]; auto.
Qed.

Lemma slab_new_inv : forall s, slab_new true true = Some s -> inv s [].
Proof.
  intros s E. unfold slab_new in E. cbv zeta in E.
  assert (Hcc : cell_count 16 = 2048) by reflexivity.
  remember (link_loop (N.to_nat (cell_count 16)) 0 (fun _ => zero_cell)) as m eqn:Hm.
  injection E as <-.
  constructor; cbn [first n_alloc n_free n_pages entries].
  - exists 0%nat. split; [lia|reflexivity].
  - constructor.
  - exists (nrange 0 (N.to_nat (cell_count 16))). split; [|split].
    + apply chain_range; rewrite ?Hcc.
      * unfold END_MK; lia.
      * lia.
      * intros j Hj. rewrite set_next_other by lia. rewrite Hm.
        apply link_loop_in. rewrite Hcc; lia.
      * replace (0 + N.of_nat (N.to_nat 2048) - 1) with (2048 - 1) by lia.
        apply set_next_same.
    + apply nrange_NoDup.
    + intros i. rewrite nrange_In. rewrite Hcc. cbn [In]. lia.
  - intros i [].
  - reflexivity.
Qed.

Lemma expand_inv : forall ok s s' held,
  inv s held -> first s = END_MK -> slab_expand ok s = Some s' ->
  inv s' held /\ first s' <> END_MK /\ n_pages s' = 2 * n_pages s /\
  N.of_nat (length held) = cell_count (n_pages s) /\
  (forall i, In i held -> entries s' i = entries s i).
Proof.
  intros ok s s' held I F E.
  destruct I as [[k [Hk Hp]] Hnd [l [Hc [Hl Hin]]] Hb Hcnt].
  unfold slab_expand in E.
  destruct (SLAB_SIZE <? 2 * n_pages s * PAGE_SIZE) eqn:Hsz; [discriminate|].
  destruct (negb ok) eqn:Hok; [discriminate|].
  apply some_inj in E. subst s'.
  assert (Hk9 : (k <= 9)%nat).
  { destruct (Nat.eq_dec k 10) as [->|]; [|lia].
    rewrite Hp in Hsz. unfold SLAB_SIZE, PAGE_SIZE in Hsz.
    change (2 ^ N.of_nat 10) with 1024 in Hsz. discriminate. }
  assert (Hlnil : l = []).
  { rewrite F in Hc. inversion Hc as [|? ? Hlt]; subst; auto. lia. }
  subst l.
  assert (Hall : forall i, i < cell_count (n_pages s) -> In i held).
  { intros i Hi. destruct (in_dec N.eq_dec i held); auto.
    exfalso. apply (proj2 (Hin i)); auto. }
  remember (cell_count (n_pages s)) as cc eqn:Ecc.
  assert (Hcc : cc = 128 * n_pages s) by (rewrite Ecc; apply cell_count_pages).
  pose proof (pow2_pos k) as Hpos.
  assert (Hpw : 2 ^ N.of_nat k <= 512).
  { change 512 with (2 ^ 9). apply N.pow_le_mono_r; lia. }
  assert (Hccb : 0 < cc /\ 2 * cc <= 2097152) by lia.
  set (m := link_loop _ _ _).
  assert (Hcc2 : cell_count (2 * n_pages s) = 2 * cc).
  { rewrite cell_count_pages. lia. }
  split; [|split; [|split; [|split]]]; cbn [first n_alloc n_free n_pages entries].
  - constructor; cbn [first n_alloc n_free n_pages entries]; auto.
    + exists (S k). split; [lia|]. rewrite Hp.
      replace (N.of_nat (S k)) with (N.succ (N.of_nat k)) by lia.
      rewrite N.pow_succ_r'. ring.
    + exists (nrange cc (N.to_nat (2 * cc - cc))). split; [|split].
      * apply chain_range.
        -- unfold END_MK; lia.
        -- lia.
        -- intros j Hj. rewrite set_next_other by lia.
           unfold m. apply link_loop_in. lia.
        -- replace (cc + N.of_nat (N.to_nat (2 * cc - cc)) - 1) with (2 * cc - 1) by lia.
           apply set_next_same.
      * apply nrange_NoDup.
      * intros i. rewrite nrange_In, Hcc2. split.
        -- intros Hi. split; [lia|]. intros Hh. apply Hb in Hh. lia.
        -- intros [Hi Hh]. destruct (N.lt_ge_cases i cc) as [Hlt|Hge]; [|lia].
           exfalso; apply Hh; auto.
    + intros i Hi. apply Hb in Hi. rewrite Hcc2. lia.
  - unfold END_MK; lia.
  - reflexivity.
  - assert (Hperm : Permutation held (nrange 0 (N.to_nat cc))).
    { apply NoDup_Permutation; auto using nrange_NoDup.
      intros i. rewrite nrange_In. split.
      - intros Hi. apply Hb in Hi. lia.
      - intros Hi. apply Hall. lia. }
    apply Permutation_length in Hperm. rewrite nrange_length in Hperm. lia.
  - intros i Hi. apply Hb in Hi. unfold m.
    rewrite set_next_other by lia. apply link_loop_out. lia.
Qed.

Lemma allocate_spec : forall ok s s' i held,
  inv s held -> slab_allocate ok s = Some (s', i) ->
  inv s' (i :: held) /\ ~ In i held /\ entries s' i = zero_cell /\
  (forall j, In j held -> entries s' j = entries s j) /\
  (n_pages s' = n_pages s \/
   n_pages s' = 2 * n_pages s /\ N.of_nat (length held) = cell_count (n_pages s)).
Proof.
  intros ok s s' i held I E. unfold slab_allocate in E.
  assert (Hs1 : exists s1,
    (if first s =? END_MK then slab_expand ok s else Some s) = Some s1 /\
    inv s1 held /\ first s1 <> END_MK /\
    (forall j, In j held -> entries s1 j = entries s j) /\
    (n_pages s1 = n_pages s \/
     n_pages s1 = 2 * n_pages s /\ N.of_nat (length held) = cell_count (n_pages s))).
  { destruct (N.eqb_spec (first s) END_MK) as [F|F].
    - destruct (slab_expand ok s) as [s1|] eqn:Ex; [|discriminate].
      destruct (expand_inv ok s s1 held I F Ex) as [A [B [C [D G]]]].
      exists s1. ands; auto.
    - exists s. ands; auto. }
  destruct Hs1 as [s1 [Es1 [I1 [F1 [Hkeep Hpg]]]]].
  rewrite Es1 in E. injection E as <- <-.
  destruct I1 as [Hp Hnd [l [Hc [Hl Hin]]] Hb Hcnt].
  inversion Hc as [Hf|j l' Hj Hc']; subst; [congruence|].
  set (i := first s1) in *.
  assert (Hi : i < cell_count (n_pages s1) /\ ~ In i held)
    by (apply Hin; left; auto).
  inversion Hl as [|? ? Hil Hl']; subst.
  split; [|split; [|split; [|split]]]; cbn [entries n_pages].
  - constructor; cbn [first n_alloc n_free n_pages entries]; auto.
    + constructor; tauto.
    + exists l'. split; [|split]; auto.
      * eapply chain_ext; [exact Hc'|]. intros j Hjl.
        rewrite upd_other; auto. intros ->; contradiction.
      * intros j. split.
        -- intros Hjl. destruct (proj1 (Hin j)) as [A B]; [right; auto|].
           split; auto. cbn. intros [->|?]; contradiction.
        -- intros [A B]. cbn in B.
           assert (In j (i :: l')) as [->|?] by (apply Hin; tauto); auto.
           exfalso; apply B; auto.
    + intros j [<-|Hj']; [tauto|auto].
    + cbn [length]. lia.
  - tauto.
  - apply upd_same.
  - intros j Hj'. rewrite upd_other; auto. intros ->. tauto.
  - exact Hpg.
Qed.

Lemma deallocate_inv : forall s i held,
  inv s held -> In i held -> inv (slab_deallocate s i) (remove_N i held).
Proof.
  intros s i held I Hi.
  destruct I as [[k [Hk Hp]] Hnd [l [Hc [Hl Hin]]] Hb Hcnt].
  destruct (remove_N_NoDup i held Hnd) as [Hnd' Hrem].
  assert (Hil : ~ In i l) by (intros H; apply Hin in H; tauto).
  constructor; cbn [slab_deallocate first n_alloc n_free n_pages entries]; auto.
  - exists k; auto.
  - exists (i :: l). split; [|split].
    + constructor.
      * apply Hb in Hi. rewrite cell_count_pages in Hi.
        pose proof (pow2_bound k Hk). unfold END_MK. lia.
      * rewrite upd_same. cbn [c_next]. eapply chain_ext; [exact Hc|].
        intros j Hj. rewrite upd_other; auto. intros ->; contradiction.
    + constructor; auto.
    + intros j. cbn [In]. rewrite Hrem, Hin. split.
      * intros [<-|[A B]]; split; auto; tauto.
      * intros [A B]. destruct (N.eq_dec i j); auto. right. split; auto.
  - intros j Hj. apply Hrem in Hj. apply Hb; tauto.
  - pose proof (remove_N_length i held Hi). lia.
Qed.

Lemma write_inv : forall s i c held,
  inv s held -> In i held -> inv (client_write s i c) held.
Proof.
  intros s i c held I Hi.
  destruct I as [Hp Hnd [l [Hc [Hl Hin]]] Hb Hcnt].
  constructor; cbn [client_write first n_alloc n_free n_pages entries]; auto.
  exists l. split; [|split]; auto.
  eapply chain_ext; [exact Hc|]. intros j Hj. rewrite upd_other; auto.
  intros ->. apply Hin in Hj. tauto.
Qed.

Lemma run_inv_from : forall h st,
  (forall s held, st = Running s held \/ st = Aborted s held -> inv s held) ->
  forall s held, fold_left step h st = Running s held \/
                 fold_left step h st = Aborted s held -> inv s held.
Proof.
  induction h as [|o h IH]; intros st Hst s held H; cbn [fold_left] in H.
  - apply Hst; auto.
  - eapply IH; [|exact H]. clear H s held.
    intros s held H.
    destruct st as [s0 held0|s0 held0|]; cbn [step] in H.
    + assert (I0 : inv s0 held0) by (apply Hst; auto).
      destruct o as [ok|i|i c].
      * destruct (slab_allocate ok s0) as [[s1 i]|] eqn:E.
        -- destruct H as [H|H]; [|discriminate]. injection H as <- <-.
           apply (allocate_spec ok s0 s1 i held0 I0 E).
        -- destruct H as [H|H]; [discriminate|]. injection H as <- <-. auto.
      * destruct (mem_N i held0) eqn:M; destruct H as [H|H]; try discriminate.
        injection H as <- <-. apply deallocate_inv; auto. apply mem_N_In; auto.
      * destruct (mem_N i held0) eqn:M; destruct H as [H|H]; try discriminate.
        injection H as <- <-. apply write_inv; auto. apply mem_N_In; auto.
    + apply Hst; auto.
    + destruct H as [H|H]; discriminate.
Qed.

Lemma run_inv : forall h s held,
  run h = Running s held \/ run h = Aborted s held -> inv s held.
Proof.
  intros h s held H. eapply run_inv_from; [|exact H].
  intros s0 held0 [E|E]; unfold start in E;
    destruct (slab_new true true) as [s1|] eqn:N1; try discriminate.
  injection E as <- <-. apply slab_new_inv; auto.
Qed.

(** Number of committed cells of a slab, as the client can observe it. *)
Definition committed (s : slab) : N := cell_count (n_pages s).

Lemma held_full : forall s held, inv s held ->
  (first s = END_MK <-> N.of_nat (length held) = committed s).
Proof.
  intros s held [_ Hnd [l [Hc [Hl Hin]]] Hb _]. unfold committed.
  split.
  - intros F. rewrite F in Hc. inversion Hc as [|? ? Hlt]; subst; [|lia].
    assert (P : Permutation held (nrange 0 (N.to_nat (cell_count (n_pages s))))).
    { apply NoDup_Permutation; auto using nrange_NoDup.
      intros i. rewrite nrange_In. split.
      - intros Hi; apply Hb in Hi; lia.
      - intros Hi. destruct (in_dec N.eq_dec i held); auto.
        exfalso. apply (proj2 (Hin i)). split; [lia|auto]. }
    apply Permutation_length in P. rewrite nrange_length in P. lia.
  - intros E. inversion Hc as [Hf|j l' Hj Hc']; auto. exfalso.
    assert (Hj' : first s < cell_count (n_pages s) /\ ~ In (first s) held).
    { apply Hin. subst l. left; auto. }
    set (u := nrange 0 (N.to_nat (cell_count (n_pages s)))).
    assert (Hincl : incl (first s :: held) u).
    { intros x [<-|Hx]; unfold u; apply nrange_In; [lia|]. apply Hb in Hx; lia. }
    apply NoDup_incl_length in Hincl; [|constructor; tauto].
    unfold u in Hincl. rewrite nrange_length in Hincl. cbn in Hincl. lia.
Qed.

Lemma held_le : forall s held, inv s held -> N.of_nat (length held) <= committed s.
Proof.
  intros s held [_ Hnd _ Hb _]. unfold committed.
  assert (Hincl : incl held (nrange 0 (N.to_nat (cell_count (n_pages s))))).
  { intros x Hx. apply nrange_In. apply Hb in Hx. lia. }
  apply NoDup_incl_length in Hincl; auto. rewrite nrange_length in Hincl. lia.
Qed.

Lemma abort_exact : forall s held, inv s held ->
  (slab_allocate true s = None <-> N.of_nat (length held) = 2097152).
Proof.
  intros s held I. pose proof (held_full s held I) as HF.
  pose proof (held_le s held I) as HL0. unfold committed in HF, HL0.
  destruct I as [[k [Hk Hp]] _ _ _ _].
  rewrite cell_count_pages in HF, HL0. unfold slab_allocate.
  assert (Hexp : slab_expand true s = None <-> k = 10%nat).
  { unfold slab_expand. cbn [negb]. rewrite Hp. unfold SLAB_SIZE, PAGE_SIZE.
    destruct (N.ltb_spec (64 * 1024 * 1024) (2 * (16 * 2 ^ N.of_nat k) * 4096)) as [H|H].
    - split; auto. intros _.
      destruct (Nat.eq_dec k 10); auto. exfalso.
      assert (2 ^ N.of_nat k <= 2 ^ 9) by (apply N.pow_le_mono_r; lia).
      change (2 ^ 9) with 512 in *. lia.
    - split; [discriminate|]. intros ->. change (2 ^ N.of_nat 10) with 1024 in H. lia. }
  assert (Hk10 : 128 * n_pages s = 2097152 <-> k = 10%nat).
  { rewrite Hp. split.
    - intros H. destruct (Nat.eq_dec k 10); auto. exfalso.
      assert (2 ^ N.of_nat k <= 2 ^ 9) by (apply N.pow_le_mono_r; lia).
      change (2 ^ 9) with 512 in *. lia.
    - intros ->. reflexivity. }
  pose proof (pow2_bound k Hk) as Hle.
  destruct (N.eqb_spec (first s) END_MK) as [F|F].
  - destruct (slab_expand true s) as [s1|] eqn:Ex.
    + split; [discriminate|]. intros HL. apply HF in F. rewrite F in HL.
      apply Hk10 in HL. apply Hexp in HL. discriminate.
    + split; auto. intros _. apply HF in F. rewrite F. apply Hk10. apply Hexp. auto.
  - split; [discriminate|]. intros HL. exfalso.
    assert (Hk9 : (k <= 9)%nat \/ k = 10%nat) by lia.
    destruct Hk9 as [Hk9| ->].
    + assert (2 ^ N.of_nat k <= 2 ^ 9) by (apply N.pow_le_mono_r; lia).
      change (2 ^ 9) with 512 in *. lia.
    + change (2 ^ N.of_nat 10) with 1024 in Hp. apply F, HF. lia.
Qed.

(** ** Statements over histories *)

Lemma alloc_fresh : forall h s held ok s' i,
  run h = Running s held ->
  slab_allocate ok s = Some (s', i) ->
  ~ In i held /\
  i * 32 + 32 <= n_pages s' * 4096 /\ n_pages s' * 4096 <= 64 * 1024 * 1024 /\
  entries s' i = zero_cell /\
  (forall j, In j held -> entries s' j = entries s j).
Proof.
  intros h s held ok s' i R E. pose proof (run_inv h s held (or_introl R)) as I.
  destruct (allocate_spec ok s s' i held I E) as [I' [F [Z [K _]]]].
  destruct I' as [[k [Hk Hp]] _ _ Hb _].
  assert (Hi : i < cell_count (n_pages s')) by (apply Hb; left; auto).
  rewrite cell_count_pages in Hi. pose proof (pow2_bound k Hk).
  ands; auto; lia.
Qed.

Lemma accounting : forall h s held,
  run h = Running s held ->
  n_alloc s = n_free s + N.of_nat (length held) /\
  exists free cells,
    cells * 32 = n_pages s * 4096 /\
    chain (entries s) (first s) free /\
    NoDup (held ++ free) /\
    (forall i, In i (held ++ free) <-> i < cells).
Proof.
  intros h s held R. destruct (run_inv h s held (or_introl R)) as [_ Hnd [l [Hc [Hl Hin]]] Hb Hn].
  split; auto. exists l, (cell_count (n_pages s)). ands; auto.
  - rewrite cell_count_pages; lia.
  - assert (D : forall i, In i held -> ~ In i l) by (intros i A B; apply Hin in B; tauto).
    clear - Hnd Hl D. induction held as [|x held IH]; cbn [app]; auto.
    inversion Hnd; subst. constructor.
    + rewrite in_app_iff. intros [?|A]; [contradiction|].
      apply (D x); cbn; auto.
    + apply IH; auto. intros i A; apply D; right; auto.
  - intros i. rewrite in_app_iff. split.
    + intros [A|A]; auto. apply Hin in A; tauto.
    + intros A. destruct (in_dec N.eq_dec i held); auto. right; apply Hin; auto.
Qed.

Lemma growth : forall h s held ok s' i,
  run h = Running s held -> slab_allocate ok s = Some (s', i) ->
  n_pages s' = n_pages s \/
  (n_pages s' = 2 * n_pages s /\ N.of_nat (length held) * 32 = n_pages s * 4096).
Proof.
  intros h s held ok s' i R E. pose proof (run_inv h s held (or_introl R)) as I.
  destruct (allocate_spec ok s s' i held I E) as [_ [_ [_ [_ [P|[P Q]]]]]]; auto.
  right. split; auto. rewrite Q, cell_count_pages. lia.
Qed.

Lemma abort_exact_run : forall h s held,
  run h = Running s held ->
  (slab_allocate true s = None <-> N.of_nat (length held) = 2097152).
Proof. intros h s held R. apply abort_exact, (run_inv h); auto. Qed.
