(** * Proofs about string to C buffer conversion, and the closure cache. *)
From Verif Require Import Value ValueSpec ValueProofs CString Closure.

Lemma store_ok : forall size m off b, off < size ->
  exists m', store size m off b = Some m' /\ m' off = b /\ (forall j, j <> off -> m' j = m j).
Proof.
  intros size m off b H. unfold store. destruct (Nat.ltb_spec off size); [|lia].
  eexists; split; [reflexivity|]. split.
  - rewrite Nat.eqb_refl; auto.
  - intros j Hj. destruct (Nat.eqb_spec j off); congruence.
Qed.

Lemma make_cstring_ok : forall l size m off len idx,
  idx <= len -> off + (len - idx) < size ->
  exists m', make_cstring size (mk_chars l) m off len idx
             = Some (m', idx + Nat.min (length l) (len - idx)) /\
    (forall i, i < Nat.min (length l) (len - idx) ->
       m' (off + i) = byte_of_char (nth i l 0%Z)) /\
    m' (off + Nat.min (length l) (len - idx)) = 0%N /\
    (forall j, j < off \/ off + Nat.min (length l) (len - idx) < j -> m' j = m j).
Proof.
  induction l as [|c l IH]; intros size m off len idx Hi Hs.
  - cbn [mk_chars map mk_list make_cstring length Nat.min].
    destruct (store_ok size m off 0%N) as [m' [E [A B]]]; [lia|].
    rewrite E. exists m'. rewrite !Nat.add_0_r. ands; auto.
    + intros i H; lia.
    + intros j H; apply B; lia.
  - unfold mk_chars. cbn [map mk_list make_cstring]. fold (mk_chars l).
    destruct (Nat.eqb_spec idx len) as [->|Hne].
    + destruct (store_ok size m off 0%N) as [m' [E [A B]]]; [lia|].
      rewrite E. exists m'. rewrite Nat.sub_diag, Nat.min_0_r, !Nat.add_0_r. ands; auto.
      * intros i H; lia.
      * intros j H; apply B; lia.
    + destruct (IH size m (S off) len (S idx)) as [m1 [E [A [T U]]]]; [lia|lia|].
      rewrite E.
      destruct (store_ok size m1 off (byte_of_char c)) as [m2 [E2 [A2 B2]]]; [lia|].
      rewrite E2. exists m2.
      assert (Hmin : Nat.min (length (c :: l)) (len - idx)
                     = S (Nat.min (length l) (len - S idx))) by (cbn [length]; lia).
      rewrite Hmin. ands.
      * do 2 f_equal. lia.
      * intros [|i] Hlt; cbn [nth].
        -- rewrite Nat.add_0_r; auto.
        -- rewrite B2 by lia. rewrite <- A by lia. f_equal; lia.
      * rewrite B2 by lia. rewrite <- T. f_equal; lia.
      * intros j Hj. rewrite B2 by lia. apply U. lia.
Qed.

Lemma make_cstring_overflow : forall l size m off len idx,
  idx <= len -> off + (len - idx) = size -> len - idx <= length l ->
  make_cstring size (mk_chars l) m off len idx = None.
Proof.
  induction l as [|c l IH]; intros size m off len idx Hi Hs Hl.
  - cbn in Hl. cbn [mk_chars map mk_list make_cstring]. unfold store.
    destruct (Nat.ltb_spec off size); auto; lia.
  - unfold mk_chars. cbn [map mk_list make_cstring]. fold (mk_chars l).
    destruct (Nat.eqb_spec idx len) as [->|Hne].
    + unfold store. destruct (Nat.ltb_spec off size); auto; lia.
    + rewrite IH; auto; cbn [length] in Hl; lia.
Qed.

(** ** Closure cache *)

Lemma crun_same_size_from : forall n h st,
  (forall m, In (CGet m) h -> m = n) ->
  Forall (fun b => room b = n) (cache (fst st)) ->
  Forall (fun p => room (fst p) = n /\ snd p = n) (snd st) ->
  Forall (fun p => room (fst p) = n /\ snd p = n) (snd (fold_left cstep h st)).
Proof.
  intros n h. induction h as [|o h IH]; intros [s held] Hn Hc Hh; cbn [fold_left]; auto.
  cbn [fst snd] in *. apply IH.
  - intros m Hm; apply Hn; right; auto.
  - destruct o as [m|i]; cbn [cstep].
    + unfold closure_get. destruct (cache s) as [|b r] eqn:E; cbn; auto.
      inversion Hc; auto.
    + destruct (nth_error held i) as [[b m]|] eqn:E; cbn; auto.
      constructor; auto. apply nth_error_In in E. rewrite Forall_forall in Hh.
      apply (Hh _ E).
  - destruct o as [m|i]; cbn [cstep].
    + assert (m = n) as -> by (apply Hn; left; auto).
      unfold closure_get. destruct (cache s) as [|b r] eqn:E; cbn; constructor; cbn; auto.
      inversion Hc; auto.
    + destruct (nth_error held i) as [[b m]|] eqn:E; cbn; auto.
      apply Forall_app; split.
      * apply Forall_firstn; auto.
      * apply Forall_forall. intros x Hx. rewrite Forall_forall in Hh. apply Hh.
        rewrite <- (firstn_skipn (S i) held). apply in_or_app; auto.
Qed.

Lemma crun_same_size : forall n h,
  (forall m, In (CGet m) h -> m = n) ->
  Forall (fun p => snd p <= room (fst p)) (snd (crun h)).
Proof.
  intros n h H. eapply Forall_impl; [|apply (crun_same_size_from n h (mkc [] 0, [])); cbn; auto].
  intros [b m] [A B]; cbn in *. lia.
Qed.

(** ** Statements *)

Lemma cstring_exact : forall l size m len,
  (len < size)%nat ->
  exists m', make_cstring size (mk_chars l) m 0 len 0 = Some (m', Nat.min (length l) len) /\
    (forall i, (i < Nat.min (length l) len)%nat -> m' i = byte_of_char (nth i l 0%Z)) /\
    m' (Nat.min (length l) len) = 0%N /\
    (forall j, (Nat.min (length l) len < j)%nat -> m' j = m j).
Proof.
  intros l size m len H. destruct (make_cstring_ok l size m 0 len 0) as [m' [E [A [T U]]]]; try lia.
  rewrite Nat.sub_0_r in *. cbn [Nat.add] in *. exists m'. ands; auto.
Qed.

Lemma cstring_overrun : forall l m len, (len <= length l)%nat ->
  make_cstring len (mk_chars l) m 0 len 0 = None.
Proof. intros l m len H. apply make_cstring_overflow; lia. Qed.

Lemma make_cstring_short : forall l size m off len idx,
  length l < len - idx -> off + length l < size ->
  make_cstring size (mk_chars l) m off len idx <> None.
Proof.
  induction l as [|c l IH]; intros size m off len idx Hl Hs.
  - cbn [mk_chars map mk_list make_cstring]. cbn [length] in Hs.
    destruct (store_ok size m off 0%N) as [m' [E _]]; [lia|]. rewrite E. discriminate.
  - unfold mk_chars. cbn [map mk_list make_cstring]. fold (mk_chars l).
    cbn [length] in *. destruct (Nat.eqb_spec idx len) as [->|Hne]; [lia|].
    specialize (IH size m (S off) len (S idx)).
    destruct (make_cstring size (mk_chars l) m (S off) len (S idx)) as [[m1 r]|].
    + destruct (store_ok size m1 off (byte_of_char c)) as [m2 [E _]]; [lia|].
      rewrite E. discriminate.
    + exfalso. apply IH; auto; lia.
Qed.

Lemma cstring_boundary : forall l m len,
  (make_cstring len (mk_chars l) m 0 len 0 <> None <-> (length l < len)%nat).
Proof.
  intros l m len. split.
  - intros H. destruct (Nat.lt_ge_cases (length l) len); auto.
    exfalso. apply H, cstring_overrun; auto.
  - intros H. apply make_cstring_short; lia.
Qed.

Lemma crun_refuted : exists h, ~ Forall (fun p => (snd p <= room (fst p))%nat) (snd (crun h)).
Proof.
  exists [CGet 1; CPut 0; CGet 5]. cbn. intros H. inversion H as [|? ? A _]; cbn in A. lia.
Qed.
