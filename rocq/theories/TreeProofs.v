(** * Proofs about the globals tree. *)
From Verif Require Import Value ValueSpec ValueProofs Tree Cache TreeSpec.
From Coq Require Import ZifyBool ZifyNat ZifyN Permutation Sorting.Sorted.
Open Scope N_scope.

(** ** Shapes and their pointer representation *)

Inductive tr := Lf (i : N) | Nd (i : N) (l r : tr).
Definition tid (t : tr) : N := match t with Lf i => i | Nd i _ _ => i end.
Fixpoint ids (t : tr) : list N :=
  match t with Lf i => [i] | Nd i l r => i :: ids l ++ ids r end.
(** Inner nodes in order. *)
Fixpoint nodes (t : tr) : list N :=
  match t with Lf _ => [] | Nd i l r => nodes l ++ i :: nodes r end.
Fixpoint height (t : tr) : nat :=
  match t with Lf _ => O | Nd _ l r => S (Nat.max (height l) (height r)) end.

Fixpoint rt (s : mem) (par : N) (t : tr) : Prop :=
  match t with
  | Lf i => kind s i = NilC
  | Nd i l r =>
      kind s i = NodeC /\ pf s i = par /\ lf s i = tid l /\ rf s i = tid r /\
      rt s i l /\ rt s i r
  end.

Inductive ctx :=
| Top
| CL (c : ctx) (i : N) (r : tr)      (* hole on the left of i *)
| CR (c : ctx) (i : N) (l : tr).     (* hole on the right of i *)
Fixpoint plug (c : ctx) (t : tr) : tr :=
  match c with
  | Top => t
  | CL c i r => plug c (Nd i t r)
  | CR c i l => plug c (Nd i l t)
  end.
Definition pid (c : ctx) (sent : N) : N :=
  match c with Top => sent | CL _ i _ => i | CR _ i _ => i end.
Fixpoint cids (c : ctx) : list N :=
  match c with
  | Top => []
  | CL c i r => i :: ids r ++ cids c
  | CR c i l => i :: ids l ++ cids c
  end.
Fixpoint depth (c : ctx) : nat :=
  match c with Top => O | CL c _ _ => S (depth c) | CR c _ _ => S (depth c) end.
Fixpoint rc (s : mem) (c : ctx) (h sent : N) : Prop :=
  match c with
  | Top => kind s sent = NilC
  | CL c i r =>
      kind s i = NodeC /\ lf s i = h /\ rf s i = tid r /\ pf s i = pid c sent /\
      rt s i r /\ rc s c i sent
  | CR c i l =>
      kind s i = NodeC /\ rf s i = h /\ lf s i = tid l /\ pf s i = pid c sent /\
      rt s i l /\ rc s c i sent
  end.

(** Inner nodes before and after the hole. *)
Fixpoint cbefore (c : ctx) : list N :=
  match c with
  | Top => []
  | CL c _ _ => cbefore c
  | CR c i l => cbefore c ++ nodes l ++ [i]
  end.
Fixpoint cafter (c : ctx) : list N :=
  match c with
  | Top => []
  | CL c i r => i :: nodes r ++ cafter c
  | CR c _ _ => cafter c
  end.

Lemma nodes_plug : forall c t, nodes (plug c t) = cbefore c ++ nodes t ++ cafter c.
Proof.
  induction c as [|c IH i r|c IH i l]; intros t; cbn [plug cbefore cafter].
  - rewrite app_nil_r; auto.
  - rewrite IH. cbn [nodes]. rewrite <- !app_assoc. cbn [app]. auto.
  - rewrite IH. cbn [nodes]. rewrite <- !app_assoc. cbn [app]. auto.
Qed.

Lemma ids_plug : forall c t, Permutation (ids (plug c t)) (ids t ++ cids c).
Proof.
  induction c as [|c IH i r|c IH i l]; intros t; cbn [plug cids].
  - rewrite app_nil_r; auto.
  - rewrite IH. cbn [ids].
    rewrite <- Permutation_middle. cbn [app]. constructor.
    rewrite <- app_assoc. reflexivity.
  - rewrite IH. cbn [ids].
    rewrite <- Permutation_middle. cbn [app]. constructor.
    rewrite !app_assoc. apply Permutation_app_tail. apply Permutation_app_comm.
Qed.

Lemma rt_plug : forall c s t sent,
  rt s sent (plug c t) /\ kind s sent = NilC <->
  rc s c (tid t) sent /\ rt s (pid c sent) t.
Proof.
  induction c as [|c IH i r|c IH i l]; intros s t sent; cbn [plug rc pid].
  - tauto.
  - rewrite IH. cbn [rt tid]. tauto.
  - rewrite IH. cbn [rt tid]. tauto.
Qed.

Lemma tid_plug : forall c t t', c <> Top -> tid (plug c t) = tid (plug c t').
Proof.
  induction c as [|c IH i r|c IH i l]; intros t t' H; cbn [plug]; try congruence.
  - destruct c; [reflexivity| |]; apply IH; discriminate.
  - destruct c; [reflexivity| |]; apply IH; discriminate.
Qed.

Lemma tid_in_ids : forall t, In (tid t) (ids t).
Proof. destruct t; cbn; auto. Qed.

Lemma nodes_in_ids : forall t i, In i (nodes t) -> In i (ids t).
Proof.
  induction t as [j|j l IHl r IHr]; cbn; intros i H; [tauto|].
  rewrite in_app_iff in *. cbn in H. destruct H as [H|[H|H]]; auto.
Qed.

(** ** Framing *)

Definition same_at (s s' : mem) (i : N) : Prop :=
  kind s' i = kind s i /\ lf s' i = lf s i /\ pf s' i = pf s i /\ rf s' i = rf s i.

Lemma rt_ext : forall t s s' par, rt s par t ->
  (forall i, In i (ids t) -> same_at s s' i) -> rt s' par t.
Proof.
  induction t as [i|i l IHl r IHr]; intros s s' par H E; cbn [rt] in *.
  - destruct (E i) as [K _]; [left; auto|]. congruence.
  - destruct H as [H1 [H2 [H3 [H4 [H5 H6]]]]].
    destruct (E i) as [K [L [P R]]]; [left; auto|].
    ands; try congruence.
    + apply (IHl s); auto. intros j Hj; apply E; cbn; rewrite in_app_iff; auto.
    + apply (IHr s); auto. intros j Hj; apply E; cbn; rewrite in_app_iff; auto.
Qed.

Lemma rt_reparent : forall t s s' par par', rt s par t -> NoDup (ids t) ->
  (forall i, In i (ids t) -> i <> tid t -> same_at s s' i) ->
  kind s' (tid t) = kind s (tid t) -> lf s' (tid t) = lf s (tid t) ->
  rf s' (tid t) = rf s (tid t) ->
  (forall i l r, t = Nd i l r -> pf s' i = par') ->
  rt s' par' t.
Proof.
  intros [i|i l r] s s' par par' H ND E K L R P; cbn [rt tid] in *.
  - congruence.
  - destruct H as [H1 [H2 [H3 [H4 [H5 H6]]]]]. cbn [ids] in *.
    inversion ND as [|? ? Hi ND']; subst. rewrite in_app_iff in Hi.
    ands; try congruence.
    + eapply P; reflexivity.
    + apply (rt_ext l s); auto. intros j Hj. apply E; cbn; rewrite ?in_app_iff; auto.
      intros ->; tauto.
    + apply (rt_ext r s); auto. intros j Hj. apply E; cbn; rewrite ?in_app_iff; auto.
      intros ->; tauto.
Qed.

Lemma rc_ext : forall c s s' h sent, rc s c h sent ->
  (forall i, In i (sent :: cids c) -> same_at s s' i) -> rc s' c h sent.
Proof.
  induction c as [|c IH i r|c IH i l]; intros s s' h sent H E; cbn [rc cids] in *.
  - destruct (E sent) as [K _]; [left; auto|]. congruence.
  - destruct H as [H1 [H2 [H3 [H4 [H5 H6]]]]].
    destruct (E i) as [K [L [P R]]]; [cbn; auto|].
    ands; try congruence.
    + apply (rt_ext r s); auto. intros j Hj; apply E; cbn; rewrite in_app_iff; auto.
    + apply (IH s); auto. intros j [Hj|Hj]; apply E; cbn; rewrite ?in_app_iff; auto.
  - destruct H as [H1 [H2 [H3 [H4 [H5 H6]]]]].
    destruct (E i) as [K [L [P R]]]; [cbn; auto|].
    ands; try congruence.
    + apply (rt_ext l s); auto. intros j Hj; apply E; cbn; rewrite in_app_iff; auto.
    + apply (IH s); auto. intros j [Hj|Hj]; apply E; cbn; rewrite ?in_app_iff; auto.
Qed.

Lemma upN_same : forall (A : Type) (f : N -> A) i v, upN f i v i = v.
Proof. intros; unfold upN; rewrite N.eqb_refl; auto. Qed.
Lemma upN_other : forall (A : Type) (f : N -> A) i v j, j <> i -> upN f i v j = f j.
Proof. intros; unfold upN; destruct (N.eqb_spec j i); congruence. Qed.

(** Everything but the links. *)
Definition links_only (s s' : mem) : Prop :=
  kind s' = kind s /\ col s' = col s /\ dat s' = dat s /\ dkey s' = dkey s /\
  dval s' = dval s /\ nxt s' = nxt s.

(** Membership consequences of a duplicate-free list, as disequalities. *)
Lemma nodup_app_ne : forall (A : Type) (a b : list A) x y,
  NoDup (a ++ b) -> In x a -> In y b -> x <> y.
Proof.
  induction a as [|z a IH]; cbn; intros b x y ND Hx Hy; [tauto|].
  inversion ND as [|? ? Hz ND']; subst. destruct Hx as [->|Hx].
  - intros ->. apply Hz, in_or_app; auto.
  - eapply IH; eauto.
Qed.

Lemma NoDup_app_remove_l : forall (A : Type) (a b : list A), NoDup (a ++ b) -> NoDup b.
Proof.
  induction a as [|x a IH]; intros b H; auto. apply IH.
  cbn in H. apply NoDup_cons_iff in H; tauto.
Qed.
Lemma NoDup_app_remove_r : forall (A : Type) (a b : list A), NoDup (a ++ b) -> NoDup a.
Proof.
  induction a as [|x a IH]; intros b H; [constructor|].
  cbn in H. apply NoDup_cons_iff in H. destruct H as [H1 H2]. rewrite in_app_iff in H1.
  constructor; [tauto|eauto].
Qed.

(** Permutations by counting. *)
Ltac perm :=
  apply (Permutation_count_occ N.eq_dec); let z := fresh "z" in intros z;
  repeat (rewrite ?count_occ_app; cbn [count_occ app]);
  repeat match goal with |- context[N.eq_dec ?a ?b] => destruct (N.eq_dec a b) end; lia.

Ltac kinds :=
  repeat match goal with
  | H : kind ?s ?x = _ |- context[kind ?s ?x] => rewrite H
  end.

Ltac no_dup ND :=
  repeat match type of ND with
  | NoDup (_ :: _) => let H1 := fresh "NI" in let H2 := fresh "ND" in
                      inversion ND as [|? ? H1 H2]; subst; clear ND; rename H2 into ND
  end.

(** Left rotation. *)
Lemma lrot_ok : forall s c x a y b d sent root,
  rc s c x sent -> rt s (pid c sent) (Nd x a (Nd y b d)) ->
  NoDup (x :: y :: ids a ++ ids b ++ ids d ++ sent :: cids c) ->
  root = tid (plug c (Nd x a (Nd y b d))) ->
  exists s', tree_lrot s root x = Ok (tid (plug c (Nd y (Nd x a b) d)), s') /\
    rc s' c y sent /\ rt s' (pid c sent) (Nd y (Nd x a b) d) /\ links_only s s'.
Proof.
  intros s c x a y b d sent root RC RT ND ->.
  cbn [rt tid] in RT.
  destruct RT as [Kx [Px [Lx [Rx [Ra [Ky [Py [Ly [Ry [Rb Rd]]]]]]]]]].
  apply NoDup_cons_iff in ND; destruct ND as [NIx ND1]. apply NoDup_cons_iff in ND1; destruct ND1 as [NIy ND2].
  cbn [In] in NIx. rewrite !in_app_iff in NIx, NIy. cbn [In] in NIx, NIy.
  assert (NDa : forall i, In i (ids a) -> i <> x /\ i <> y) by
    (intros i Hi; split; intros ->; tauto).
  assert (NDb : forall i, In i (ids b) -> i <> x /\ i <> y) by
    (intros i Hi; split; intros ->; tauto).
  assert (NDd : forall i, In i (ids d) -> i <> x /\ i <> y) by
    (intros i Hi; split; intros ->; tauto).
  assert (NDc : forall i, i = sent \/ In i (cids c) -> i <> x /\ i <> y) by
    (intros i [->|Hi]; split; intros E; subst; tauto).
  assert (Hab : forall i, In i (ids a) -> i <> tid b).
  { intros i Hi. eapply nodup_app_ne; [exact ND2|exact Hi|].
    apply in_or_app; left; apply tid_in_ids. }
  assert (Hdb : forall i, In i (ids d) -> i <> tid b).
  { intros i Hi E. subst i. apply NoDup_app_remove_l in ND2.
    eapply (nodup_app_ne _ (ids b)); [exact ND2|apply tid_in_ids| |reflexivity].
    apply in_or_app; auto. }
  assert (Hcb : forall i, i = sent \/ In i (cids c) -> i <> tid b).
  { intros i Hi E. apply NoDup_app_remove_l in ND2.
    eapply (nodup_app_ne _ (ids b)); [exact ND2|apply tid_in_ids| |reflexivity].
    subst i. apply in_or_app; right. cbn. destruct Hi; auto. }
  assert (NDb' : NoDup (ids b)).
  { apply NoDup_app_remove_l in ND2. apply NoDup_app_remove_r in ND2. auto. }
  assert (Hac : forall i j, In i (ids a ++ ids b ++ ids d) -> j = sent \/ In j (cids c) -> i <> j).
  { intros i j Hi Hj. eapply (nodup_app_ne _ (ids a ++ ids b ++ ids d) (sent :: cids c)).
    - rewrite <- !app_assoc. exact ND2.
    - exact Hi.
    - cbn. destruct Hj; auto. }
  assert (Hxy : x <> y) by (intros E; apply NIx; left; auto).
  assert (Hbx : tid b <> x) by (destruct (NDb (tid b) (tid_in_ids b)); auto).
  assert (Hby : tid b <> y) by (destruct (NDb (tid b) (tid_in_ids b)); auto).
  assert (Kb : kind s (tid b) = NilC \/ kind s (tid b) = NodeC).
  { destruct b; cbn in Rb |- *; tauto. }
  (* state after linking, before the parent *)
  unfold tree_lrot, isnull, right, left, set_right, on_node.
  rewrite Kx. cbn [rbind]. rewrite Rx, Ky. cbn [rbind]. rewrite Ly. cbn [rbind].
  cbn [kind].
  set (s1 := mkmem (kind s) (lf s) (pf s) (upN (rf s) x (tid b)) (col s) (dat s) (dkey s) (dval s) (nxt s)).
  assert (Hs2 : exists s2,
    (b0 <- match kind s (tid b) with Free => Ub | NilC => Ok true | NodeC => Ok false end ;;
     s <- (if b0 then Ok s1 else set_parent s1 (tid b) x) ;; Ok s) = Ok s2 /\
    kind s2 = kind s /\ lf s2 = lf s /\ rf s2 = upN (rf s) x (tid b) /\
    (forall i, i <> tid b -> pf s2 i = pf s i) /\
    (forall i l r, b = Nd i l r -> pf s2 i = x) /\
    col s2 = col s /\ dat s2 = dat s /\ dkey s2 = dkey s /\ dval s2 = dval s /\ nxt s2 = nxt s).
  { destruct b as [ib|ib bl br]; cbn [rt tid] in *.
    - rewrite Rb. cbn [rbind]. eexists; split; [reflexivity|].
      unfold s1; cbn [kind lf rf pf col dat dkey dval nxt]. ands; auto. intros; discriminate.
    - destruct Rb as [Kb' _]. rewrite Kb'. cbn [rbind]. unfold set_parent, on_node.
      change (kind s1 ib) with (kind s ib). rewrite Kb'. cbn [rbind].
      eexists; split; [reflexivity|].
      unfold s1; cbn [kind lf rf pf col dat dkey dval nxt]. ands; auto.
      + intros i Hi. apply upN_other; auto.
      + intros i l r E. injection E as <- <- <-. apply upN_same. }
  destruct Hs2 as [s2 [E2 [K2 [L2 [R2 [P2 [P2b [C2 [D2 [DK2 [DV2 N2]]]]]]]]]]].
  assert (Estep : forall (A : Type) (k : mem -> res A),
    (b0 <- match kind s (tid b) with Free => Ub | NilC => Ok true | NodeC => Ok false end ;;
     s <- (if b0 then Ok s1 else set_parent s1 (tid b) x) ;; k s) = k s2).
  { intros A k. destruct (kind s (tid b)); cbn [rbind] in *; try discriminate.
    - injection E2 as <-; auto.
    - destruct (set_parent s1 (tid b) x); cbn [rbind] in *; try discriminate.
      injection E2 as <-; auto. }
  rewrite Estep. clear Estep E2.
  unfold parent, on_node. rewrite K2, Kx. cbn [rbind].
  rewrite P2 by auto. rewrite Px.
  unfold set_parent at 1. unfold on_node. rewrite K2, Ky. cbn [rbind kind].
  set (s3 := mkmem (kind s) (lf s2) (upN (pf s2) y (pid c sent)) (rf s2) (col s2) (dat s2) (dkey s2) (dval s2) (nxt s2)).
  (* parent *)
  assert (Hs4 : exists s4,
    (b0 <- match kind s (pid c sent) with Free => Ub | NilC => Ok true | NodeC => Ok false end ;;
     (if b0 then Ok (y, s3) else
      lp <- match kind s3 (pid c sent) with NodeC => Ok (lf s3 (pid c sent)) | _ => Ub end ;;
      s <- (if N.eqb x lp then set_left s3 (pid c sent) y else
              match kind s3 (pid c sent) with
              | NodeC => Ok (mkmem (kind s3) (lf s3) (pf s3) (upN (rf s3) (pid c sent) y) (col s3) (dat s3) (dkey s3) (dval s3) (nxt s3))
              | _ => Ub end) ;;
      Ok (tid (plug c (Nd x a (Nd y b d))), s)))
     = Ok (tid (plug c (Nd y (Nd x a b) d)), s4) /\
    kind s4 = kind s /\ pf s4 = pf s3 /\
    (forall i, ~ In i (cids c) -> lf s4 i = lf s3 i /\ rf s4 i = rf s3 i) /\
    (forall s', kind s' = kind s4 ->
       (forall i, i = sent \/ In i (cids c) -> lf s' i = lf s4 i /\ rf s' i = rf s4 i /\ pf s' i = pf s4 i) ->
       rc s' c y sent) /\
    col s4 = col s /\ dat s4 = dat s /\ dkey s4 = dkey s /\ dval s4 = dval s /\ nxt s4 = nxt s).
  { assert (Same3 : forall i, i = sent \/ In i (cids c) ->
             kind s3 i = kind s i /\ lf s3 i = lf s i /\ pf s3 i = pf s i /\ rf s3 i = rf s i).
    { intros i Hi. unfold s3; cbn [kind lf pf rf]. rewrite L2, R2.
      destruct (NDc i Hi) as [Ne1 Ne2]. pose proof (Hcb i Hi) as Ne3.
      rewrite !upN_other by auto. ands; auto. }
    destruct c as [|c i r|c i l]; cbn [pid rc cids plug] in *.
    - rewrite RC. cbn [rbind]. eexists; split; [reflexivity|].
      unfold s3 at 1; cbn [kind]. ands; auto.
      intros s' Ks' _. rewrite Ks'. unfold s3; cbn [kind]. auto.
    - destruct RC as [Ki [Li [Ri [Pi [Rr RC]]]]].
      rewrite Ki. cbn [rbind]. unfold s3 at 1; cbn [kind]. rewrite Ki. cbn [rbind].
      destruct (Same3 i) as [_ [Ls [Ps Rs]]]; [cbn; auto|].
      rewrite Ls, Li, N.eqb_refl. unfold set_left, on_node.
      unfold s3 at 1; cbn [kind]. rewrite Ki. cbn [rbind].
      eexists; split; [apply f_equal; apply f_equal2; [apply (tid_plug (CL c i r)); discriminate|reflexivity]|].
      cbn [kind pf lf rf col dat dkey dval nxt]. ands; auto.
      + intros j Hj. split; auto. apply upN_other. intros ->. apply Hj; left; auto.
      + intros s' Ks' Es'.
        assert (Hnd : forall j, In j (ids r) \/ In j (cids c) \/ j = sent -> j <> i).
        { intros j Hj ->. cbn [cids] in ND2.
          assert (NoDup (sent :: i :: ids r ++ cids c)) as NDs.
          { do 3 apply NoDup_app_remove_l in ND2. exact ND2. }
          apply NoDup_cons_iff in NDs; destruct NDs as [Hs NDs']. apply NoDup_cons_iff in NDs'; destruct NDs' as [Hi' _].
          rewrite in_app_iff in Hi'. cbn in Hs. destruct Hj as [Hj|[Hj|Hj]]; [tauto|tauto|]. apply Hs; left; auto. }
        assert (Es : forall j, j = sent \/ j = i \/ In j (ids r ++ cids c) -> j <> i -> same_at s s' j).
        { intros j Hj Hji. unfold same_at.
          assert (Hj' : j = sent \/ i = j \/ In j (ids r ++ cids c)) by (destruct Hj as [|[|]]; auto).
          destruct (Es' j Hj') as [A [B C]]. rewrite Ks', A, B, C.
          destruct (Same3 j Hj') as [S1 [S2 [S3 S4]]].
          cbn [kind pf lf rf]. rewrite upN_other by auto. ands; auto. }
        destruct (Es' i) as [A [B C]]; [right; left; reflexivity|]. cbn [pf lf rf] in A, B, C.
        rewrite upN_same in A.
        ands.
        * rewrite Ks'. unfold s3; cbn [kind]; congruence.
        * exact A.
        * rewrite B. congruence.
        * rewrite C. congruence.
        * apply (rt_ext r s); auto. intros j Hj. apply Es; [|apply Hnd; auto].
          right; right; apply in_or_app; auto.
        * apply (rc_ext c s); auto. intros j [<-|Hj]; apply Es; auto.
          right; right; apply in_or_app; auto.
    - destruct RC as [Ki [Ri [Li [Pi [Rl RC]]]]].
      rewrite Ki. cbn [rbind]. unfold s3 at 1; cbn [kind]. rewrite Ki. cbn [rbind].
      destruct (Same3 i) as [_ [Ls [Ps Rs]]]; [cbn; auto|].
      rewrite Ls, Li.
      destruct (N.eqb_spec x (tid l)) as [E|_].
      { exfalso. destruct (NDc (tid l)) as [Ne _]; [|congruence].
        right; right. apply in_or_app; left. apply tid_in_ids. }
      unfold s3 at 1; cbn [kind]. rewrite Ki. cbn [rbind].
      eexists; split; [apply f_equal; apply f_equal2; [apply (tid_plug (CR c i l)); discriminate|reflexivity]|].
      cbn [kind pf lf rf col dat dkey dval nxt]. ands; auto.
      + intros j Hj. split; auto. apply upN_other. intros ->. apply Hj; left; auto.
      + intros s' Ks' Es'.
        assert (Hnd : forall j, In j (ids l) \/ In j (cids c) \/ j = sent -> j <> i).
        { intros j Hj ->. cbn [cids] in ND2.
          assert (NoDup (sent :: i :: ids l ++ cids c)) as NDs.
          { do 3 apply NoDup_app_remove_l in ND2. exact ND2. }
          apply NoDup_cons_iff in NDs; destruct NDs as [Hs NDs']. apply NoDup_cons_iff in NDs'; destruct NDs' as [Hi' _].
          rewrite in_app_iff in Hi'. cbn in Hs. destruct Hj as [Hj|[Hj|Hj]]; [tauto|tauto|]. apply Hs; left; auto. }
        assert (Es : forall j, j = sent \/ j = i \/ In j (ids l ++ cids c) -> j <> i -> same_at s s' j).
        { intros j Hj Hji. unfold same_at.
          assert (Hj' : j = sent \/ i = j \/ In j (ids l ++ cids c)) by (destruct Hj as [|[|]]; auto).
          destruct (Es' j Hj') as [A [B C]]. rewrite Ks', A, B, C.
          destruct (Same3 j Hj') as [S1 [S2 [S3 S4]]].
          cbn [kind pf lf rf]. rewrite upN_other by auto. ands; auto. }
        destruct (Es' i) as [A [B C]]; [right; left; reflexivity|]. cbn [pf lf rf] in A, B, C.
        rewrite upN_same in B.
        ands.
        * rewrite Ks'. unfold s3; cbn [kind]; congruence.
        * exact B.
        * rewrite A. congruence.
        * rewrite C. congruence.
        * apply (rt_ext l s); auto. intros j Hj. apply Es; [|apply Hnd; auto].
          right; right; apply in_or_app; auto.
        * apply (rc_ext c s); auto. intros j [<-|Hj]; apply Es; auto.
          right; right; apply in_or_app; auto. }
  destruct Hs4 as [s4 [E4 [K4 [P4 [LR4 [RC4 [C4 [D4 [DK4 [DV4 N4]]]]]]]]]].
  match goal with |- exists s', ?X = _ /\ _ =>
    assert (EX : X = (s5 <- set_left s4 y x ;; s6 <- set_parent s5 x y ;;
                      Ok (tid (plug c (Nd y (Nd x a b) d)), s6)))
  end.
  { destruct (kind s (pid c sent)) eqn:Kp; cbn [rbind] in E4 |- *; try discriminate.
    - injection E4 as Et Es. rewrite <- Et, <- Es. reflexivity.
    - destruct (kind s3 (pid c sent)) eqn:Kp3; cbn [rbind] in E4 |- *; try discriminate.
      destruct (x =? lf s3 (pid c sent)).
      + destruct (set_left s3 (pid c sent) y); cbn [rbind] in E4 |- *; try discriminate.
        injection E4 as Et Es. rewrite <- Et, <- Es. reflexivity.
      + cbn [rbind] in E4 |- *. injection E4 as Et Es. rewrite <- Et, <- Es. reflexivity. }
  rewrite EX. clear EX E4.
  unfold set_left, set_parent, on_node. rewrite K4, Ky. cbn [rbind kind]. rewrite Kx.
  cbn [rbind]. eexists; split; [reflexivity|].
  assert (Hcx : ~ In x (cids c)) by (intros H; destruct (NDc x); auto).
  assert (Hcy : ~ In y (cids c)) by (intros H; destruct (NDc y); auto).
  split; [|split].
  - apply RC4; [symmetry; exact K4|]. intros i Hi. cbn [lf rf pf].
    destruct (NDc i Hi). rewrite !upN_other by auto. auto.
  - assert (SA : forall i, In i (ids a) \/ In i (ids b) \/ In i (ids d) -> i <> tid b -> same_at s
      (mkmem (kind s) (upN (lf s4) y x) (upN (pf s4) x y) (rf s4) (col s4) (dat s4) (dkey s4) (dval s4) (nxt s4)) i).
    { intros i Hi Hib. unfold same_at; cbn [kind lf pf rf].
      assert (i <> x /\ i <> y) as [Ne1 Ne2] by (destruct Hi as [Hi|[Hi|Hi]]; auto).
      rewrite !upN_other by auto.
      destruct (LR4 i) as [A B].
      { intros Hc. eapply (Hac i i); auto. rewrite !in_app_iff; tauto. }
      rewrite A, B, P4. unfold s3; cbn [lf rf pf]. rewrite L2, R2, !upN_other by auto.
      rewrite P2 by auto. auto. }
    destruct (LR4 x Hcx) as [LRx1 LRx2]. destruct (LR4 y Hcy) as [LRy1 LRy2].
    cbn [rt tid kind lf pf rf]. ands.
    + congruence.
    + rewrite upN_other by auto. rewrite P4. unfold s3; cbn [pf]. apply upN_same.
    + apply upN_same.
    + rewrite LRy2. unfold s3; cbn [rf]. rewrite R2, upN_other by auto. auto.
    + congruence.
    + apply upN_same.
    + rewrite upN_other by auto. rewrite LRx1. unfold s3; cbn [lf]. rewrite L2. auto.
    + rewrite LRx2. unfold s3; cbn [rf]. rewrite R2. apply upN_same.
    + apply (rt_ext a s); auto.
    + apply (rt_reparent b s _ y x); auto; cbn [kind lf rf pf].
      * destruct (LR4 (tid b)) as [A B].
        { intros Hc. eapply (Hac (tid b) (tid b)); auto. rewrite !in_app_iff.
          right; left; apply tid_in_ids. }
        rewrite upN_other by auto. rewrite A. unfold s3; cbn [lf]. rewrite L2; auto.
      * destruct (LR4 (tid b)) as [A B].
        { intros Hc. eapply (Hac (tid b) (tid b)); auto. rewrite !in_app_iff.
          right; left; apply tid_in_ids. }
        rewrite B. unfold s3; cbn [rf]. rewrite R2, upN_other by auto. auto.
      * intros i l r Eb. subst b. cbn [tid] in *.
        rewrite upN_other by auto. rewrite P4. unfold s3; cbn [pf].
        rewrite upN_other by auto. eapply P2b; reflexivity.
    + apply (rt_ext d s); auto.
  - unfold links_only; cbn [kind col dat dkey dval nxt]. ands; auto.
Qed.

(** ** Mirror images: right rotation from left rotation *)

Definition mir (s : mem) : mem :=
  mkmem (kind s) (rf s) (pf s) (lf s) (col s) (dat s) (dkey s) (dval s) (nxt s).
Fixpoint mt (t : tr) : tr := match t with Lf i => Lf i | Nd i l r => Nd i (mt r) (mt l) end.
Fixpoint mc (c : ctx) : ctx :=
  match c with Top => Top | CL c i r => CR (mc c) i (mt r) | CR c i l => CL (mc c) i (mt l) end.

Lemma mt_mt : forall t, mt (mt t) = t.
Proof. induction t; cbn; congruence. Qed.
Lemma mc_mc : forall c, mc (mc c) = c.
Proof. induction c; cbn; rewrite ?mt_mt; congruence. Qed.
Lemma mir_mir : forall s, mir (mir s) = s.
Proof. intros []; reflexivity. Qed.
Lemma tid_mt : forall t, tid (mt t) = tid t.
Proof. destruct t; auto. Qed.
Lemma ids_mt : forall t, Permutation (ids (mt t)) (ids t).
Proof.
  induction t as [i|i l IHl r IHr]; cbn; auto. constructor.
  rewrite IHl, IHr. apply Permutation_app_comm.
Qed.
Lemma plug_mt : forall c t, mt (plug c t) = plug (mc c) (mt t).
Proof. induction c; intros t; cbn; auto; rewrite IHc; auto. Qed.
Lemma rt_mir : forall t s par, rt s par t -> rt (mir s) par (mt t).
Proof.
  induction t as [i|i l IHl r IHr]; intros s par; cbn [rt mt]; auto.
  intros [H1 [H2 [H3 [H4 [H5 H6]]]]]. cbn [mir kind lf pf rf]. rewrite !tid_mt.
  ands; auto.
Qed.

Definition rmap {A B} (f : A -> B) (r : res A) : res B :=
  match r with Ok a => Ok (f a) | Ub => Ub | NoFuel => NoFuel end.

Lemma rrot_mir : forall s root x,
  tree_rrot s root x = rmap (fun p => (fst p, mir (snd p))) (tree_lrot (mir s) root x).
Proof.
  intros [K L P R C D DK DV NX] root x.
  unfold tree_rrot, tree_lrot, isnull, left, right, parent, set_left, set_right, set_parent, on_node, mir.
  cbn [kind lf pf rf].
  repeat (cbn [rbind rmap kind lf pf rf col dat dkey dval nxt fst snd]; try reflexivity;
          match goal with
          | H : K ?a = _ |- context[K ?a] => rewrite H
          | |- context[match K ?a with _ => _ end] => destruct (K a) eqn:?
          | |- context[N.eqb ?a ?b] => destruct (N.eqb a b)
          end).
Qed.

(** ** Well-linked trees *)

Record okt (s : mem) (sent : N) (t : tr) : Prop := mkokt {
  ok_rt : rt s sent t;
  ok_sent : kind s sent = NilC;
  ok_nd : NoDup (sent :: ids t) }.

Lemma okt_mir : forall s sent t, okt s sent t -> okt (mir s) sent (mt t).
Proof.
  intros s sent t [H1 H2 H3]. constructor.
  - apply rt_mir; auto.
  - exact H2.
  - eapply Permutation_NoDup; [|exact H3]. constructor. symmetry; apply ids_mt.
Qed.

Lemma okt_links : forall s s' sent t, okt s sent t -> kind s' = kind s -> lf s' = lf s ->
  pf s' = pf s -> rf s' = rf s -> okt s' sent t.
Proof.
  intros s s' sent t [H1 H2 H3] K L P R. constructor; auto.
  - eapply rt_ext; [exact H1|]. intros i _. unfold same_at. rewrite K, L, P, R; auto.
  - rewrite K; auto.
Qed.

Definition lrot_t (t : tr) : tr :=
  match t with Nd x a (Nd y b d) => Nd y (Nd x a b) d | _ => t end.
Definition rrot_t (t : tr) : tr :=
  match t with Nd x (Nd y a b) d => Nd y a (Nd x b d) | _ => t end.

Lemma links_only_refl : forall s, links_only s s.
Proof. intros s; unfold links_only; ands; auto. Qed.
Lemma links_only_trans : forall a b c, links_only a b -> links_only b c -> links_only a c.
Proof. unfold links_only; intros a b c H1 H2; ands; destruct H1 as [?[?[?[?[??]]]]], H2 as [?[?[?[?[??]]]]]; congruence. Qed.

Lemma plug_parts : forall s c t sent, okt s sent (plug c t) ->
  rc s c (tid t) sent /\ rt s (pid c sent) t.
Proof. intros s c t sent [H1 H2 _]. apply rt_plug; auto. Qed.

Lemma okt_kind : forall s sent c x l r, okt s sent (plug c (Nd x l r)) -> kind s x = NodeC.
Proof. intros s sent c x l r H. apply plug_parts in H. cbn in H; tauto. Qed.

Lemma lrot_plug : forall s sent c x l r, okt s sent (plug c (Nd x l r)) ->
  exists s', tree_lrot s (tid (plug c (Nd x l r))) x
               = Ok (tid (plug c (lrot_t (Nd x l r))), s') /\
    okt s' sent (plug c (lrot_t (Nd x l r))) /\ links_only s s'.
Proof.
  intros s sent c x l [y|y b d] H.
  - exists s. cbn [lrot_t]. pose proof (plug_parts _ _ _ _ H) as [_ RT]. cbn [rt tid] in RT.
    destruct RT as [Kx [_ [_ [Rx [_ Ky]]]]].
    unfold tree_lrot, isnull, right, on_node. rewrite Kx. cbn [rbind]. rewrite Rx, Ky. cbn [rbind].
    ands; auto. apply links_only_refl.
  - pose proof (plug_parts _ _ _ _ H) as [RC RT]. destruct H as [H1 H2 H3].
    assert (Pm : Permutation (sent :: ids (plug c (Nd x l (Nd y b d))))
                   (x :: y :: ids l ++ ids b ++ ids d ++ sent :: cids c)).
    { rewrite ids_plug. cbn [ids]. perm. }
    destruct (lrot_ok s c x l y b d sent (tid (plug c (Nd x l (Nd y b d)))) RC RT) as [s' [E [RC' [RT' LO]]]].
    + eapply Permutation_NoDup; eauto.
    + reflexivity.
    + exists s'. cbn [lrot_t]. split; [exact E|]. split; [|exact LO].
      destruct (proj2 (rt_plug c s' (Nd y (Nd x l b) d) sent)) as [A B]; auto.
      constructor; auto.
      eapply Permutation_NoDup; [|exact H3]. rewrite Pm, ids_plug. cbn [ids]. perm.
Qed.

Lemma lrot_t_mt : forall t, mt (lrot_t (mt t)) = rrot_t t.
Proof. intros [|x [|y a b] d]; cbn; rewrite ?mt_mt; auto. Qed.

Lemma rrot_plug : forall s sent c x l r, okt s sent (plug c (Nd x l r)) ->
  exists s', tree_rrot s (tid (plug c (Nd x l r))) x
               = Ok (tid (plug c (rrot_t (Nd x l r))), s') /\
    okt s' sent (plug c (rrot_t (Nd x l r))) /\ links_only s s'.
Proof.
  intros s sent c x l r H. apply okt_mir in H. rewrite plug_mt in H. cbn [mt] in H.
  destruct (lrot_plug _ _ _ _ _ _ H) as [s' [E [O LO]]].
  exists (mir s'). rewrite rrot_mir.
  rewrite <- (tid_mt (plug c (Nd x l r))), plug_mt. cbn [mt].
  change (Nd x (mt r) (mt l)) with (mt (Nd x l r)) in *.
  assert (EQ : plug c (rrot_t (Nd x l r)) = mt (plug (mc c) (lrot_t (mt (Nd x l r))))).
  { rewrite plug_mt, mc_mc, lrot_t_mt; auto. }
  rewrite E. cbn [rmap fst snd]. rewrite EQ, tid_mt.
  split; [reflexivity|]. split; [apply okt_mir; auto|].
  unfold links_only in *; cbn [mir kind col dat dkey dval nxt] in *; tauto.
Qed.

Lemma rot_null : forall s root x, kind s x = NilC ->
  tree_lrot s root x = Ok (root, s) /\ tree_rrot s root x = Ok (root, s).
Proof. intros s root x K. unfold tree_lrot, tree_rrot, isnull. rewrite K; auto. Qed.

Lemma nodes_lrot : forall t, nodes (lrot_t t) = nodes t.
Proof. intros [|x a [|y b d]]; cbn; auto. rewrite <- !app_assoc; auto. Qed.
Lemma nodes_rrot : forall t, nodes (rrot_t t) = nodes t.
Proof. intros [|x [|y a b] d]; cbn; auto. rewrite <- !app_assoc; auto. Qed.
Lemma ids_lrot : forall t, Permutation (ids (lrot_t t)) (ids t).
Proof.
  intros [|x a [|y b d]]; cbn; auto. perm.
Qed.
Lemma ids_rrot : forall t, Permutation (ids (rrot_t t)) (ids t).
Proof.
  intros [|x [|y a b] d]; cbn; auto. perm.
Qed.

(** ** The rebalancing loop *)

(** Everything but links and colours. *)
Definition data_same (s s' : mem) : Prop :=
  kind s' = kind s /\ dat s' = dat s /\ dkey s' = dkey s /\ dval s' = dval s /\ nxt s' = nxt s.
Lemma data_same_trans : forall a b c, data_same a b -> data_same b c -> data_same a c.
Proof. unfold data_same; intros a b c [?[?[?[??]]]] [?[?[?[??]]]]; ands; congruence. Qed.
Lemma links_data : forall a b, links_only a b -> data_same a b.
Proof. unfold data_same, links_only; tauto. Qed.

Definition with_col (s : mem) (f : N -> bool) : mem :=
  mkmem (kind s) (lf s) (pf s) (rf s) f (dat s) (dkey s) (dval s) (nxt s).

Lemma set_color_ok : forall s x b, kind s x <> Free ->
  set_color s x b = Ok (with_col s (upN (col s) x b)).
Proof. intros s x b H. unfold set_color. destruct (kind s x); [congruence|reflexivity|reflexivity]. Qed.
Lemma okt_with_col : forall s sent t f, okt s sent t <-> okt (with_col s f) sent t.
Proof. intros; split; intros H; (eapply okt_links; [exact H| | | |]; reflexivity). Qed.

Lemma okt_at : forall s sent c x l r, okt s sent (plug c (Nd x l r)) ->
  kind s x = NodeC /\ parent s x = Ok (pid c sent) /\ left s x = Ok (tid l) /\
  right s x = Ok (tid r).
Proof.
  intros s sent c x l r H. apply plug_parts in H. cbn [rt] in H.
  destruct H as [_ [K [P [L [R _]]]]]. unfold parent, left, right, on_node. rewrite K.
  ands; congruence.
Qed.
Lemma okt_live : forall s sent t i, okt s sent t -> In i (sent :: ids t) -> kind s i <> Free.
Proof.
  intros s sent t i [H1 H2 _] [<-|Hi]; [congruence|]. clear H2.
  revert H1 Hi. generalize sent as par. clear sent.
  induction t as [j|j l IHl r IHr]; intros par H1 Hi; cbn [rt ids] in *.
  - destruct Hi as [<-|[]]; congruence.
  - destruct H1 as [K [_ [_ [_ [Hl Hr]]]]]. destruct Hi as [<-|Hi]; [congruence|].
    apply in_app_iff in Hi. destruct Hi; eauto.
Qed.
Lemma in_plug : forall c t i, In i (ids t) -> In i (ids (plug c t)).
Proof.
  intros c t i H. apply (Permutation_in (l := ids t ++ cids c)).
  - symmetry; apply ids_plug.
  - apply in_or_app; auto.
Qed.
Lemma okt_ne : forall s sent c t i j, okt s sent (plug c t) -> In i (ids t) ->
  j = sent \/ In j (cids c) -> i <> j.
Proof.
  intros s sent c t i j [_ _ ND] Hi Hj E. subst j.
  assert (ND' : NoDup (ids t ++ sent :: cids c)).
  { eapply Permutation_NoDup; [|exact ND]. rewrite ids_plug. perm. }
  eapply (nodup_app_ne _ (ids t)); [exact ND'|exact Hi| |reflexivity].
  cbn; destruct Hj; auto.
Qed.
Lemma okt_nd_sub : forall s sent c t, okt s sent (plug c t) -> NoDup (ids t).
Proof.
  intros s sent c t [_ _ ND]. apply NoDup_cons_iff in ND. destruct ND as [_ ND].
  eapply (NoDup_app_remove_r _ _ (cids c)). eapply Permutation_NoDup; [apply ids_plug|auto].
Qed.

Lemma tid_plug_top : forall c t, In (tid (plug c t)) (tid t :: cids c).
Proof.
  induction c as [|c IH i r|c IH i l]; intros t; cbn [plug cids]; [left; auto| |];
    (specialize (IH (Nd i t r)) || specialize (IH (Nd i l t)));
    cbn [tid] in IH; destruct IH as [IH|IH]; cbn; rewrite ?in_app_iff; auto.
Qed.
Lemma tid_plug_below : forall c t, c <> Top -> In (tid (plug c t)) (cids c).
Proof.
  induction c as [|c IH i r|c IH i l]; intros t H; [congruence| |]; cbn [plug cids];
  destruct c; cbn [plug tid]; auto; try (left; reflexivity);
  right; apply in_or_app; right; apply IH; discriminate.
Qed.

Lemma colored_ok : forall s x, kind s x <> Free -> colored s x = Ok (col s x).
Proof. intros s x H; unfold colored; destruct (kind s x); congruence. Qed.

Lemma loop_exit : forall f s next x node p, parent s x = Ok p -> kind s p <> Free ->
  col s p = false -> add_check_loop (S f) s next x node = Ok (next, s).
Proof.
  intros f s next x node p P K C. cbn [add_check_loop]. destruct (N.eqb x next); auto.
  rewrite P. cbn [rbind]. rewrite colored_ok by auto. cbn [rbind]. rewrite C. reflexivity.
Qed.

(** A node with two NIL children is not rotated. *)
Definition bare (s : mem) (n : N) : Prop :=
  kind s n = NodeC /\ kind s (lf s n) = NilC /\ kind s (rf s n) = NilC.
Lemma bare_rot : forall s root n, bare s n ->
  tree_lrot s root n = Ok (root, s) /\ tree_rrot s root n = Ok (root, s).
Proof.
  intros s root n [K [L R]]. unfold tree_lrot, tree_rrot, isnull, left, right, on_node.
  rewrite K. cbn [rbind]. rewrite L, R. auto.
Qed.

Lemma parent_col : forall s f x, parent (with_col s f) x = parent s x.
Proof. reflexivity. Qed.

Lemma pid_in : forall c sent, pid c sent = sent \/ In (pid c sent) (cids c).
Proof. destruct c; cbn; auto. Qed.

(** The colouring and rotation that end the loop: [p] below [g], colour of [g]
    cleared, colour of its parent set, rotation there (either direction, chosen by
    the side [p] is on): [p] is still below [g]. *)
Lemma last_rot_left : forall s sent c g pt u,
  okt s sent (plug c (Nd g pt u)) -> (exists p a b, pt = Nd p a b) ->
  exists s' t', tree_rrot s (tid (plug c (Nd g pt u))) (pid c sent) = Ok (tid t', s') /\
    okt s' sent t' /\ nodes t' = nodes (plug c (Nd g pt u)) /\
    Permutation (ids t') (ids (plug c (Nd g pt u))) /\ links_only s s' /\
    parent s' (tid pt) = Ok g.
Proof.
  intros s sent c g pt u H [p [a [b ->]]]. destruct c as [|c q w|c q w]; cbn [pid].
  - exists s, (plug Top (Nd g (Nd p a b) u)). destruct (rot_null s (tid (Nd g (Nd p a b) u)) sent (ok_sent _ _ _ H)) as [_ E].
    cbn [plug] in *. ands; auto using links_only_refl.
    destruct (okt_at s sent (CL Top g u) p a b H) as [_ [P _]]. exact P.
  - cbn [plug] in H |- *.
    destruct (rrot_plug _ _ _ _ _ _ H) as [s' [E [O LO]]].
    exists s', (plug c (rrot_t (Nd q (Nd g (Nd p a b) u) w))). ands; auto.
    + rewrite !nodes_plug, nodes_rrot; auto.
    + rewrite !ids_plug, ids_rrot; auto.
    + cbn [rrot_t] in O. destruct (okt_at s' sent (CL c g (Nd q u w)) p a b O) as [_ [P _]]. exact P.
  - cbn [plug] in H |- *.
    destruct (rrot_plug _ _ _ _ _ _ H) as [s' [E [O LO]]].
    exists s', (plug c (rrot_t (Nd q w (Nd g (Nd p a b) u)))). ands; auto.
    + rewrite !nodes_plug, nodes_rrot; auto.
    + rewrite !ids_plug, ids_rrot; auto.
    + destruct w as [w|y wa wb]; cbn [rrot_t] in O.
      * destruct (okt_at s' sent (CL (CR c q (Lf w)) g u) p a b O) as [_ [P _]]. exact P.
      * destruct (okt_at s' sent (CL (CR (CR c y wa) q wb) g u) p a b O) as [_ [P _]]. exact P.
Qed.

Lemma last_rot_right : forall s sent c g pt u,
  okt s sent (plug c (Nd g u pt)) -> (exists p a b, pt = Nd p a b) ->
  exists s' t', tree_lrot s (tid (plug c (Nd g u pt))) (pid c sent) = Ok (tid t', s') /\
    okt s' sent t' /\ nodes t' = nodes (plug c (Nd g u pt)) /\
    Permutation (ids t') (ids (plug c (Nd g u pt))) /\ links_only s s' /\
    parent s' (tid pt) = Ok g.
Proof.
  intros s sent c g pt u H [p [a [b ->]]]. destruct c as [|c q w|c q w]; cbn [pid].
  - exists s, (plug Top (Nd g u (Nd p a b))). destruct (rot_null s (tid (Nd g u (Nd p a b))) sent (ok_sent _ _ _ H)) as [E _].
    cbn [plug] in *. ands; auto using links_only_refl.
    destruct (okt_at s sent (CR Top g u) p a b H) as [_ [P _]]. exact P.
  - cbn [plug] in H |- *.
    destruct (lrot_plug _ _ _ _ _ _ H) as [s' [E [O LO]]].
    exists s', (plug c (lrot_t (Nd q (Nd g u (Nd p a b)) w))). ands; auto.
    + rewrite !nodes_plug, nodes_lrot; auto.
    + rewrite !ids_plug, ids_lrot; auto.
    + destruct w as [w|y wa wb]; cbn [lrot_t] in O.
      * destruct (okt_at s' sent (CR (CL c q (Lf w)) g u) p a b O) as [_ [P _]]. exact P.
      * destruct (okt_at s' sent (CR (CL (CL c y wb) q wa) g u) p a b O) as [_ [P _]]. exact P.
  - cbn [plug] in H |- *.
    destruct (lrot_plug _ _ _ _ _ _ H) as [s' [E [O LO]]].
    exists s', (plug c (lrot_t (Nd q w (Nd g u (Nd p a b))))). ands; auto.
    + rewrite !nodes_plug, nodes_lrot; auto.
    + rewrite !ids_plug, ids_lrot; auto.
    + cbn [lrot_t] in O. destruct (okt_at s' sent (CR c g (Nd q w u)) p a b O) as [_ [P _]]. exact P.
Qed.

(** Membership of a known address. *)
Ltac inid :=
  repeat match goal with
  | u : tr |- _ =>
      lazymatch goal with H : In (tid u) (ids u) |- _ => fail | _ => pose proof (tid_in_ids u) end
  end;
  repeat (cbn [ids cids In tid app]; rewrite ?in_app_iff); tauto.

Definition check_post (s s' : mem) (sent : N) (t t' : tr) : Prop :=
  okt s' sent t' /\ nodes t' = nodes t /\ Permutation (ids t') (ids t) /\ data_same s s'.

Lemma with_col_data : forall s f, data_same s (with_col s f).
Proof. intros; unfold data_same; ands; auto. Qed.

(** ** Balance: equal numbers of uncoloured nodes on all paths, no coloured node below a
    coloured one *)
Fixpoint bal (f : N -> bool) (t : tr) (n : nat) : Prop :=
  match t with
  | Lf i => f i = false /\ n = O
  | Nd i l r =>
      if f i then f (tid l) = false /\ f (tid r) = false /\ bal f l n /\ bal f r n
      else exists m, n = S m /\ bal f l m /\ bal f r m
  end.
Definition rpar (f : N -> bool) (c : ctx) : bool :=
  match c with Top => false | CL _ i _ => f i | CR _ i _ => f i end.
(** The same for a context whose hole has [n] uncoloured nodes. *)
Fixpoint cbal (f : N -> bool) (c : ctx) (n : nat) : Prop :=
  match c with
  | Top => True
  | CL c i u | CR c i u =>
      bal f u n /\ if f i then f (tid u) = false /\ rpar f c = false /\ cbal f c n else cbal f c (S n)
  end.
(** The hole is at one end. *)
Definition straight (c : ctx) : Prop := cafter c = [] \/ cbefore c = [].

Lemma bal_ext : forall t f g n, (forall i, In i (ids t) -> g i = f i) -> bal f t n -> bal g t n.
Proof.
  induction t as [i|i l IHl r IHr]; intros f g n E B; cbn [bal ids] in *.
  - rewrite E by (left; reflexivity). exact B.
  - rewrite E by (left; reflexivity).
    assert (El : forall j, In j (ids l) -> g j = f j) by (intros j Hj; apply E; right; apply in_or_app; auto).
    assert (Er : forall j, In j (ids r) -> g j = f j) by (intros j Hj; apply E; right; apply in_or_app; auto).
    destruct (f i).
    + destruct B as (A1 & A2 & A3 & A4). rewrite (El (tid l)), (Er (tid r)) by apply tid_in_ids. ands; eauto.
    + destruct B as (m & -> & A3 & A4). exists m; ands; eauto.
Qed.
Lemma cbal_ext : forall c f g n, (forall i, In i (cids c) -> g i = f i) -> cbal f c n -> cbal g c n.
Proof.
  assert (R : forall c f g, (forall i, In i (cids c) -> g i = f i) -> rpar g c = rpar f c).
  { intros [|c i u|c i u] f g E; cbn [rpar]; auto; apply E; left; reflexivity. }
  induction c as [|c IH i u|c IH i u]; intros f g n E B; cbn [cbal cids] in *; auto;
    ( assert (Eu : forall j, In j (ids u) -> g j = f j) by (intros j Hj; apply E; right; apply in_or_app; auto);
      assert (Ec : forall j, In j (cids c) -> g j = f j) by (intros j Hj; apply E; right; apply in_or_app; auto);
      rewrite E by (left; reflexivity); destruct B as (B1 & B2); split; [eapply bal_ext; eauto|];
      destruct (f i); [|eauto]; rewrite (R c f g Ec), (Eu (tid u)) by apply tid_in_ids; destruct B2 as (B2 & B3 & B4); ands; eauto ).
Qed.
Lemma plug_bal : forall c f t n, cbal f c n -> bal f t n -> (rpar f c = true -> f (tid t) = false) ->
  exists m, bal f (plug c t) m.
Proof.
  induction c as [|c IH i u|c IH i u]; intros f t n C B R; cbn [plug cbal rpar] in *; eauto.
  - destruct C as (B1 & C). destruct (f i) eqn:Fi.
    + destruct C as (C1 & C2 & C3). apply (IH f _ n C3); cbn [bal tid]; [rewrite Fi; ands; auto|congruence].
    + apply (IH f _ (S n) C); cbn [bal tid]; [rewrite Fi; exists n; ands; auto|congruence].
  - destruct C as (B1 & C). destruct (f i) eqn:Fi.
    + destruct C as (C1 & C2 & C3). apply (IH f _ n C3); cbn [bal tid]; [rewrite Fi; ands; auto|congruence].
    + apply (IH f _ (S n) C); cbn [bal tid]; [rewrite Fi; exists n; ands; auto|congruence].
Qed.
Lemma unplug_bal : forall c f t m, bal f (plug c t) m ->
  exists n, bal f t n /\ cbal f c n /\ (rpar f c = true -> f (tid t) = false).
Proof.
  induction c as [|c IH i u|c IH i u]; intros f t m B; cbn [plug cbal rpar] in *.
  - exists m; ands; auto. discriminate.
  - destruct (IH _ _ _ B) as (n & B1 & C & R). cbn [bal tid] in *. destruct (f i) eqn:Fi.
    + destruct B1 as (B1 & B2 & B3 & B4). exists n. ands; auto. destruct (rpar f c); auto.
    + destruct B1 as (k & -> & B3 & B4). exists k. ands; auto. congruence.
  - destruct (IH _ _ _ B) as (n & B1 & C & R). cbn [bal tid] in *. destruct (f i) eqn:Fi.
    + destruct B1 as (B1 & B2 & B3 & B4). exists n. ands; auto. destruct (rpar f c); auto.
    + destruct B1 as (k & -> & B3 & B4). exists k. ands; auto. congruence.
Qed.
(** Uncolouring the root. *)
Lemma bal_uncolour : forall t f g n, NoDup (ids t) -> bal f t n -> f (tid t) = true -> g (tid t) = false ->
  (forall i, In i (ids t) -> i <> tid t -> g i = f i) -> bal g t (S n).
Proof.
  intros [i|i l r] f g n ND B F G E; cbn [bal tid ids] in *; [destruct B; congruence|].
  rewrite G. rewrite F in B. destruct B as (_ & _ & B1 & B2). apply NoDup_cons_iff in ND. destruct ND as [NI _].
  exists n. ands; auto; (eapply bal_ext; [|eassumption]); intros j Hj; apply E; try (right; apply in_or_app; auto; fail);
    intros ->; apply NI; apply in_or_app; auto.
Qed.
Lemma straight_ll : forall c g u p v, straight (CL (CL c g u) p v) -> straight c.
Proof. intros c g u p v [S|S]; cbn [cafter cbefore] in S; [discriminate|right; exact S]. Qed.
Lemma straight_rr : forall c g u p v, straight (CR (CR c g u) p v) -> straight c.
Proof.
  intros c g u p v [S|S]; cbn [cafter cbefore] in S; [left; exact S|]. exfalso.
  apply (f_equal (@length _)) in S. rewrite !app_length in S. cbn in S. lia.
Qed.
Lemma straight_lr : forall c g u p v, ~ straight (CL (CR c g u) p v).
Proof.
  intros c g u p v [S|S]; cbn [cafter cbefore] in S; [discriminate|].
  apply (f_equal (@length _)) in S. rewrite !app_length in S. cbn in S. lia.
Qed.
Lemma straight_rl : forall c g u p v, ~ straight (CR (CL c g u) p v).
Proof.
  intros c g u p v [S|S]; cbn [cafter cbefore] in S; [discriminate|].
  apply (f_equal (@length _)) in S. rewrite !app_length in S. cbn in S. lia.
Qed.
(** What one insertion at an end keeps. *)
Definition keeps_even (f : N -> bool) (c : ctx) (t : tr) (f' : N -> bool) (t' : tr) : Prop :=
  forall n, straight c -> cbal f c n -> bal f t n -> f (tid t) = true -> exists m, bal f' t' m.

Lemma nd_ctx : forall s sent c t, okt s sent (plug c t) -> NoDup (ids t ++ cids c).
Proof.
  intros s sent c t [_ _ ND]. apply NoDup_cons_iff in ND. destruct ND as [_ ND].
  eapply Permutation_NoDup; [apply ids_plug|exact ND].
Qed.
(** A node [g], a node [p] with two trees below, another tree and a context: all apart. *)
Lemma apart5 : forall g p (X S U C : list N), NoDup (g :: p :: X ++ S ++ U ++ C) ->
  (~ In g (p :: X ++ S ++ U ++ C)) /\ (~ In p (X ++ S ++ U ++ C)) /\
  (forall i, In i X -> ~ In i (S ++ U ++ C)) /\ (forall i, In i S -> ~ In i (U ++ C)) /\ (forall i, In i U -> ~ In i C) /\ NoDup U.
Proof.
  assert (D : forall (a b : list N), NoDup (a ++ b) -> forall i, In i a -> ~ In i b).
  { intros a b ND i Ha Hb. exact (nodup_app_ne _ a b i i ND Ha Hb eq_refl). }
  intros g p X S U C ND. apply NoDup_cons_iff in ND. destruct ND as [N1 ND]. apply NoDup_cons_iff in ND. destruct ND as [N2 ND].
  pose proof (NoDup_app_remove_l _ _ _ ND) as ND2. pose proof (NoDup_app_remove_l _ _ _ ND2) as ND3.
  split; [exact N1|]. split; [exact N2|]. split; [exact (D _ _ ND)|]. split; [exact (D _ _ ND2)|]. split; [exact (D _ _ ND3)|].
  exact (NoDup_app_remove_r _ _ _ ND3).
Qed.
Lemma even_red : forall f c g u p sib xt n, NoDup (g :: p :: ids xt ++ ids sib ++ ids u ++ cids c) ->
  f p = true -> f (tid u) = true -> bal f sib n -> bal f u n -> f g = false -> cbal f c (S n) -> bal f xt n ->
  let f' := upN (upN (upN f p false) (tid u) false) g true in
  cbal f' c (S n) /\ f' g = true /\ f' p = false /\ f' (tid u) = false /\ bal f' u (S n) /\ bal f' xt n /\ bal f' sib n.
Proof.
  intros f c g u p sib xt n ND Fp Fu Bs Bu Fg C B f'.
  destruct (apart5 _ _ _ _ _ _ ND) as (A1 & A2 & A3 & A4 & A5 & A6). cbn [In] in A1. rewrite !in_app_iff in A1, A2.
  pose proof (tid_in_ids u) as Tu.
  assert (Pg : p <> g) by (intros ->; apply A1; left; reflexivity).
  assert (Ug : tid u <> g) by (intros E; rewrite E in *; tauto).
  assert (Up : tid u <> p) by (intros E; rewrite E in *; tauto).
  assert (Off : forall i, i <> g -> i <> p -> i <> tid u -> f' i = f i) by (intros i N1 N2 N3; unfold f'; rewrite !upN_other; auto).
  assert (F1 : f' g = true) by apply upN_same.
  assert (F2 : f' p = false) by (unfold f'; rewrite upN_other by auto; rewrite upN_other by auto; apply upN_same).
  assert (F3 : f' (tid u) = false) by (unfold f'; rewrite upN_other by auto; apply upN_same).
  ands; auto.
  - eapply cbal_ext; [|exact C]. intros i Hi. apply Off; intros ->; try tauto. apply (A5 (tid u)); auto.
  - eapply bal_uncolour; [exact A6|exact Bu|exact Fu|exact F3|]. intros i Hi Ni. apply Off; auto; intros ->; tauto.
  - eapply bal_ext; [|exact B]. intros i Hi. apply Off; intros ->; try tauto. apply (A3 (tid u) Hi). rewrite !in_app_iff; auto.
  - eapply bal_ext; [|exact Bs]. intros i Hi. apply Off; intros ->; try tauto. apply (A4 (tid u) Hi). rewrite !in_app_iff; auto.
Qed.
Lemma even_rot : forall f c g u p sib xt n, NoDup (g :: p :: ids xt ++ ids sib ++ ids u ++ cids c) ->
  f (tid sib) = false -> f (tid u) = false -> bal f sib n -> bal f u n -> cbal f c (S n) -> bal f xt n ->
  let f' := upN (upN f p false) g true in
  cbal f' c (S n) /\ f' g = true /\ f' p = false /\ f' (tid u) = false /\ f' (tid sib) = false /\
  bal f' u n /\ bal f' xt n /\ bal f' sib n.
Proof.
  intros f c g u p sib xt n ND Fs Fu Bs Bu C B f'.
  destruct (apart5 _ _ _ _ _ _ ND) as (A1 & A2 & A3 & A4 & A5 & A6). cbn [In] in A1. rewrite !in_app_iff in A1, A2.
  pose proof (tid_in_ids u) as Tu. pose proof (tid_in_ids sib) as Ts.
  assert (Pg : p <> g) by (intros ->; apply A1; left; reflexivity).
  assert (Off : forall i, i <> g -> i <> p -> f' i = f i) by (intros i N1 N2; unfold f'; rewrite !upN_other; auto).
  assert (F1 : f' g = true) by apply upN_same.
  assert (F2 : f' p = false) by (unfold f'; rewrite upN_other by auto; apply upN_same).
  ands; auto.
  - eapply cbal_ext; [|exact C]. intros i Hi. apply Off; intros ->; tauto.
  - rewrite Off; auto; intros E; rewrite E in *; tauto.
  - rewrite Off; auto; intros E; rewrite E in *; tauto.
  - eapply bal_ext; [|exact Bu]. intros i Hi. apply Off; intros ->; tauto.
  - eapply bal_ext; [|exact B]. intros i Hi. apply Off; intros ->; tauto.
  - eapply bal_ext; [|exact Bs]. intros i Hi. apply Off; intros ->; tauto.
Qed.

Lemma rebalance_loop_ok : forall fuel s sent c x l r node,
  okt s sent (plug c (Nd x l r)) -> (depth c < fuel)%nat ->
  (col s (tid (plug c (Nd x l r))) = false \/ c = Top) -> bare s node ->
  exists s' t', add_check_loop fuel s (tid (plug c (Nd x l r))) x node = Ok (tid t', s') /\
    check_post s s' sent (plug c (Nd x l r)) t' /\ keeps_even (col s) c (Nd x l r) (col s') t'.
Proof.
  induction fuel as [|fuel IH]; intros s sent c x l r node O D C B; [lia|].
  set (T := plug c (Nd x l r)) in *.
  assert (Stop : forall p, parent s x = Ok p -> kind s p <> Free -> col s p = false -> rpar (col s) c = false ->
    exists s' t', add_check_loop (S fuel) s (tid T) x node = Ok (tid t', s') /\
      check_post s s' sent T t' /\ keeps_even (col s) c (Nd x l r) (col s') t').
  { intros p P K Cp Rp. exists s, T. rewrite (loop_exit _ _ _ _ _ p P K Cp).
    unfold check_post, data_same; ands; auto.
    intros n _ Cb Bt _. apply (plug_bal c (col s) _ n Cb Bt). congruence. }
  destruct c as [|c p sib|c p sib].
  - (* root *) exists s, T. cbn [add_check_loop plug tid] in *.
    unfold T; cbn [plug tid]. rewrite N.eqb_refl. unfold check_post, data_same; ands; auto.
    intros n _ _ Bt _. eauto.
  - destruct C as [C|C]; [|discriminate].
    destruct (okt_at s sent (CL c p sib) x l r O) as [Kx [Px [Lx Rx]]]. cbn [pid] in Px.
    destruct (okt_at s sent c p (Nd x l r) sib O) as [Kp [Pp [Lp Rp]]].
    destruct (col s p) eqn:Cp; [|apply (Stop p); auto; congruence].
    assert (Nx : N.eqb x (tid T) = false).
    { apply N.eqb_neq. eapply (okt_ne s sent (CL c p sib) (Nd x l r)); [exact O|cbn; auto|].
      right. apply tid_plug_below; discriminate. }
    destruct c as [|c g u|c g u].
    { unfold T in C. cbn [plug tid] in C. congruence. }
    + (* p on the left of g, x on the left of p *)
      destruct (okt_at s sent c g (Nd p (Nd x l r) sib) u O) as [Kg [Pg [Lg Rg]]].
      cbn [pid tid] in *.
      assert (Lu : kind s (tid u) <> Free).
      { eapply okt_live; [exact O|]. right. apply (in_plug c). inid. }
      assert (Hpg : p <> g).
      { eapply (okt_ne s sent (CL c g u) (Nd p (Nd x l r) sib)); [exact O|cbn; auto|cbn; auto]. }
      cbn [add_check_loop]. rewrite Nx, Px. cbn [rbind]. rewrite colored_ok by congruence.
      cbn [rbind]. rewrite Cp. cbn [negb]. rewrite Pp. cbn [rbind]. rewrite Lg. cbn [rbind].
      rewrite N.eqb_refl, Rg. cbn [rbind]. rewrite colored_ok by auto. cbn [rbind].
      destruct (col s (tid u)) eqn:Cu.
      * rewrite set_color_ok by congruence. cbn [rbind].
        rewrite set_color_ok by exact Lu. cbn [rbind].
        rewrite set_color_ok by (cbn [with_col kind]; congruence). cbn [rbind].
        cbn [with_col kind lf pf rf col dat dkey dval nxt].
        match goal with |- context[add_check_loop fuel ?ss _ _ _] => set (s1 := ss) end.
        assert (O1 : okt s1 sent (plug c (Nd g (Nd p (Nd x l r) sib) u))).
        { eapply okt_links; [exact O| | | |]; reflexivity. }
        destruct (IH s1 sent c g (Nd p (Nd x l r) sib) u node O1) as [s' [t' [E [[P1 [P2 [P3 P4]]] KE]]]].
        -- cbn [depth] in D; lia.
        -- destruct c as [|c q w|c q w]; [auto|left|left].
           ++ assert (Hq : In (tid T) (sent :: cids (CL c q w))).
              { right. apply (tid_plug_below (CL c q w)); discriminate. }
              assert (Hn : forall i, In i (ids (Nd g (Nd p (Nd x l r) sib) u)) -> i <> tid T).
              { intros i Hi. eapply (okt_ne s sent (CL c q w)); [exact O|exact Hi|].
                destruct Hq; auto. }
              change (upN (upN (upN (col s) p false) (tid u) false) g true (tid T) = false).
              rewrite !upN_other; auto; apply not_eq_sym; apply Hn; inid.
           ++ assert (Hq : In (tid T) (sent :: cids (CR c q w))).
              { right. apply (tid_plug_below (CR c q w)); discriminate. }
              assert (Hn : forall i, In i (ids (Nd g (Nd p (Nd x l r) sib) u)) -> i <> tid T).
              { intros i Hi. eapply (okt_ne s sent (CR c q w)); [exact O|exact Hi|].
                destruct Hq; auto. }
              change (upN (upN (upN (col s) p false) (tid u) false) g true (tid T) = false).
              rewrite !upN_other; auto; apply not_eq_sym; apply Hn; inid.
        -- exact B.
        -- exists s', t'. split; [exact E|]. split; [unfold check_post; ands; auto|].
           intros n St Cb Bt Cx. cbn [cbal rpar] in Cb. rewrite Cp in Cb. destruct Cb as (C1 & C2 & C3 & C4 & C5). rewrite C3 in C5.
           destruct (even_red (col s) c g u p sib (Nd x l r) n) as (R1 & R2 & R3 & R4 & R5 & R6 & R7); auto.
           { eapply Permutation_NoDup; [|exact (nd_ctx s sent (CL (CL c g u) p sib) (Nd x l r) O)]. cbn [ids cids]. perm. }
           apply (KE (S n)); [eapply straight_ll; exact St|exact R1| |exact R2].
           change (col s1) with (upN (upN (upN (col s) p false) (tid u) false) g true).
           cbn [bal tid]. rewrite R2, R3. cbn [bal tid] in R6. split; [reflexivity|]. split; [exact R4|]. split; [exists n; split; [reflexivity|split; [exact R6|exact R7]]|exact R5].
      * rewrite Rp. cbn [rbind].
        assert (Nsib : N.eqb x (tid sib) = false).
        { apply N.eqb_neq. eapply (okt_ne s sent (CL (CL c g u) p sib) (Nd x l r)); [exact O|cbn; auto|].
          inid. }
        rewrite Nsib. cbn [rbind]. rewrite Px. cbn [rbind].
        rewrite set_color_ok by congruence. cbn [rbind]. rewrite parent_col, Pp. cbn [rbind].
        rewrite set_color_ok by (cbn [with_col kind]; congruence). cbn [rbind].
        cbn [with_col kind lf pf rf col dat dkey dval nxt].
        match goal with |- context[tree_rrot ?ss _ _] => set (s1 := ss) end.
        assert (O1 : okt s1 sent (plug c (Nd g (Nd p (Nd x l r) sib) u))).
        { eapply okt_links; [exact O| | | |]; reflexivity. }
        destruct (rrot_plug _ _ _ _ _ _ O1) as [s2 [E2 [O2 LO]]].
        change (tid T) with (tid (plug c (Nd g (Nd p (Nd x l r) sib) u))).
        rewrite E2. cbn [rbind]. cbn [rrot_t] in *.
        destruct (okt_at s2 sent (CL c p (Nd g sib u)) x l r O2) as [_ [Px2 _]].
        destruct fuel as [|fuel]; [cbn [depth] in D; lia|].
        destruct LO as [LK [LC [LD [LDK [LDV LN]]]]].
        rewrite (loop_exit fuel s2 _ x node p Px2).
        -- exists s2, (plug c (Nd p (Nd x l r) (Nd g sib u))). split; [reflexivity|].
           unfold check_post, T. split; [ands; auto|intros n St Cb Bt Cx; cbn [cbal rpar] in Cb; rewrite Cp in Cb; destruct Cb as (C1 & C2 & C3 & C4 & C5); rewrite C3 in C5;
             destruct (even_rot (col s) c g u p sib (Nd x l r) n) as (R1 & R2 & R3 & R4 & R5 & R6 & R7 & R8); auto;
             [eapply Permutation_NoDup; [|exact (nd_ctx s sent (CL (CL c g u) p sib) (Nd x l r) O)]; cbn [ids cids]; perm|];
             rewrite LC; change (col s1) with (upN (upN (col s) p false) g true);
             apply (plug_bal c _ _ (S n) R1); [|intros _; exact R3];
             cbn [bal tid]; rewrite R3, R2; exists n; split; [reflexivity|split; [exact R7|split; [exact R5|split; [exact R4|split; [exact R8|exact R6]]]]]].
           ++ cbn [plug]. rewrite !nodes_plug. f_equal. f_equal.
              apply (nodes_rrot (Nd g (Nd p (Nd x l r) sib) u)).
           ++ cbn [plug]. rewrite !ids_plug. apply Permutation_app_tail.
              apply (ids_rrot (Nd g (Nd p (Nd x l r) sib) u)).
           ++ unfold data_same. rewrite LK, LD, LDK, LDV, LN. ands; auto.
        -- rewrite LK. unfold s1; cbn [kind with_col]. congruence.
        -- rewrite LC. unfold s1; cbn [col with_col]. rewrite upN_other by auto. apply upN_same.
    + (* p on the right of g, x on the left of p: the inner case *)
      destruct (okt_at s sent c g u (Nd p (Nd x l r) sib) O) as [Kg [Pg [Lg Rg]]].
      cbn [pid tid] in *.
      assert (Lu : kind s (tid u) <> Free).
      { eapply okt_live; [exact O|]. right. apply (in_plug c). inid. }
      assert (Hpu : N.eqb p (tid u) = false).
      { apply N.eqb_neq. eapply (okt_ne s sent (CR c g u) (Nd p (Nd x l r) sib)); [exact O|cbn; auto|].
        inid. }
      cbn [add_check_loop]. rewrite Nx, Px. cbn [rbind]. rewrite colored_ok by congruence.
      cbn [rbind]. rewrite Cp. cbn [negb]. rewrite Pp. cbn [rbind]. rewrite Lg. cbn [rbind].
      rewrite Hpu. cbn [rbind]. rewrite colored_ok by auto. cbn [rbind].
      destruct (col s (tid u)) eqn:Cu.
      * rewrite set_color_ok by congruence. cbn [rbind].
        rewrite set_color_ok by exact Lu. cbn [rbind].
        rewrite set_color_ok by (cbn [with_col kind]; congruence). cbn [rbind].
        cbn [with_col kind lf pf rf col dat dkey dval nxt].
        match goal with |- context[add_check_loop fuel ?ss _ _ _] => set (s1 := ss) end.
        assert (O1 : okt s1 sent (plug c (Nd g u (Nd p (Nd x l r) sib)))).
        { eapply okt_links; [exact O| | | |]; reflexivity. }
        destruct (IH s1 sent c g u (Nd p (Nd x l r) sib) node O1) as [s' [t' [E [[P1 [P2 [P3 P4]]] KE]]]].
        -- cbn [depth] in D; lia.
        -- assert (Hq : c <> Top -> In (tid T) (cids c)).
           { intros Hc. unfold T; cbn [plug]. apply tid_plug_below; auto. }
           destruct c as [|c q w|c q w]; [auto|left|left];
           ( assert (Hn : forall i, In i (ids (Nd g u (Nd p (Nd x l r) sib))) -> i <> tid T);
             [ intros i Hi; refine (okt_ne s1 sent _ _ i (tid T) O1 Hi _); right; apply Hq; discriminate
             | change (upN (upN (upN (col s) p false) (tid u) false) g true (tid T) = false);
               rewrite !upN_other; auto; apply not_eq_sym; apply Hn; inid ]).
        -- exact B.
        -- exists s', t'. split; [exact E|]. split; [unfold check_post; ands; auto|].
           intros n St. exfalso. revert St. apply straight_lr.
      * rewrite Lp. cbn [rbind tid]. rewrite N.eqb_refl.
        destruct (bare_rot s (tid T) node B) as [_ Er]. rewrite Er. cbn [rbind].
        rewrite Pp. cbn [rbind]. rewrite set_color_ok by congruence. cbn [rbind].
        rewrite parent_col, Pg. cbn [rbind].
        assert (Lgg : kind s (pid c sent) <> Free).
        { eapply okt_live; [exact O|]. destruct (pid_in c sent) as [->|Hin]; [left; auto|right].
          eapply Permutation_in; [symmetry; apply (ids_plug c (Nd g u (Nd p (Nd x l r) sib)))|].
          apply in_or_app; auto. }
        rewrite set_color_ok by exact Lgg. cbn [rbind].
        cbn [with_col kind lf pf rf col dat dkey dval nxt].
        match goal with |- context[tree_lrot ?ss _ _] => set (s1 := ss) end.
        assert (O1 : okt s1 sent (plug c (Nd g u (Nd p (Nd x l r) sib)))).
        { eapply okt_links; [exact O| | | |]; reflexivity. }
        destruct (last_rot_right s1 sent c g (Nd p (Nd x l r) sib) u O1) as
          [s2 [t2 [E2 [O2 [N2 [I2 [LO P2]]]]]]]; [do 3 eexists; reflexivity|].
        change (tid T) with (tid (plug c (Nd g u (Nd p (Nd x l r) sib)))).
        rewrite E2. cbn [rbind]. cbn [tid] in P2.
        destruct fuel as [|fuel]; [cbn [depth] in D; lia|].
        destruct LO as [LK [LC [LD [LDK [LDV LN]]]]].
        rewrite (loop_exit fuel s2 _ p node g P2).
        -- exists s2, t2. split; [reflexivity|]. split; [|intros n St; exfalso; revert St; first [apply straight_lr|apply straight_rl]].
           unfold check_post, T. ands; auto. unfold data_same. rewrite LK, LD, LDK, LDV, LN. ands; auto.
        -- rewrite LK. unfold s1; cbn [kind with_col]. congruence.
        -- rewrite LC. unfold s1; cbn [col with_col]. rewrite upN_other, upN_same; auto.
           eapply (okt_ne s sent c (Nd g u (Nd p (Nd x l r) sib))); [exact O|cbn; auto|apply pid_in].
  - destruct C as [C|C]; [|discriminate].
    destruct (okt_at s sent (CR c p sib) x l r O) as [Kx [Px [Lx Rx]]]. cbn [pid] in Px.
    destruct (okt_at s sent c p sib (Nd x l r) O) as [Kp [Pp [Lp Rp]]].
    destruct (col s p) eqn:Cp; [|apply (Stop p); auto; congruence].
    assert (Nx : N.eqb x (tid T) = false).
    { apply N.eqb_neq. eapply (okt_ne s sent (CR c p sib) (Nd x l r)); [exact O|cbn; auto|].
      right. apply tid_plug_below; discriminate. }
    destruct c as [|c g u|c g u].
    { unfold T in C. cbn [plug tid] in C. congruence. }
    + (* p on the left of g, x on the right of p: the inner case *)
      destruct (okt_at s sent c g (Nd p sib (Nd x l r)) u O) as [Kg [Pg [Lg Rg]]].
      cbn [pid tid] in *.
      assert (Lu : kind s (tid u) <> Free).
      { eapply okt_live; [exact O|]. right. apply (in_plug c). inid. }
      cbn [add_check_loop]. rewrite Nx, Px. cbn [rbind]. rewrite colored_ok by congruence.
      cbn [rbind]. rewrite Cp. cbn [negb]. rewrite Pp. cbn [rbind]. rewrite Lg. cbn [rbind].
      rewrite N.eqb_refl, Rg. cbn [rbind]. rewrite colored_ok by auto. cbn [rbind].
      destruct (col s (tid u)) eqn:Cu.
      * rewrite set_color_ok by congruence. cbn [rbind].
        rewrite set_color_ok by exact Lu. cbn [rbind].
        rewrite set_color_ok by (cbn [with_col kind]; congruence). cbn [rbind].
        cbn [with_col kind lf pf rf col dat dkey dval nxt].
        match goal with |- context[add_check_loop fuel ?ss _ _ _] => set (s1 := ss) end.
        assert (O1 : okt s1 sent (plug c (Nd g (Nd p sib (Nd x l r)) u))).
        { eapply okt_links; [exact O| | | |]; reflexivity. }
        destruct (IH s1 sent c g (Nd p sib (Nd x l r)) u node O1) as [s' [t' [E [[P1 [P2 [P3 P4]]] KE]]]].
        -- cbn [depth] in D; lia.
        -- assert (Hq : c <> Top -> In (tid T) (cids c)).
           { intros Hc. unfold T; cbn [plug]. apply tid_plug_below; auto. }
           destruct c as [|c q w|c q w]; [auto|left|left];
           ( assert (Hn : forall i, In i (ids (Nd g (Nd p sib (Nd x l r)) u)) -> i <> tid T);
             [ intros i Hi; refine (okt_ne s1 sent _ _ i (tid T) O1 Hi _); right; apply Hq; discriminate
             | change (upN (upN (upN (col s) p false) (tid u) false) g true (tid T) = false);
               rewrite !upN_other; auto; apply not_eq_sym; apply Hn; inid ]).
        -- exact B.
        -- exists s', t'. split; [exact E|]. split; [unfold check_post; ands; auto|].
           intros n St. exfalso. revert St. apply straight_rl.
      * rewrite Rp. cbn [rbind tid]. rewrite N.eqb_refl.
        destruct (bare_rot s (tid T) node B) as [Er _]. rewrite Er. cbn [rbind].
        rewrite Pp. cbn [rbind]. rewrite set_color_ok by congruence. cbn [rbind].
        rewrite parent_col, Pg. cbn [rbind].
        assert (Lgg : kind s (pid c sent) <> Free).
        { eapply okt_live; [exact O|]. destruct (pid_in c sent) as [->|Hin]; [left; auto|right].
          eapply Permutation_in; [symmetry; apply (ids_plug c (Nd g (Nd p sib (Nd x l r)) u))|].
          apply in_or_app; auto. }
        rewrite set_color_ok by exact Lgg. cbn [rbind].
        cbn [with_col kind lf pf rf col dat dkey dval nxt].
        match goal with |- context[tree_rrot ?ss _ _] => set (s1 := ss) end.
        assert (O1 : okt s1 sent (plug c (Nd g (Nd p sib (Nd x l r)) u))).
        { eapply okt_links; [exact O| | | |]; reflexivity. }
        destruct (last_rot_left s1 sent c g (Nd p sib (Nd x l r)) u O1) as
          [s2 [t2 [E2 [O2 [N2 [I2 [LO P2]]]]]]]; [do 3 eexists; reflexivity|].
        change (tid T) with (tid (plug c (Nd g (Nd p sib (Nd x l r)) u))).
        rewrite E2. cbn [rbind]. cbn [tid] in P2.
        destruct fuel as [|fuel]; [cbn [depth] in D; lia|].
        destruct LO as [LK [LC [LD [LDK [LDV LN]]]]].
        rewrite (loop_exit fuel s2 _ p node g P2).
        -- exists s2, t2. split; [reflexivity|]. split; [|intros n St; exfalso; revert St; first [apply straight_lr|apply straight_rl]].
           unfold check_post, T. ands; auto. unfold data_same. rewrite LK, LD, LDK, LDV, LN. ands; auto.
        -- rewrite LK. unfold s1; cbn [kind with_col]. congruence.
        -- rewrite LC. unfold s1; cbn [col with_col]. rewrite upN_other, upN_same; auto.
           eapply (okt_ne s sent c (Nd g (Nd p sib (Nd x l r)) u)); [exact O|cbn; auto|apply pid_in].
    + (* p on the right of g, x on the right of p *)
      destruct (okt_at s sent c g u (Nd p sib (Nd x l r)) O) as [Kg [Pg [Lg Rg]]].
      cbn [pid tid] in *.
      assert (Lu : kind s (tid u) <> Free).
      { eapply okt_live; [exact O|]. right. apply (in_plug c). inid. }
      assert (Hpu : N.eqb p (tid u) = false).
      { apply N.eqb_neq. eapply (okt_ne s sent (CR c g u) (Nd p sib (Nd x l r))); [exact O|cbn; auto|].
        inid. }
      assert (Hpg : p <> g).
      { eapply (okt_ne s sent (CR c g u) (Nd p sib (Nd x l r))); [exact O|cbn; auto|cbn; auto]. }
      cbn [add_check_loop]. rewrite Nx, Px. cbn [rbind]. rewrite colored_ok by congruence.
      cbn [rbind]. rewrite Cp. cbn [negb]. rewrite Pp. cbn [rbind]. rewrite Lg. cbn [rbind].
      rewrite Hpu. cbn [rbind]. rewrite colored_ok by auto. cbn [rbind].
      destruct (col s (tid u)) eqn:Cu.
      * rewrite set_color_ok by congruence. cbn [rbind].
        rewrite set_color_ok by exact Lu. cbn [rbind].
        rewrite set_color_ok by (cbn [with_col kind]; congruence). cbn [rbind].
        cbn [with_col kind lf pf rf col dat dkey dval nxt].
        match goal with |- context[add_check_loop fuel ?ss _ _ _] => set (s1 := ss) end.
        assert (O1 : okt s1 sent (plug c (Nd g u (Nd p sib (Nd x l r))))).
        { eapply okt_links; [exact O| | | |]; reflexivity. }
        destruct (IH s1 sent c g u (Nd p sib (Nd x l r)) node O1) as [s' [t' [E [[P1 [P2 [P3 P4]]] KE]]]].
        -- cbn [depth] in D; lia.
        -- assert (Hq : c <> Top -> In (tid T) (cids c)).
           { intros Hc. unfold T; cbn [plug]. apply tid_plug_below; auto. }
           destruct c as [|c q w|c q w]; [auto|left|left];
           ( assert (Hn : forall i, In i (ids (Nd g u (Nd p sib (Nd x l r)))) -> i <> tid T);
             [ intros i Hi; refine (okt_ne s1 sent _ _ i (tid T) O1 Hi _); right; apply Hq; discriminate
             | change (upN (upN (upN (col s) p false) (tid u) false) g true (tid T) = false);
               rewrite !upN_other; auto; apply not_eq_sym; apply Hn; inid ]).
        -- exact B.
        -- exists s', t'. split; [exact E|]. split; [unfold check_post; ands; auto|].
           intros n St Cb Bt Cx. cbn [cbal rpar] in Cb. rewrite Cp in Cb. destruct Cb as (C1 & C2 & C3 & C4 & C5). rewrite C3 in C5.
           destruct (even_red (col s) c g u p sib (Nd x l r) n) as (R1 & R2 & R3 & R4 & R5 & R6 & R7); auto.
           { eapply Permutation_NoDup; [|exact (nd_ctx s sent (CR (CR c g u) p sib) (Nd x l r) O)]. cbn [ids cids]. perm. }
           apply (KE (S n)); [eapply straight_rr; exact St|exact R1| |exact R2].
           change (col s1) with (upN (upN (upN (col s) p false) (tid u) false) g true).
           cbn [bal tid]. rewrite R2, R3. cbn [bal tid] in R6. split; [exact R4|]. split; [reflexivity|]. split; [exact R5|exists n; split; [reflexivity|split; [exact R7|exact R6]]].
      * rewrite Lp. cbn [rbind].
        assert (Nsib : N.eqb x (tid sib) = false).
        { apply N.eqb_neq. eapply (okt_ne s sent (CR (CR c g u) p sib) (Nd x l r)); [exact O|cbn; auto|].
          inid. }
        rewrite Nsib. cbn [rbind]. rewrite Px. cbn [rbind].
        rewrite set_color_ok by congruence. cbn [rbind]. rewrite parent_col, Pp. cbn [rbind].
        rewrite set_color_ok by (cbn [with_col kind]; congruence). cbn [rbind].
        cbn [with_col kind lf pf rf col dat dkey dval nxt].
        match goal with |- context[tree_lrot ?ss _ _] => set (s1 := ss) end.
        assert (O1 : okt s1 sent (plug c (Nd g u (Nd p sib (Nd x l r))))).
        { eapply okt_links; [exact O| | | |]; reflexivity. }
        destruct (lrot_plug _ _ _ _ _ _ O1) as [s2 [E2 [O2 LO]]].
        change (tid T) with (tid (plug c (Nd g u (Nd p sib (Nd x l r))))).
        rewrite E2. cbn [rbind]. cbn [lrot_t] in *.
        destruct (okt_at s2 sent (CR c p (Nd g u sib)) x l r O2) as [_ [Px2 _]].
        destruct fuel as [|fuel]; [cbn [depth] in D; lia|].
        destruct LO as [LK [LC [LD [LDK [LDV LN]]]]].
        rewrite (loop_exit fuel s2 _ x node p Px2).
        -- exists s2, (plug c (Nd p (Nd g u sib) (Nd x l r))). split; [reflexivity|].
           unfold check_post, T. split; [ands; auto|intros n St Cb Bt Cx; cbn [cbal rpar] in Cb; rewrite Cp in Cb; destruct Cb as (C1 & C2 & C3 & C4 & C5); rewrite C3 in C5;
             destruct (even_rot (col s) c g u p sib (Nd x l r) n) as (R1 & R2 & R3 & R4 & R5 & R6 & R7 & R8); auto;
             [eapply Permutation_NoDup; [|exact (nd_ctx s sent (CR (CR c g u) p sib) (Nd x l r) O)]; cbn [ids cids]; perm|];
             rewrite LC; change (col s1) with (upN (upN (col s) p false) g true);
             apply (plug_bal c _ _ (S n) R1); [|intros _; exact R3];
             cbn [bal tid]; rewrite R3, R2; exists n; split; [reflexivity|split; [split; [exact R4|split; [exact R5|split; [exact R6|exact R8]]]|exact R7]]].
           ++ cbn [plug]. rewrite !nodes_plug. f_equal. f_equal.
              apply (nodes_lrot (Nd g u (Nd p sib (Nd x l r)))).
           ++ cbn [plug]. rewrite !ids_plug. apply Permutation_app_tail.
              apply (ids_lrot (Nd g u (Nd p sib (Nd x l r)))).
           ++ unfold data_same. rewrite LK, LD, LDK, LDV, LN. ands; auto.
        -- rewrite LK. unfold s1; cbn [kind with_col]. congruence.
        -- rewrite LC. unfold s1; cbn [col with_col]. rewrite upN_other by auto. apply upN_same.
Qed.

(** ** Order *)

Notation ssorted := (StronglySorted sym_lt).
Definition key (s : mem) (i : N) : symbol := dkey s (dat s i).

Lemma ssorted_app : forall a b, ssorted (a ++ b) <->
  ssorted a /\ ssorted b /\ (forall x y, In x a -> In y b -> sym_lt x y).
Proof.
  induction a as [|z a IH]; intros b; cbn [app].
  - split; [intros H; ands; auto; [constructor|intros ? ? []]|tauto].
  - split.
    + intros H. inversion H as [|? ? H1 H2]; subst. apply IH in H1. destruct H1 as [A [B C]].
      rewrite Forall_app in H2. destruct H2 as [F1 F2]. ands; auto.
      * constructor; auto.
      * intros x y [<-|Hx] Hy; auto. rewrite Forall_forall in F2; auto.
    + intros [A [B C]]. inversion A as [|? ? A1 A2]; subst. constructor.
      * apply IH. ands; auto. intros x y Hx Hy; apply C; cbn; auto.
      * rewrite Forall_app. split; auto. apply Forall_forall. intros y Hy. apply C; cbn; auto.
Qed.

Lemma descend_ok : forall t c fuel s sent k y,
  okt s sent (plug c t) -> ssorted (map (key s) (nodes (plug c t))) ->
  (forall i, In i (cbefore c) -> sym_lt (key s i) k) ->
  (forall i, In i (cafter c) -> sym_lt k (key s i)) ->
  (height t < fuel)%nat -> (forall i, t = Lf i -> y = pid c sent) ->
  (exists x c' l r, descend fuel s k y (tid t) = Ok (inr x) /\ key s x = k /\
     plug c' (Nd x l r) = plug c t) \/
  (exists c' i, descend fuel s k y (tid t) = Ok (inl (pid c' sent)) /\ plug c' (Lf i) = plug c t /\
     (forall j, In j (cbefore c') -> sym_lt (key s j) k) /\
     (forall j, In j (cafter c') -> sym_lt k (key s j))).
Proof.
  induction t as [i|x l IHl r IHr]; intros c fuel s sent k y O SS HB HA HF HY;
    (destruct fuel as [|fuel]; [lia|]); cbn [descend tid].
  - right. exists c, i. pose proof (plug_parts _ _ _ _ O) as [_ K]. cbn [rt] in K.
    unfold isnull. rewrite K. cbn [rbind]. rewrite (HY i eq_refl). ands; auto.
  - destruct (okt_at _ _ _ _ _ _ O) as [K [P [L R]]].
    unfold isnull, nkey, on_node. rewrite K. cbn [rbind]. unfold sym_compare.
    assert (Hl : forall i, In i (nodes l) -> sym_lt (key s i) (key s x)).
    { rewrite nodes_plug in SS. cbn [nodes] in SS. rewrite !map_app in SS. cbn [map] in SS.
      apply ssorted_app in SS. destruct SS as [_ [SS _]].
      apply ssorted_app in SS. destruct SS as [SS _].
      apply ssorted_app in SS. destruct SS as [_ [_ SS]].
      intros i Hi. apply SS; [apply in_map; auto|left; auto]. }
    assert (Hr : forall i, In i (nodes r) -> sym_lt (key s x) (key s i)).
    { rewrite nodes_plug in SS. cbn [nodes] in SS. rewrite !map_app in SS. cbn [map] in SS.
      apply ssorted_app in SS. destruct SS as [_ [SS _]].
      apply ssorted_app in SS. destruct SS as [SS _].
      apply ssorted_app in SS. destruct SS as [_ [SS _]].
      inversion SS as [|? ? _ F]; subst. rewrite Forall_forall in F.
      intros i Hi. apply F, in_map; auto. }
    cbn [height] in HF.
    destruct (memcmp k (dkey s (dat s x))) eqn:E.
    + apply memcmp_eq in E. left. exists x, c, l, r. ands; auto.
    + apply memcmp_lt in E. rewrite L. cbn [rbind].
      apply (IHl (CL c x r)); auto; [|lia].
      cbn [cafter]. intros i [<-|Hi]; [exact E|]. apply in_app_iff in Hi. destruct Hi as [Hi|Hi]; auto.
      eapply sym_lt_trans; [exact E|apply Hr; auto].
    + apply memcmp_gt in E. rewrite R. cbn [rbind].
      apply (IHr (CR c x l)); auto; [|lia].
      cbn [cbefore]. intros i Hi. rewrite !in_app_iff in Hi. cbn [In] in Hi.
      destruct Hi as [Hi|[Hi|[<-|[]]]]; auto.
      eapply sym_lt_trans; [apply Hl; auto|exact E].
Qed.

Lemma search_ok : forall t c fuel s sent k,
  okt s sent (plug c t) -> ssorted (map (key s) (nodes (plug c t))) ->
  (forall i, In i (cbefore c) -> sym_lt (key s i) k) ->
  (forall i, In i (cafter c) -> sym_lt k (key s i)) ->
  (height t < fuel)%nat ->
  (exists x, search fuel s k (tid t) = Ok (Some x) /\ key s x = k /\
     In x (nodes (plug c t)) /\ kind s x = NodeC) \/
  (search fuel s k (tid t) = Ok None /\ forall i, In i (nodes (plug c t)) -> key s i <> k).
Proof.
  induction t as [i|x l IHl r IHr]; intros c fuel s sent k O SS HB HA HF;
    (destruct fuel as [|fuel]; [lia|]); cbn [search tid].
  - right. pose proof (plug_parts _ _ _ _ O) as [_ K]. cbn [rt] in K.
    unfold isnull. rewrite K. cbn [rbind]. split; auto.
    intros j Hj. rewrite nodes_plug in Hj. cbn [nodes app] in Hj. apply in_app_iff in Hj.
    intros E. destruct Hj as [Hj|Hj].
    + apply HB in Hj. rewrite E in Hj. apply sym_lt_irrefl in Hj; auto.
    + apply HA in Hj. rewrite E in Hj. apply sym_lt_irrefl in Hj; auto.
  - destruct (okt_at _ _ _ _ _ _ O) as [K [P [L R]]].
    unfold isnull, nkey, on_node. rewrite K. cbn [rbind]. unfold sym_compare.
    assert (Hl : forall i, In i (nodes l) -> sym_lt (key s i) (key s x)).
    { rewrite nodes_plug in SS. cbn [nodes] in SS. rewrite !map_app in SS. cbn [map] in SS.
      apply ssorted_app in SS. destruct SS as [_ [SS _]].
      apply ssorted_app in SS. destruct SS as [SS _].
      apply ssorted_app in SS. destruct SS as [_ [_ SS]].
      intros i Hi. apply SS; [apply in_map; auto|left; auto]. }
    assert (Hr : forall i, In i (nodes r) -> sym_lt (key s x) (key s i)).
    { rewrite nodes_plug in SS. cbn [nodes] in SS. rewrite !map_app in SS. cbn [map] in SS.
      apply ssorted_app in SS. destruct SS as [_ [SS _]].
      apply ssorted_app in SS. destruct SS as [SS _].
      apply ssorted_app in SS. destruct SS as [_ [SS _]].
      inversion SS as [|? ? _ F]; subst. rewrite Forall_forall in F.
      intros i Hi. apply F, in_map; auto. }
    cbn [height] in HF.
    destruct (sym_match (dkey s (dat s x)) k) eqn:M.
    + apply sym_match_eq in M. left. exists x. ands; auto.
      rewrite nodes_plug. cbn [nodes]. rewrite !in_app_iff. cbn; auto.
    + assert (Hne : dkey s (dat s x) <> k) by (intros E; apply sym_match_eq in E; congruence).
      destruct (memcmp (dkey s (dat s x)) k) eqn:E.
      * apply memcmp_eq in E; congruence.
      * apply memcmp_lt in E. rewrite R. cbn [rbind].
        apply (IHr (CR c x l)) with (sent := sent); auto; [|lia].
        cbn [cbefore]. intros i Hi. rewrite !in_app_iff in Hi. cbn [In] in Hi.
        destruct Hi as [Hi|[Hi|[<-|[]]]]; auto.
        eapply sym_lt_trans; [apply Hl; auto|exact E].
      * apply memcmp_gt in E. rewrite L. cbn [rbind].
        apply (IHl (CL c x r)) with (sent := sent); auto; [|lia].
        cbn [cafter]. intros i [<-|Hi]; [exact E|]. apply in_app_iff in Hi. destruct Hi as [Hi|Hi]; auto.
        eapply sym_lt_trans; [exact E|apply Hr; auto].
Qed.

(** ** The state invariant *)

Record wft (s : mem) (sent : N) (t : tr) : Prop := mkwft {
  w_ok : okt s sent t;
  w_lt : forall i, In i (sent :: ids t) -> i < nxt s;
  w_dat : forall i, In i (nodes t) -> dat s i < nxt s;
  w_sorted : ssorted (map (key s) (nodes t)) }.

Definition is_nd (t : tr) : Prop := match t with Lf _ => False | Nd _ _ _ => True end.

Inductive good : N * mem -> Prop :=
| good_empty : forall root s, kind s root = NilC -> root < nxt s -> good (root, s)
| good_tree : forall s sent t, wft s sent t -> is_nd t -> col s (tid t) = false ->
    good (tid t, s).

Lemma below_length : forall (l : list N) n, NoDup l -> (forall i, In i l -> i < n) ->
  (length l <= N.to_nat n)%nat.
Proof.
  intros l n ND H.
  rewrite <- (map_length N.to_nat l), <- (seq_length (N.to_nat n) 0).
  apply NoDup_incl_length.
  - apply FinFun.Injective_map_NoDup; auto. intros a b; apply N2Nat.inj.
  - intros x Hx. apply in_map_iff in Hx. destruct Hx as [y [<- Hy]]. apply H in Hy.
    apply in_seq. lia.
Qed.
Lemma height_ids : forall t, (height t < length (ids t))%nat.
Proof.
  induction t as [i|i l IHl r IHr]; cbn [height ids length]; [lia|].
  rewrite app_length. lia.
Qed.
Lemma depth_cids : forall c, (depth c <= length (cids c))%nat.
Proof. induction c as [|c IH i r|c IH i l]; cbn [depth cids length]; rewrite ?app_length; lia. Qed.

Lemma wft_height : forall s sent t, wft s sent t -> (height t < N.to_nat (nxt s))%nat.
Proof.
  intros s sent t [O B _ _]. pose proof (height_ids t).
  assert (length (sent :: ids t) <= N.to_nat (nxt s))%nat.
  { apply below_length; auto. destruct O; auto. }
  cbn [length] in *. lia.
Qed.
Lemma wft_depth : forall s sent c t, wft s sent (plug c t) -> (depth c < N.to_nat (nxt s))%nat.
Proof.
  intros s sent c t [O B _ _]. pose proof (depth_cids c).
  assert (length (sent :: ids (plug c t)) <= N.to_nat (nxt s))%nat.
  { apply below_length; auto. destruct O; auto. }
  cbn [length] in *. rewrite (Permutation_length (ids_plug c t)), app_length in *.
  pose proof (height_ids t). lia.
Qed.

(** Lookup in a good state. *)
Lemma get_tree : forall s sent t k, wft s sent t -> is_nd t ->
  (exists x, tree_get_node s (tid t) k = Ok (Some x) /\ tree_get s (tid t) k = Ok (Some (dat s x)) /\
     key s x = k /\ In x (nodes t) /\ kind s x = NodeC) \/
  (tree_get_node s (tid t) k = Ok None /\ tree_get s (tid t) k = Ok None /\
   forall i, In i (nodes t) -> key s i <> k).
Proof.
  intros s sent t k W Hn.
  assert (Kt : kind s (tid t) = NodeC).
  { destruct W as [O _ _ _]. destruct t as [|x l r]; [destruct Hn|].
    apply (okt_kind s sent Top x l r O). }
  unfold tree_get, tree_get_node, isnull. rewrite Kt. cbn [rbind].
  destruct (search_ok t Top (loop_fuel s) s sent k) as [[x [E [K [I KD]]]]|[E F]].
  - apply (w_ok _ _ _ W).
  - apply (w_sorted _ _ _ W).
  - intros i [].
  - intros i [].
  - pose proof (wft_height _ _ _ W). unfold loop_fuel. lia.
  - left. exists x. rewrite E. cbn [rbind]. unfold data, on_node. rewrite KD. cbn [rbind]. ands; auto.
  - right. rewrite E. cbn [rbind]. ands; auto.
Qed.

Lemma sorted_key_inj : forall s l i j, ssorted (map (key s) l) -> In i l -> In j l ->
  key s i = key s j -> i = j.
Proof.
  induction l as [|z l IH]; cbn [map In]; intros i j SS Hi Hj E; [tauto|].
  inversion SS as [|? ? S1 F]; subst. rewrite Forall_forall in F.
  assert (G : forall w, In w l -> sym_lt (key s z) (key s w)) by (intros; apply F, in_map; auto).
  destruct Hi as [<-|Hi], Hj as [<-|Hj]; auto.
  - apply G in Hj. rewrite E in Hj. apply sym_lt_irrefl in Hj; tauto.
  - apply G in Hi. rewrite E in Hi. apply sym_lt_irrefl in Hi; tauto.
Qed.

(** Placing a fresh node at a leaf. *)
Lemma link_left : forall s sent c y rr i node a b,
  okt s sent (plug (CL c y rr) (Lf i)) ->
  kind s node = NodeC -> pf s node = y -> lf s node = a -> rf s node = b ->
  kind s a = NilC -> kind s b = NilC ->
  NoDup (node :: a :: b :: sent :: ids (plug (CL c y rr) (Lf i))) ->
  let s' := mkmem (upN (kind s) i Free) (upN (lf s) y node) (pf s) (rf s) (col s) (dat s)
                  (dkey s) (dval s) (nxt s) in
  okt s' sent (plug (CL c y rr) (Nd node (Lf a) (Lf b))).
Proof.
  intros s sent c y rr i node a b O Kn Pn Ln Rn Ka Kb ND s'.
  pose proof (plug_parts _ _ _ _ O) as [RC RT]. cbn [rc tid] in RC.
  destruct RC as [Ky [Ly [Ry [Py [Rr RC]]]]].
  assert (ND' : NoDup (node :: a :: b :: i :: y :: sent :: ids rr ++ cids c)).
  { eapply Permutation_NoDup; [|exact ND]. rewrite ids_plug. cbn [ids cids]. perm. }
  assert (Hne : forall j, In j [node; a; b; i; y] -> In j (sent :: ids rr ++ cids c) -> False).
  { intros j H1 H2. change (NoDup ([node; a; b; i; y] ++ sent :: ids rr ++ cids c)) in ND'.
    eapply nodup_app_ne; [exact ND'|exact H1|exact H2|reflexivity]. }
  apply NoDup_cons_iff in ND'. destruct ND' as [N1 ND']. apply NoDup_cons_iff in ND'. destruct ND' as [N2 ND'].
  apply NoDup_cons_iff in ND'. destruct ND' as [N3 ND']. apply NoDup_cons_iff in ND'. destruct ND' as [N4 ND'].
  cbn [In] in N1, N2, N3, N4.
  assert (SA : forall j, In j (sent :: ids rr ++ cids c) -> same_at s s' j).
  { intros j Hj. unfold same_at, s'; cbn [kind lf pf rf].
    assert (j <> i) by (intros ->; eapply (Hne i); [cbn; auto|exact Hj]).
    assert (j <> y) by (intros ->; eapply (Hne y); [cbn; tauto|exact Hj]).
    rewrite !upN_other by auto. auto. }
  destruct (proj2 (rt_plug (CL c y rr) s' (Nd node (Lf a) (Lf b)) sent)) as [A B].
  - cbn [rc pid tid rt].
    split.
    + ands.
      * unfold s'; cbn [kind]. rewrite upN_other; auto.
      * unfold s'; cbn [lf]. apply upN_same.
      * auto.
      * auto.
      * apply (rt_ext rr s); auto. intros j Hj; apply SA. right; apply in_or_app; auto.
      * apply (rc_ext c s); auto. intros j [<-|Hj]; apply SA; [left; auto|right; apply in_or_app; auto].
    + assert (node <> i) by (intros ->; tauto). assert (node <> y) by (intros ->; tauto).
      assert (a <> i) by (intros ->; tauto). assert (b <> i) by (intros ->; tauto).
      unfold s'; cbn [kind lf pf rf]. rewrite !upN_other by auto. ands; auto.
  - constructor; auto. rewrite ids_plug. cbn [ids cids].
    eapply (NoDup_app_remove_l _ [i]). eapply Permutation_NoDup; [|exact ND].
    rewrite ids_plug. cbn [ids cids]. perm.
Qed.

Lemma link_right : forall s sent c y ll i node a b,
  okt s sent (plug (CR c y ll) (Lf i)) ->
  kind s node = NodeC -> pf s node = y -> lf s node = a -> rf s node = b ->
  kind s a = NilC -> kind s b = NilC ->
  NoDup (node :: a :: b :: sent :: ids (plug (CR c y ll) (Lf i))) ->
  let s' := mkmem (upN (kind s) i Free) (lf s) (pf s) (upN (rf s) y node) (col s) (dat s)
                  (dkey s) (dval s) (nxt s) in
  okt s' sent (plug (CR c y ll) (Nd node (Lf a) (Lf b))).
Proof.
  intros s sent c y ll i node a b O Kn Pn Ln Rn Ka Kb ND s'.
  apply okt_mir in O. rewrite plug_mt in O. cbn [mt mc] in O.
  assert (ND' : NoDup (node :: b :: a :: sent :: ids (plug (CL (mc c) y (mt ll)) (Lf i)))).
  { eapply Permutation_NoDup; [|exact ND].
    change (plug (CL (mc c) y (mt ll)) (Lf i)) with (plug (mc (CR c y ll)) (mt (Lf i))).
    rewrite <- plug_mt, ids_mt. perm. }
  pose proof (link_left (mir s) sent (mc c) y (mt ll) i node b a O Kn Pn Rn Ln Kb Ka ND') as H.
  cbn [mir kind lf pf rf col dat dkey dval nxt] in H.
  apply okt_mir in H. rewrite plug_mt in H. cbn [mt mc] in H. rewrite mc_mc, mt_mt in H.
  exact H.
Qed.

Lemma nodes_ids_plug : forall c t i, In i (nodes (plug c t)) -> In i (ids (plug c t)).
Proof. intros; apply nodes_in_ids; auto. Qed.

Lemma wft_fresh : forall s sent t i, wft s sent t -> In i (sent :: ids t) -> i < nxt s.
Proof. intros s sent t i [_ H _ _]; auto. Qed.

(** A new node next to an existing tree. *)
Definition after_new (s : mem) (kv p : N) : mem :=
  let l := nxt s in let r := nxt s + 1 in let x := nxt s + 1 + 1 in
  mkmem (upN (upN (upN (kind s) l NilC) r NilC) x NodeC) (upN (lf s) x l) (upN (pf s) x p)
        (upN (rf s) x r) (upN (upN (upN (upN (col s) l false) r false) x false) x true)
        (upN (dat s) x kv) (dkey s) (dval s) (nxt s + 1 + 1 + 1).

Lemma tree_new_ok : forall s root kv p,
  root < nxt s ->
  (kind s root = NilC /\ p = root) \/ (kind s root = NodeC /\ p = pf s root) ->
  ('(node, s1) <- tree_new s root kv ;; s2 <- set_color s1 node true ;; Ok (node, s2))
    = Ok (nxt s + 1 + 1, after_new s kv p).
Proof.
  intros s root kv p Hr H. unfold tree_new, new_nil, isnull, parent, on_node.
  cbn [kind lf pf rf nxt]. rewrite upN_other by lia.
  destruct H as [[K ->]|[K ->]]; rewrite K; cbn [rbind kind lf pf rf col dat dkey dval nxt];
    unfold set_color; cbn [kind]; rewrite upN_same; cbn [rbind]; reflexivity.
Qed.

Lemma after_new_okt : forall s sent t kv p, wft s sent t -> okt (after_new s kv p) sent t.
Proof.
  intros s sent t kv p W. pose proof (w_lt _ _ _ W) as L. destruct (w_ok _ _ _ W) as [A B C].
  constructor; auto.
  - apply (rt_ext t s); auto. intros i Hi. assert (i < nxt s) by (apply L; right; auto).
    unfold same_at, after_new; cbn [kind lf pf rf]. rewrite !upN_other by lia. auto.
  - assert (sent < nxt s) by (apply L; left; auto).
    unfold after_new; cbn [kind]. rewrite !upN_other by lia. auto.
Qed.

Lemma key_same : forall s s' i, dat s' i = dat s i -> dkey s' = dkey s -> key s' i = key s i.
Proof. intros s s' i H1 H2; unfold key; rewrite H1, H2; auto. Qed.

(** Outcome of inserting the pair [kv] = ([k] . [v]). *)
Inductive added (s s' : mem) (t t' : tr) (kv : N) : Prop :=
| added_old : forall i, In i (nodes t) -> key s i = dkey s kv -> nodes t' = nodes t ->
    (forall j, In j (nodes t) -> dat s' j = dat s j) -> dkey s' = dkey s ->
    (forall d, d <> kv -> dval s' d = upN (dval s) (dat s i) (dval s kv) d) ->
    added s s' t t' kv
| added_new : forall n b a, (forall j, In j (nodes t) -> key s j <> dkey s kv) ->
    nodes t = b ++ a -> nodes t' = b ++ n :: a -> dat s' n = kv ->
    (forall j, In j (nodes t) -> dat s' j = dat s j) -> dkey s' = dkey s -> dval s' = dval s ->
    added s s' t t' kv.

(** The name [k] lies at one end of the tree [t], unless [t] holds it. *)
Definition at_end (s : mem) (t : tr) (k : symbol) : Prop :=
  (forall j, In j (nodes t) -> key s j <> k) ->
  (forall j, In j (nodes t) -> sym_lt (key s j) k) \/ (forall j, In j (nodes t) -> sym_lt k (key s j)).
Lemma even_added : forall f f3 f4 c i a b n t' m, bal f (plug c (Lf i)) m ->
  (forall j, In j (cids c) -> f3 j = f j) -> f3 n = true -> f3 a = false -> f3 b = false -> straight c ->
  keeps_even f3 c (Nd n (Lf a) (Lf b)) f4 t' -> NoDup (ids t') -> exists m', bal (upN f4 (tid t') false) t' m'.
Proof.
  intros f f3 f4 c i a b n t' m B E Fn Fa Fb St KE ND.
  destruct (unplug_bal _ _ _ _ B) as (k & [_ ->] & Cb & _).
  destruct (KE 0%nat St (cbal_ext _ _ _ _ E Cb)) as [m' B'].
  { cbn [bal tid]. rewrite Fn. ands; auto. }
  { exact Fn. }
  destruct (f4 (tid t')) eqn:F4.
  - exists (S m'). eapply bal_uncolour; [exact ND|exact B'|exact F4|apply upN_same|]. intros j _ Nj. apply upN_other; auto.
  - exists m'. eapply bal_ext; [|exact B']. intros j _. destruct (N.eq_dec j (tid t')) as [->|Nj]; [rewrite upN_same; auto|apply upN_other; auto].
Qed.
Lemma end_straight : forall s k c t, nodes t = cbefore c ++ cafter c ->
  (forall j, In j (cbefore c) -> sym_lt (key s j) k) -> (forall j, In j (cafter c) -> sym_lt k (key s j)) ->
  (forall j, In j (nodes t) -> sym_lt (key s j) k) \/ (forall j, In j (nodes t) -> sym_lt k (key s j)) -> straight c.
Proof.
  intros s k c t E HB HA [H|H]; rewrite E in H; [left|right].
  - destruct (cafter c) as [|j l]; auto. exfalso. apply (sym_lt_irrefl k).
    apply (sym_lt_trans _ (key s j)); [apply HA; left; auto|apply H; rewrite in_app_iff; cbn; auto].
  - destruct (cbefore c) as [|j l]; auto. exfalso. apply (sym_lt_irrefl k).
    apply (sym_lt_trans _ (key s j)); [apply H; rewrite in_app_iff; cbn; auto|apply HB; left; auto].
Qed.
Lemma tree_add_nonempty : forall s sent t kv, wft s sent t -> is_nd t -> col s (tid t) = false ->
  kv < nxt s -> (forall i, In i (nodes t) -> dat s i <> kv) ->
  exists s' t', tree_add s (tid t) kv = Ok (tid t', s') /\ wft s' sent t' /\ is_nd t' /\
    col s' (tid t') = false /\ added s s' t t' kv /\
    (forall m, bal (col s) t m -> at_end s t (dkey s kv) -> exists m', bal (col s') t' m').
Proof.
  intros s sent t kv W Hn Hc Hkv Hfresh.
  pose proof (w_lt _ _ _ W) as LT.
  destruct t as [|x0 l0 r0] eqn:Et; [destruct Hn|]. rewrite <- Et in *. clear Hn.
  assert (Htid : tid t < nxt s) by (apply LT; right; apply tid_in_ids).
  assert (Kt : kind s (tid t) = NodeC).
  { subst t. apply (okt_kind s sent Top x0 l0 r0 (w_ok _ _ _ W)). }
  assert (Pt : pf s (tid t) = sent).
  { destruct (w_ok _ _ _ W) as [A _ _]. subst t. cbn in A. tauto. }
  pose proof (tree_new_ok s (tid t) kv sent Htid) as EN.
  specialize (EN (or_intror (conj Kt (eq_sym Pt)))).
  set (s1 := after_new s kv sent) in *. set (n := nxt s + 1 + 1) in *.
  assert (O1 : okt s1 sent t) by (apply after_new_okt; auto).
  assert (Dat1 : forall i, In i (nodes t) -> dat s1 i = dat s i).
  { intros i Hi. unfold s1, after_new; cbn [dat]. apply upN_other.
    assert (i < nxt s) by (apply LT; right; apply nodes_in_ids; auto). lia. }
  assert (SS1 : ssorted (map (key s1) (nodes t))).
  { rewrite (map_ext_in _ (key s)); [apply (w_sorted _ _ _ W)|].
    intros i Hi. apply key_same; auto. }
  assert (Kn : kind s1 n = NodeC) by (unfold s1, after_new, n; cbn [kind]; apply upN_same).
  assert (Dn : dat s1 n = kv) by (unfold s1, after_new, n; cbn [dat]; apply upN_same).
  assert (Nx1 : nxt s1 = nxt s + 1 + 1 + 1) by reflexivity.
  assert (HF : (height t < loop_fuel s1)%nat).
  { pose proof (wft_height _ _ _ W). unfold loop_fuel. rewrite Nx1. lia. }
  assert (EA : tree_add s (tid t) kv =
    ('(r, s2) <- tree_add_node (loop_fuel s1) s1 (tid t) n ;;
     match r with
     | None =>
         l <- left s2 n ;; rr <- right s2 n ;; s3 <- drop s2 n ;; s4 <- drop s3 l ;; s5 <- drop s4 rr ;; Ok (tid t, s5)
     | Some next => tree_add_check (loop_fuel s2) s2 next n
     end)).
  { unfold tree_add. unfold rbind at 1 in EN. unfold rbind at 1.
    destruct (tree_new s (tid t) kv) as [[nn sn]| |]; try discriminate.
    cbn [rbind] in EN. destruct (set_color sn nn true); cbn [rbind] in EN |- *; try discriminate.
    injection EN as -> ->. reflexivity. }
  rewrite EA. clear EA EN.
  unfold tree_add_node. unfold isnull.
  assert (Kt1 : kind s1 (tid t) = NodeC).
  { subst t. apply (okt_kind s1 sent Top x0 l0 r0 O1). }
  rewrite Kt1. cbn [rbind]. unfold nkey at 1, on_node. rewrite Kn, Dn. cbn [rbind].
  change (dkey s1) with (dkey s).
  destruct (descend_ok t Top (loop_fuel s1) s1 sent (dkey s kv) (tid t) O1 SS1) as
    [[x [c [l [r [E [Kx Ep]]]]]]|[c [i [E [Ep [HB HA]]]]]]; auto;
    try (intros j []; fail); try (intros j Hj; subst t; discriminate).
  - (* key exists *)
    cbn [plug] in Ep. rewrite E. cbn [rbind].
    assert (Hx : In x (nodes t)).
    { rewrite <- Ep, nodes_plug. cbn [nodes]. rewrite !in_app_iff. cbn; auto. }
    assert (KX : kind s1 x = NodeC) by (rewrite <- Ep in O1; apply (okt_kind _ _ _ _ _ _ O1)).
    unfold nvalue, data, on_node. rewrite KX, Kn. cbn [rbind]. rewrite Dn.
    set (s2 := set_dval (set_dval s1 (dat s1 x) (dval s1 kv)) kv (dval s1 (dat s1 x))).
    assert (L2 : left s2 n = Ok (nxt s)).
    { unfold left, on_node. change (kind s2 n) with (kind s1 n). rewrite Kn. f_equal.
      change (lf s2 n) with (lf s1 n). unfold s1, after_new; cbn [lf]. apply upN_same. }
    assert (R2 : right s2 n = Ok (nxt s + 1)).
    { unfold right, on_node. change (kind s2 n) with (kind s1 n). rewrite Kn. f_equal.
      change (rf s2 n) with (rf s1 n). unfold s1, after_new; cbn [rf]. apply upN_same. }
    rewrite L2, R2. cbn [rbind].
    unfold drop at 1. change (kind s2 n) with (kind s1 n). rewrite Kn. cbn [rbind].
    unfold drop at 1. cbn [kind]. rewrite upN_other by (unfold n; lia).
    change (kind s2) with (kind s1).
    assert (Ka : kind s1 (nxt s) = NilC).
    { unfold s1, after_new; cbn [kind]. rewrite !upN_other by lia. apply upN_same. }
    assert (Kb : kind s1 (nxt s + 1) = NilC).
    { unfold s1, after_new; cbn [kind]. rewrite upN_other by lia. apply upN_same. }
    rewrite Ka. cbn [rbind]. unfold drop at 1. cbn [kind].
    rewrite !upN_other by (unfold n; lia). rewrite Kb. cbn [rbind].
    cbn [kind lf pf rf col dat dkey dval nxt].
    match goal with |- context[Ok (tid t, ?ss)] => set (s3 := ss) end.
    exists s3, t. split; [reflexivity|].
    assert (SA : forall j, j < nxt s -> same_at s1 s3 j).
    { intros j Hj. unfold same_at, s3; cbn [kind lf pf rf]. rewrite !upN_other by (unfold n; lia). auto. }
    split; [constructor|].
    + destruct O1 as [A B C]. constructor; auto.
      * apply (rt_ext t s1); auto. intros j Hj. apply SA. apply LT; right; auto.
      * destruct (SA sent) as [K _]; [apply LT; left; auto|]. congruence.
    + intros j Hj. apply LT in Hj. unfold s3; cbn [nxt]. change (nxt s2) with (nxt s + 1 + 1 + 1). lia.
    + intros j Hj. unfold s3; cbn [nxt dat]. change (nxt s2) with (nxt s + 1 + 1 + 1).
      change (dat s2) with (dat s1). rewrite Dat1 by auto.
      pose proof (w_dat _ _ _ W j Hj). lia.
    + rewrite (map_ext_in _ (key s1)); [exact SS1|]. intros j Hj. apply key_same; reflexivity.
    + split; [subst t; exact I|]. split.
      * unfold s3; cbn [col]. change (col s2) with (col s1). unfold s1, after_new; cbn [col].
        rewrite !upN_other by lia. exact Hc.
      * split; [|intros m Bm _; exists m; eapply bal_ext; [|exact Bm]; intros j Hj;
          assert (Hj' : j < nxt s) by (apply LT; right; auto);
          unfold s3; cbn [col]; change (col s2) with (col s1); unfold s1, after_new; cbn [col];
          rewrite !upN_other by lia; reflexivity].
        apply added_old with (i := x); auto.
        -- rewrite <- Kx. symmetry. apply key_same; auto.
        -- intros d Hd. unfold s3; cbn [dval].
           change (dval s2) with (upN (upN (dval s1) (dat s1 x) (dval s1 kv)) kv (dval s1 (dat s1 x))).
           rewrite upN_other by auto. rewrite Dat1 by auto. reflexivity.
  - (* new key *)
    cbn [plug] in Ep. rewrite E. cbn [rbind].
    assert (Habs : forall j, In j (nodes t) -> key s j <> dkey s kv).
    { intros j Hj Ej. assert (Ej1 : key s1 j = dkey s kv) by (rewrite <- Ej; apply key_same; auto).
      rewrite <- Ep, nodes_plug in Hj. cbn [nodes app] in Hj. apply in_app_iff in Hj.
      destruct Hj as [Hj|Hj]; [apply HB in Hj|apply HA in Hj]; rewrite Ej1 in Hj;
        apply sym_lt_irrefl in Hj; auto. }
    unfold set_parent, on_node. rewrite Kn. cbn [rbind].
    set (s2 := mkmem (kind s1) (lf s1) (upN (pf s1) n (pid c sent)) (rf s1) (col s1) (dat s1) (dkey s1) (dval s1) (nxt s1)).
    assert (O2 : okt s2 sent t).
    { destruct O1 as [A B C]. constructor; auto. apply (rt_ext t s1); auto.
      intros j Hj. unfold same_at, s2; cbn [kind lf pf rf]. rewrite upN_other; auto.
      assert (j < nxt s) by (apply LT; right; auto). unfold n; lia. }
    assert (Ln : lf s2 n = nxt s) by (unfold s2, s1, after_new, n; cbn [lf]; apply upN_same).
    assert (Rn : rf s2 n = nxt s + 1) by (unfold s2, s1, after_new, n; cbn [rf]; apply upN_same).
    assert (Ka : kind s2 (nxt s) = NilC).
    { unfold s2, s1, after_new; cbn [kind]. rewrite !upN_other by lia. apply upN_same. }
    assert (Kb : kind s2 (nxt s + 1) = NilC).
    { unfold s2, s1, after_new; cbn [kind]. rewrite upN_other by lia. apply upN_same. }
    assert (ND2 : NoDup (n :: nxt s :: nxt s + 1 :: sent :: ids t)).
    { assert (forall j, In j (sent :: ids t) -> j < nxt s) as LT' by exact LT.
      assert (Hno : forall m, nxt s <= m -> ~ In m (sent :: ids t)).
      { intros m Hm Hin. apply LT' in Hin. lia. }
      constructor; [|constructor; [|constructor]].
      - intros [H|[H|H]]; [unfold n in H; lia|unfold n in H; lia|]. revert H. apply Hno. unfold n; lia.
      - intros [H|H]; [lia|]. revert H; apply Hno; lia.
      - apply Hno; lia.
      - destruct O1; auto. }
    destruct c as [|c y rr|c y ll].
    { subst t. discriminate. }
    + (* on the left *)
      cbn [pid] in *.
      assert (KY : kind s2 y = NodeC).
      { rewrite <- Ep in O2. apply (okt_kind s2 sent c y (Lf i) rr O2). }
      assert (Dy : In y (nodes t)).
      { rewrite <- Ep. cbn [plug]. rewrite nodes_plug. cbn [nodes]. rewrite !in_app_iff. cbn; auto. }
      change (nkey s2 y) with (on_node s2 y (key s2 y)). unfold on_node. rewrite KY. cbn [rbind].
      assert (Ec : sym_compare (dkey s kv) (key s2 y) = Lt).
      { apply memcmp_lt. apply (HA y). cbn [cafter]. left; auto. }
      rewrite Ec. unfold left, on_node. rewrite KY. cbn [rbind].
      assert (Ly : lf s2 y = i).
      { rewrite <- Ep in O2. destruct (okt_at s2 sent c y (Lf i) rr O2) as [_ [_ [L _]]].
        unfold left, on_node in L. rewrite KY in L. cbn [tid] in L. congruence. }
      rewrite Ly. unfold drop.
      assert (Ki : kind s2 i = NilC).
      { rewrite <- Ep in O2. pose proof (plug_parts _ _ _ _ O2) as [_ RT]. exact RT. }
      rewrite Ki. cbn [rbind]. unfold set_left, on_node. cbn [kind].
      assert (Hyi : y <> i).
      { intros ->. congruence. }
      rewrite upN_other by auto. rewrite KY. cbn [rbind lf pf rf col dat dkey dval nxt].
      rewrite <- Ep in O2, ND2.
      pose proof (link_left s2 sent c y rr i n (nxt s) (nxt s + 1) O2 Kn (upN_same _ _ _ _) Ln Rn Ka Kb ND2) as O3.
      cbv zeta in O3.
      match type of O3 with okt ?ss _ _ => set (s3 := ss) in * end.
      unfold tree_add_check.
      destruct (rebalance_loop_ok (loop_fuel s3) s3 sent (CL c y rr) n (Lf (nxt s)) (Lf (nxt s + 1)) n O3)
        as [s4 [t' [E4 [[O4 [N4 [I4 [D1 [D2 [D3 [D4 D5]]]]]]] KE]]]].
      { assert (depth (CL c y rr) < N.to_nat (nxt s))%nat.
        { apply (wft_depth s sent (CL c y rr) (Lf i)). rewrite Ep; auto. }
        unfold loop_fuel. change (nxt s3) with (nxt s + 1 + 1 + 1). lia. }
      { left. rewrite (tid_plug _ _ (Lf i)) by discriminate. rewrite Ep.
        change (col s3) with (col s1). unfold s1, after_new; cbn [col]. rewrite !upN_other by lia. exact Hc. }
      { unfold bare. change (lf s3) with (upN (lf s2) y n). change (rf s3) with (rf s2).
        change (kind s3) with (upN (kind s2) i Free).
        assert (i < nxt s).
        { apply LT; right. rewrite <- Ep. apply (in_plug (CL c y rr)). left; auto. }
        assert (y < nxt s) by (apply LT; right; apply nodes_in_ids; auto).
        rewrite (upN_other _ (lf s2)) by (unfold n; lia). rewrite Ln, Rn.
        rewrite !upN_other by (unfold n; lia). ands; auto. }
      assert (Et2 : tid (plug (CL c y rr) (Nd n (Lf (nxt s)) (Lf (nxt s + 1)))) = tid t).
      { rewrite (tid_plug _ _ (Lf i)) by discriminate. rewrite Ep; auto. }
      rewrite Et2 in E4. rewrite E4. cbn [rbind].
      rewrite set_color_ok by (eapply okt_live; [exact O4|right; apply tid_in_ids]).
      cbn [rbind]. eexists _, t'. split; [reflexivity|].
      assert (Hnodes : nodes t' = cbefore (CL c y rr) ++ n :: cafter (CL c y rr)).
      { rewrite N4, nodes_plug. cbn [nodes app]. auto. }
      assert (Hnodes0 : nodes t = cbefore (CL c y rr) ++ cafter (CL c y rr)).
      { rewrite <- Ep, nodes_plug. cbn [nodes app]. auto. }
      assert (D2' : dat s4 = dat s1) by (rewrite D2; reflexivity).
      assert (D3' : dkey s4 = dkey s) by (rewrite D3; reflexivity).
      assert (Hin' : forall j, In j (nodes t') -> j = n \/ In j (nodes t)).
      { intros j Hj. rewrite Hnodes in Hj. rewrite Hnodes0. rewrite in_app_iff in *. cbn [In] in Hj.
        destruct Hj as [Hj|[Hj|Hj]]; auto. }
      split; [constructor|].
      * apply okt_with_col; auto.
      * change (nxt (with_col s4 (upN (col s4) (tid t') false))) with (nxt s4). rewrite D5.
        change (nxt s3) with (nxt s + 1 + 1 + 1).
        intros j [<-|Hj]; [assert (sent < nxt s) by (apply LT; left; auto); lia|].
        apply (Permutation_in _ I4) in Hj. apply (Permutation_in _ (ids_plug _ _)) in Hj.
        apply in_app_iff in Hj. destruct Hj as [Hj|Hj].
        -- cbn [ids In app] in Hj. unfold n in Hj. lia.
        -- assert (j < nxt s); [|lia]. apply LT; right. rewrite <- Ep.
           apply (Permutation_in _ (Permutation_sym (ids_plug (CL c y rr) (Lf i)))). apply in_or_app; auto.
      * intros j Hj. change (dat s4 j < nxt s4). rewrite D5, D2'. change (nxt s3) with (nxt s + 1 + 1 + 1).
        destruct (Hin' j Hj) as [->|Hj']; [rewrite Dn; lia|].
        rewrite Dat1 by auto. pose proof (w_dat _ _ _ W j Hj'). lia.
      * rewrite (map_ext_in _ (key s1)); [|intros j _; apply key_same; [change (dat s4 j = dat s1 j); congruence|exact D3']].
        rewrite Hnodes, map_app. cbn [map]. rewrite Hnodes0, map_app in SS1.
        apply ssorted_app in SS1. destruct SS1 as [Sa [Sb Sab]].
        assert (Kk : key s1 n = dkey s kv) by (unfold key; rewrite Dn; reflexivity).
        apply ssorted_app. ands; auto.
        -- constructor; auto. apply Forall_forall. intros z Hz. apply in_map_iff in Hz.
           destruct Hz as [w [<- Hw]]. rewrite Kk. apply HA; auto.
        -- intros z w Hz [<-|Hw]; auto. rewrite Kk. apply in_map_iff in Hz.
           destruct Hz as [v [<- Hv]]. apply HB; auto.
      * split.
        { destruct t' as [j|]; [|exact I]. cbn [nodes] in Hnodes. destruct (cbefore (CL c y rr)); discriminate. }
        split; [cbn [with_col col]; apply upN_same|].
        split; [|intros m Bm En; rewrite <- Ep in Bm; apply (even_added (col s) (col s3) (col s4) (CL c y rr) i (nxt s) (nxt s + 1) n t' m Bm);
          [intros j Hj; assert (Hj' : j < nxt s) by (apply LT; right; rewrite <- Ep; apply (Permutation_in _ (Permutation_sym (ids_plug (CL c y rr) (Lf i)))); apply in_or_app; auto);
             change (col s3) with (col s1); unfold s1, after_new; cbn [col]; rewrite !upN_other by lia; reflexivity
          |change (col s3) with (col s1); unfold s1, after_new, n; cbn [col]; apply upN_same
          |change (col s3) with (col s1); unfold s1, after_new; cbn [col]; rewrite 3!upN_other by lia; apply upN_same
          |change (col s3) with (col s1); unfold s1, after_new; cbn [col]; rewrite 2!upN_other by lia; apply upN_same
          |apply (end_straight s1 (dkey s kv) (CL c y rr) t Hnodes0 HB HA);
             destruct (En Habs) as [H|H]; [left|right]; intros j Hj; rewrite (key_same s s1 j) by auto; auto
          |exact KE
          |destruct O4 as [_ _ ND4]; apply NoDup_cons_iff in ND4; tauto]].
        apply added_new with (n := n) (b := cbefore (CL c y rr)) (a := cafter (CL c y rr)); auto.
        -- change (dat s4 n = kv). congruence.
        -- intros j Hj. change (dat s4 j = dat s j). rewrite D2'. auto.
    + (* on the right *)
      cbn [pid] in *.
      assert (KY : kind s2 y = NodeC).
      { rewrite <- Ep in O2. apply (okt_kind s2 sent c y ll (Lf i) O2). }
      assert (Dy : In y (nodes t)).
      { rewrite <- Ep. cbn [plug]. rewrite nodes_plug. cbn [nodes]. rewrite !in_app_iff. cbn; auto. }
      change (nkey s2 y) with (on_node s2 y (key s2 y)). unfold on_node. rewrite KY. cbn [rbind].
      assert (Ec : sym_compare (dkey s kv) (key s2 y) = Gt).
      { apply memcmp_gt. apply (HB y). cbn [cbefore]. rewrite !in_app_iff. cbn; auto. }
      rewrite Ec. unfold right, on_node. rewrite KY. cbn [rbind].
      assert (Ly : rf s2 y = i).
      { rewrite <- Ep in O2. destruct (okt_at s2 sent c y ll (Lf i) O2) as [_ [_ [_ L]]].
        unfold right, on_node in L. rewrite KY in L. cbn [tid] in L. congruence. }
      rewrite Ly. unfold drop.
      assert (Ki : kind s2 i = NilC).
      { rewrite <- Ep in O2. pose proof (plug_parts _ _ _ _ O2) as [_ RT]. exact RT. }
      rewrite Ki. cbn [rbind]. unfold set_right, on_node. cbn [kind].
      assert (Hyi : y <> i).
      { intros ->. congruence. }
      rewrite upN_other by auto. rewrite KY. cbn [rbind lf pf rf col dat dkey dval nxt].
      rewrite <- Ep in O2, ND2.
      pose proof (link_right s2 sent c y ll i n (nxt s) (nxt s + 1) O2 Kn (upN_same _ _ _ _) Ln Rn Ka Kb ND2) as O3.
      cbv zeta in O3.
      match type of O3 with okt ?ss _ _ => set (s3 := ss) in * end.
      unfold tree_add_check.
      destruct (rebalance_loop_ok (loop_fuel s3) s3 sent (CR c y ll) n (Lf (nxt s)) (Lf (nxt s + 1)) n O3)
        as [s4 [t' [E4 [[O4 [N4 [I4 [D1 [D2 [D3 [D4 D5]]]]]]] KE]]]].
      { assert (depth (CR c y ll) < N.to_nat (nxt s))%nat.
        { apply (wft_depth s sent (CR c y ll) (Lf i)). rewrite Ep; auto. }
        unfold loop_fuel. change (nxt s3) with (nxt s + 1 + 1 + 1). lia. }
      { left. rewrite (tid_plug _ _ (Lf i)) by discriminate. rewrite Ep.
        change (col s3) with (col s1). unfold s1, after_new; cbn [col]. rewrite !upN_other by lia. exact Hc. }
      { unfold bare. change (lf s3) with (lf s2). change (rf s3) with (upN (rf s2) y n).
        change (kind s3) with (upN (kind s2) i Free).
        assert (i < nxt s).
        { apply LT; right. rewrite <- Ep. apply (in_plug (CR c y ll)). left; auto. }
        assert (y < nxt s) by (apply LT; right; apply nodes_in_ids; auto).
        rewrite (upN_other _ (rf s2)) by (unfold n; lia). rewrite Ln, Rn.
        rewrite !upN_other by (unfold n; lia). ands; auto. }
      assert (Et2 : tid (plug (CR c y ll) (Nd n (Lf (nxt s)) (Lf (nxt s + 1)))) = tid t).
      { rewrite (tid_plug _ _ (Lf i)) by discriminate. rewrite Ep; auto. }
      rewrite Et2 in E4. rewrite E4. cbn [rbind].
      rewrite set_color_ok by (eapply okt_live; [exact O4|right; apply tid_in_ids]).
      cbn [rbind]. eexists _, t'. split; [reflexivity|].
      assert (Hnodes : nodes t' = cbefore (CR c y ll) ++ n :: cafter (CR c y ll)).
      { rewrite N4, nodes_plug. cbn [nodes app]. auto. }
      assert (Hnodes0 : nodes t = cbefore (CR c y ll) ++ cafter (CR c y ll)).
      { rewrite <- Ep, nodes_plug. cbn [nodes app]. auto. }
      assert (D2' : dat s4 = dat s1) by (rewrite D2; reflexivity).
      assert (D3' : dkey s4 = dkey s) by (rewrite D3; reflexivity).
      assert (Hin' : forall j, In j (nodes t') -> j = n \/ In j (nodes t)).
      { intros j Hj. rewrite Hnodes in Hj. rewrite Hnodes0. rewrite in_app_iff in *. cbn [In] in Hj.
        destruct Hj as [Hj|[Hj|Hj]]; auto. }
      split; [constructor|].
      * apply okt_with_col; auto.
      * change (nxt (with_col s4 (upN (col s4) (tid t') false))) with (nxt s4). rewrite D5.
        change (nxt s3) with (nxt s + 1 + 1 + 1).
        intros j [<-|Hj]; [assert (sent < nxt s) by (apply LT; left; auto); lia|].
        apply (Permutation_in _ I4) in Hj. apply (Permutation_in _ (ids_plug _ _)) in Hj.
        apply in_app_iff in Hj. destruct Hj as [Hj|Hj].
        -- cbn [ids In app] in Hj. unfold n in Hj. lia.
        -- assert (j < nxt s); [|lia]. apply LT; right. rewrite <- Ep.
           apply (Permutation_in _ (Permutation_sym (ids_plug (CR c y ll) (Lf i)))). apply in_or_app; auto.
      * intros j Hj. change (dat s4 j < nxt s4). rewrite D5, D2'. change (nxt s3) with (nxt s + 1 + 1 + 1).
        destruct (Hin' j Hj) as [->|Hj']; [rewrite Dn; lia|].
        rewrite Dat1 by auto. pose proof (w_dat _ _ _ W j Hj'). lia.
      * rewrite (map_ext_in _ (key s1)); [|intros j _; apply key_same; [change (dat s4 j = dat s1 j); congruence|exact D3']].
        rewrite Hnodes, map_app. cbn [map]. rewrite Hnodes0, map_app in SS1.
        apply ssorted_app in SS1. destruct SS1 as [Sa [Sb Sab]].
        assert (Kk : key s1 n = dkey s kv) by (unfold key; rewrite Dn; reflexivity).
        apply ssorted_app. ands; auto.
        -- constructor; auto. apply Forall_forall. intros z Hz. apply in_map_iff in Hz.
           destruct Hz as [w [<- Hw]]. rewrite Kk. apply HA; auto.
        -- intros z w Hz [<-|Hw]; auto. rewrite Kk. apply in_map_iff in Hz.
           destruct Hz as [v [<- Hv]]. apply HB; auto.
      * split.
        { destruct t' as [j|]; [|exact I]. cbn [nodes] in Hnodes. destruct (cbefore (CR c y ll)); discriminate. }
        split; [cbn [with_col col]; apply upN_same|].
        split; [|intros m Bm En; rewrite <- Ep in Bm; apply (even_added (col s) (col s3) (col s4) (CR c y ll) i (nxt s) (nxt s + 1) n t' m Bm);
          [intros j Hj; assert (Hj' : j < nxt s) by (apply LT; right; rewrite <- Ep; apply (Permutation_in _ (Permutation_sym (ids_plug (CR c y ll) (Lf i)))); apply in_or_app; auto);
             change (col s3) with (col s1); unfold s1, after_new; cbn [col]; rewrite !upN_other by lia; reflexivity
          |change (col s3) with (col s1); unfold s1, after_new, n; cbn [col]; apply upN_same
          |change (col s3) with (col s1); unfold s1, after_new; cbn [col]; rewrite 3!upN_other by lia; apply upN_same
          |change (col s3) with (col s1); unfold s1, after_new; cbn [col]; rewrite 2!upN_other by lia; apply upN_same
          |apply (end_straight s1 (dkey s kv) (CR c y ll) t Hnodes0 HB HA);
             destruct (En Habs) as [H|H]; [left|right]; intros j Hj; rewrite (key_same s s1 j) by auto; auto
          |exact KE
          |destruct O4 as [_ _ ND4]; apply NoDup_cons_iff in ND4; tauto]].
        apply added_new with (n := n) (b := cbefore (CR c y ll)) (a := cafter (CR c y ll)); auto.
        -- change (dat s4 n = kv). congruence.
        -- intros j Hj. change (dat s4 j = dat s j). rewrite D2'. auto.
Qed.

(** ** Histories *)

Definition gets (st : N * mem) (k : symbol) (o : option N) : Prop :=
  tree_get (snd st) (fst st) k = Ok o.

Definition in_tree (s : mem) (t : tr) (k : symbol) (d : N) : Prop :=
  exists i, In i (nodes t) /\ key s i = k /\ dat s i = d.

Lemma gets_tree : forall s sent t k, wft s sent t -> is_nd t ->
  (forall d, gets (tid t, s) k (Some d) <-> in_tree s t k d) /\
  (gets (tid t, s) k None <-> forall d, ~ in_tree s t k d).
Proof.
  intros s sent t k W Hn. unfold gets; cbn [fst snd].
  destruct (get_tree s sent t k W Hn) as [[x [_ [E [K [I _]]]]]|[_ [E F]]]; rewrite E.
  - split.
    + intros d; split.
      * intros H; injection H as <-. exists x; auto.
      * intros [i [Hi [Ki Di]]]. assert (i = x) as ->; [|congruence].
        eapply sorted_key_inj; [exact (w_sorted _ _ _ W)|auto|auto|congruence].
    + split; [discriminate|]. intros H. exfalso. apply (H (dat s x)). exists x; auto.
  - split.
    + intros d; split; [discriminate|]. intros [i [Hi [Ki _]]]. apply F in Hi. contradiction.
    + split; auto. intros _ d [i [Hi [Ki _]]]. apply F in Hi. contradiction.
Qed.

Lemma gets_empty : forall root s k, kind s root = NilC -> gets (root, s) k None.
Proof.
  intros root s k K. unfold gets, tree_get, tree_get_node, isnull; cbn [fst snd].
  rewrite K. reflexivity.
Qed.

Lemma gets_fun : forall st k o o', gets st k o -> gets st k o' -> o = o'.
Proof. unfold gets; intros; congruence. Qed.

Lemma good_total : forall st k, good st -> exists o, gets st k o.
Proof.
  intros st k [root s K _|s sent t W Hn _].
  - exists None; apply gets_empty; auto.
  - unfold gets; cbn [fst snd].
    destruct (get_tree s sent t k W Hn) as [[x [_ [E _]]]|[_ [E _]]]; eauto.
Qed.

Lemma good_key : forall st k d, good st -> gets st k (Some d) -> dkey (snd st) d = k.
Proof.
  intros st k d [root s K _|s sent t W Hn _] H.
  - pose proof (gets_fun _ _ _ _ H (gets_empty _ _ k K)); discriminate.
  - destruct (gets_tree s sent t k W Hn) as [A _]. apply A in H.
    destruct H as [i [_ [Ki <-]]]. exact Ki.
Qed.

Lemma pair_wft : forall s sent t k v, wft s sent t ->
  let s' := snd (new_pair s k v) in
  wft s' sent t /\ (forall i, In i (nodes t) -> key s' i = key s i /\ dat s' i = dat s i) /\
  dkey s' (nxt s) = k /\ dval s' (nxt s) = v /\ nxt s' = nxt s + 1 /\
  (forall i, In i (nodes t) -> dat s' i <> nxt s) /\
  (forall d, d <> nxt s -> dval s' d = dval s d).
Proof.
  intros s sent t k v W s'.
  assert (KD : forall i, In i (nodes t) -> key s' i = key s i /\ dat s' i = dat s i).
  { intros i Hi. split; [|reflexivity]. unfold key, s', new_pair; cbn [snd dkey dat].
    apply upN_other. pose proof (w_dat _ _ _ W i Hi). lia. }
  split; [constructor|].
  - eapply okt_links; [exact (w_ok _ _ _ W)| | | |]; reflexivity.
  - intros i Hi. apply (w_lt _ _ _ W) in Hi. unfold s', new_pair; cbn [snd nxt]. lia.
  - intros i Hi. pose proof (w_dat _ _ _ W i Hi). unfold s', new_pair; cbn [snd nxt dat]. lia.
  - rewrite (map_ext_in _ (key s)); [exact (w_sorted _ _ _ W)|]. intros i Hi; apply KD; auto.
  - ands; auto.
    + apply upN_same.
    + apply upN_same.
    + intros i Hi. pose proof (w_dat _ _ _ W i Hi). unfold s', new_pair; cbn [snd dat]. lia.
    + intros d Hd. apply upN_other; auto.
Qed.

(** The tree at the root is even; the name of a definition is at an end. *)
Definition even (st : N * mem) : Prop := forall par t, rt (snd st) par t -> tid t = fst st -> is_nd t ->
  exists m, bal (col (snd st)) t m.
Definition ends_at (st : N * mem) (o : top) : Prop :=
  match o with
  | TSet k _ => gets st k None ->
      (forall k' d, gets st k' (Some d) -> sym_lt k' k) \/ (forall k' d, gets st k' (Some d) -> sym_lt k k')
  | TUpd _ _ => True
  end.
Lemma rt_unique : forall t t' s p p', rt s p t -> rt s p' t' -> tid t = tid t' -> t = t'.
Proof.
  induction t as [i|i l IHl r IHr]; intros [j|j l' r'] s p p' H H' E; cbn [rt tid] in *; subst; auto.
  - destruct H' as [K _]. congruence.
  - destruct H as [K _]. congruence.
  - destruct H as (_ & _ & L & R & Hl & Hr), H' as (_ & _ & L' & R' & Hl' & Hr').
    f_equal; [eapply IHl|eapply IHr]; eauto; congruence.
Qed.
Lemma even_of : forall s sent t, wft s sent t -> (exists m, bal (col s) t m) -> even (tid t, s).
Proof.
  intros s sent t W B par t' R E _. cbn [fst snd] in *.
  destruct (w_ok _ _ _ W) as [A _ _]. rewrite (rt_unique _ _ _ _ _ R A E). exact B.
Qed.
Lemma even_at : forall s sent t, wft s sent t -> is_nd t -> even (tid t, s) -> exists m, bal (col s) t m.
Proof. intros s sent t W Hn E. destruct (w_ok _ _ _ W) as [A _ _]. exact (E sent t A eq_refl Hn). Qed.

(** One definition or update, in terms of what a lookup finds. *)
Lemma step_ok : forall st o, good st -> exists st', tstep st o = Ok st' /\ good st' /\ (ends_at st o -> even st -> even st') /\
  (forall k d, gets st k (Some d) -> gets st' k (Some d)) /\
  (forall k, (match o with TSet k0 _ => k <> k0 | TUpd _ _ => True end) -> gets st k None -> gets st' k None) /\
  (forall k d, (match o with TSet k0 _ | TUpd k0 _ => k <> k0 end) -> gets st k (Some d) ->
     dval (snd st') d = dval (snd st) d) /\
  (match o with
   | TSet k v => exists d, gets st' k (Some d) /\ dval (snd st') d = v
   | TUpd k v => forall d, gets st k (Some d) -> dval (snd st') d = v
   end).
Proof.
  intros st o G. destruct G as [root s K Hr|s sent t W Hn C].
  - assert (Nk : forall k, gets (root, s) k None) by (intros; apply gets_empty; auto).
    destruct o as [k v|k v]; cbn [tstep]; unfold new_pair.
    + (* first definition *)
      match goal with |- context[tree_add ?ss root ?kv] => set (s0 := ss) end.
      pose proof (tree_new_ok s0 root (nxt s) root) as EN.
      assert (H1 : root < nxt s0) by (unfold s0; cbn [nxt]; lia).
      assert (K0 : kind s0 root = NilC) by exact K.
      specialize (EN H1 (or_introl (conj K0 eq_refl))).
      set (s1 := after_new s0 (nxt s) root) in *. set (n := nxt s0 + 1 + 1) in *.
      assert (Kr : kind s1 root = NilC).
      { unfold s1, after_new; cbn [kind]. rewrite !upN_other by lia. exact K0. }
      assert (EA : tree_add s0 root (nxt s) = Ok (n, with_col s1 (upN (col s1) n false))).
      { unfold tree_add. unfold rbind at 1 in EN. unfold rbind at 1.
        destruct (tree_new s0 root (nxt s)) as [[nn sn]| |]; try discriminate.
        cbn [rbind] in EN. destruct (set_color sn nn true); cbn [rbind] in EN |- *; try discriminate.
        injection EN as -> ->. unfold tree_add_node, isnull. rewrite Kr. cbn [rbind].
        unfold tree_add_check, loop_fuel. cbn [add_check_loop]. rewrite N.eqb_refl. cbn [rbind].
        rewrite set_color_ok; [reflexivity|]. unfold s1, after_new, n; cbn [kind].
        rewrite upN_same. discriminate. }
      rewrite EA. set (s2 := with_col s1 (upN (col s1) n false)).
      set (t := Nd n (Lf (nxt s0)) (Lf (nxt s0 + 1))).
      assert (W2 : wft s2 root t).
      { constructor.
        - constructor.
          + unfold t; cbn [rt tid]. unfold s2, s1, after_new, n; cbn [with_col kind lf pf rf].
            ands; repeat (first [rewrite upN_same | rewrite upN_other by lia]); auto.
          + exact Kr.
          + unfold t; cbn [ids app]. unfold n. repeat constructor; cbn [In]; lia.
        - intros i Hi. change (nxt s2) with (nxt s0 + 1 + 1 + 1). unfold t in Hi; cbn [ids app In] in Hi.
          unfold n in Hi. lia.
        - intros i Hi. unfold t in Hi; cbn [nodes app In] in Hi. destruct Hi as [<-|[]].
          change (dat s2) with (upN (dat s0) n (nxt s)). rewrite upN_same.
          change (nxt s2) with (nxt s + 1 + 1 + 1 + 1). lia.
        - cbn. constructor; constructor. }
      assert (Dn : dat s2 n = nxt s) by (apply (upN_same _ (dat s0) n (nxt s))).
      assert (Kn : key s2 n = k).
      { unfold key. rewrite Dn. apply (upN_same _ (dkey s) (nxt s) k). }
      exists (tid t, s2). split; [reflexivity|]. split.
      { apply (good_tree s2 root t W2); [exact I|]. unfold t, s2; cbn [tid with_col col]. apply upN_same. }
      split.
      { intros _ _. apply (even_of s2 root t W2). exists 1%nat. unfold t; cbn [bal tid].
        unfold s2; cbn [with_col col]. rewrite upN_same. exists 0%nat.
        unfold s1, after_new, n; cbn [col]. ands; auto;
          repeat (first [rewrite upN_same | rewrite upN_other by lia]); auto. }
      ands.
      * intros k' d H. pose proof (gets_fun _ _ _ _ H (Nk k')); discriminate.
      * intros k' Hk _. destruct (gets_tree s2 root t k' W2 I) as [_ A]. apply A.
        intros d [i [Hi [Ki _]]]. unfold t in Hi; cbn [nodes app In] in Hi. destruct Hi as [<-|[]].
        congruence.
      * intros k' d _ H. pose proof (gets_fun _ _ _ _ H (Nk k')); discriminate.
      * exists (nxt s). split.
        -- destruct (gets_tree s2 root t k W2 I) as [A _]. apply A. exists n. unfold t; cbn [nodes app In]. auto.
        -- apply (upN_same _ (dval s) (nxt s) v).
    + unfold tree_upd, isnull. cbn [kind]. rewrite K. cbn [rbind].
      eexists; split; [reflexivity|]. split; [apply good_empty; cbn [kind nxt]; auto; lia|].
      split.
      { intros _ _ par t R Et Nt. cbn [fst snd] in *. destruct t as [|x l r]; [destruct Nt|].
        cbn [rt tid kind] in R, Et. destruct R as [Kx _]. congruence. }
      ands.
      * intros k' d H. pose proof (gets_fun _ _ _ _ H (Nk k')); discriminate.
      * intros k' _ _. apply gets_empty; auto.
      * intros k' d _ H. pose proof (gets_fun _ _ _ _ H (Nk k')); discriminate.
      * intros d H. pose proof (gets_fun _ _ _ _ H (Nk k)); discriminate.
  - destruct o as [k v|k v].
    + cbn [tstep]. change (new_pair s k v) with (nxt s, snd (new_pair s k v)). cbv iota beta.
      destruct (pair_wft s sent t k v W) as [W1 [KD [DK [DV [NX [FR DO]]]]]].
      set (s1 := snd (new_pair s k v)) in *.
      destruct (tree_add_nonempty s1 sent t (nxt s) W1 Hn) as [s' [t' [E [W' [Hn' [C' [A AE]]]]]]];
        auto; [lia|].
      exists (tid t', s'). split; [exact E|]. split; [apply (good_tree s' sent t'); auto|].
      split.
      { intros En Ev. apply (even_of s' sent t' W'). destruct (even_at s sent t W Hn Ev) as [m Bm].
        apply (AE m Bm). rewrite DK. intros Habs. cbn [ends_at] in En.
        assert (HG : gets (tid t, s) k None).
        { destruct (gets_tree s sent t k W Hn) as [_ B]. apply B. intros d [j [Hj [Kj _]]].
          apply (Habs j Hj). destruct (KD j Hj). congruence. }
        assert (HK : forall j, In j (nodes t) -> gets (tid t, s) (key s1 j) (Some (dat s j))).
        { intros j Hj. destruct (KD j Hj) as [A1 _]. rewrite A1. destruct (gets_tree s sent t (key s j) W Hn) as [B _].
          apply B. exists j; auto. }
        destruct (En HG) as [H|H]; [left|right]; intros j Hj; eapply H; apply (HK j Hj). }
      destruct A as [i Hi Ki Nt Da Dk Dv|n b a Habs N1 N2 Dn Da Dk Dv].
      * rewrite DK in Ki. rewrite DV in Dv.
        assert (IT : forall k' d, in_tree s' t' k' d <-> in_tree s t k' d).
        { intros k' d. unfold in_tree. rewrite Nt.
          assert (KK : forall j, In j (nodes t) -> key s' j = key s j /\ dat s' j = dat s j).
          { intros j Hj. destruct (KD j Hj) as [A1 A2]. rewrite <- A1, <- A2, (Da j Hj). split; auto.
            apply key_same; auto. }
          split; intros [j [Hj [Kj Dj]]]; exists j; destruct (KK j Hj) as [A1 A2]; ands; congruence. }
        assert (Fresh : forall k' d, in_tree s t k' d -> d <> nxt s).
        { intros k' d [j [Hj [_ <-]]]. pose proof (w_dat _ _ _ W j Hj). lia. }
        ands.
        -- intros k' d H. destruct (gets_tree s' sent t' k' W' Hn') as [A _]. apply A, IT.
           destruct (gets_tree s sent t k' W Hn) as [B _]. apply B; auto.
        -- intros k' _ H. destruct (gets_tree s' sent t' k' W' Hn') as [_ A]. apply A.
           intros d Hd. apply IT in Hd. destruct (gets_tree s sent t k' W Hn) as [_ B]. apply (proj1 B H d); auto.
        -- cbn [snd]. intros k' d Hk H. destruct (gets_tree s sent t k' W Hn) as [B _]. apply B in H.
           pose proof (Fresh _ _ H) as Hf. rewrite Dv by auto. rewrite upN_other; [apply DO; auto|].
           destruct H as [j [Hj [Kj Dj]]]. intros ->. destruct (KD i Hi) as [A1 A2].
           apply Hk. rewrite <- Kj, <- Ki, A1. unfold key. rewrite Dj. congruence.
        -- exists (dat s i). cbn [snd]. split.
           ++ destruct (gets_tree s' sent t' k W' Hn') as [A _]. apply A, IT. exists i.
              destruct (KD i Hi) as [A1 A2]. ands; auto. congruence.
           ++ assert (dat s i <> nxt s) by (apply (Fresh k); exists i; destruct (KD i Hi); ands; auto; congruence).
              rewrite Dv by auto. destruct (KD i Hi) as [A1 A2]. rewrite A2. apply upN_same.
      * rewrite DK in Habs.
        assert (KK : forall j, In j (nodes t) -> key s' j = key s j /\ dat s' j = dat s j).
        { intros j Hj. destruct (KD j Hj) as [A1 A2]. rewrite <- A1, <- A2, (Da j Hj). split; auto.
          apply key_same; auto. }
        assert (Kn : key s' n = k) by (unfold key; rewrite Dn, Dk; exact DK).
        assert (Hin : forall j, In j (nodes t') <-> j = n \/ In j (nodes t)).
        { intros j. rewrite N1, N2. rewrite !in_app_iff. cbn [In]. split; intuition. }
        assert (Fresh : forall k' d, in_tree s t k' d -> d <> nxt s).
        { intros k' d [j [Hj [_ <-]]]. pose proof (w_dat _ _ _ W j Hj). lia. }
        ands.
        -- intros k' d H. destruct (gets_tree s' sent t' k' W' Hn') as [A _]. apply A.
           destruct (gets_tree s sent t k' W Hn) as [B _]. apply B in H.
           destruct H as [j [Hj [Kj Dj]]]. exists j. destruct (KK j Hj). ands; try congruence. apply Hin; auto.
        -- intros k' Hk H. destruct (gets_tree s' sent t' k' W' Hn') as [_ A]. apply A.
           intros d [j [Hj [Kj Dj]]]. apply Hin in Hj. destruct Hj as [->|Hj]; [congruence|].
           destruct (gets_tree s sent t k' W Hn) as [_ B].
           apply (proj1 B H d). destruct (KK j Hj). exists j; ands; auto; congruence.
        -- cbn [snd]. intros k' d Hk H. destruct (gets_tree s sent t k' W Hn) as [B _]. apply B in H.
           pose proof (Fresh _ _ H) as Hf. rewrite Dv. apply DO; auto.
        -- exists (nxt s). cbn [snd]. split.
           ++ destruct (gets_tree s' sent t' k W' Hn') as [A _]. apply A. exists n. ands; auto. apply Hin; auto.
           ++ rewrite Dv. exact DV.
    + cbn [tstep]. change (new_pair s k v) with (nxt s, snd (new_pair s k v)). cbv iota beta.
      destruct (pair_wft s sent t k v W) as [W1 [KD [DK [DV [NX [FR DO]]]]]].
      set (s1 := snd (new_pair s k v)) in *.
      assert (Kt1 : kind s1 (tid t) = NodeC).
      { destruct t as [|x l r]; [destruct Hn|]. apply (okt_kind s1 sent Top x l r (w_ok _ _ _ W1)). }
      assert (Fresh : forall k' d, in_tree s t k' d -> d <> nxt s).
      { intros k' d [j [Hj [_ <-]]]. pose proof (w_dat _ _ _ W j Hj). lia. }
      unfold tree_upd, isnull. rewrite Kt1. cbn [rbind]. rewrite DK.
      destruct (search_ok t Top (loop_fuel s1) s1 sent k (w_ok _ _ _ W1) (w_sorted _ _ _ W1))
        as [[x [E [Kx [I KX]]]]|[E F]].
      { intros i []. }
      { intros i []. }
      { pose proof (wft_height _ _ _ W1). unfold loop_fuel. lia. }
      * cbn [plug] in I. rewrite E. cbn [rbind]. unfold nvalue, data, on_node. rewrite KX. cbn [rbind].
        rewrite DV.
        set (s' := set_dval (set_dval s1 (dat s1 x) v) (nxt s) (dval s1 (dat s1 x))).
        assert (W' : wft s' sent t).
        { constructor.
          - eapply okt_links; [exact (w_ok _ _ _ W1)| | | |]; reflexivity.
          - exact (w_lt _ _ _ W1).
          - exact (w_dat _ _ _ W1).
          - exact (w_sorted _ _ _ W1). }
        exists (tid t, s'). split; [reflexivity|]. split; [apply (good_tree s' sent t); auto|].
        split; [intros _ Ev; apply (even_of s' sent t W'); destruct (even_at s sent t W Hn Ev) as [m Bm]; exists m; exact Bm|].
        assert (IT : forall k' d, in_tree s' t k' d <-> in_tree s t k' d).
        { intros k' d. unfold in_tree. split; intros [j [Hj [Kj Dj]]]; exists j; destruct (KD j Hj) as [A1 A2].
          - change (key s1 j = k') in Kj. ands; auto. congruence.
          - ands; auto. change (key s1 j = k'). congruence. }
        destruct (KD x I) as [Kx' Dx'].
        ands.
        -- intros k' d H. destruct (gets_tree s' sent t k' W' Hn) as [A _]. apply A, IT.
           destruct (gets_tree s sent t k' W Hn) as [B _]. apply B; auto.
        -- intros k' _ H. destruct (gets_tree s' sent t k' W' Hn) as [_ A]. apply A.
           intros d Hd. apply IT in Hd. destruct (gets_tree s sent t k' W Hn) as [_ B]. apply (proj1 B H d); auto.
        -- cbn [snd]. intros k' d Hk H. destruct (gets_tree s sent t k' W Hn) as [B _]. apply B in H.
           pose proof (Fresh _ _ H) as Hf. unfold s', set_dval; cbn [dval]. rewrite upN_other by auto.
           rewrite upN_other; [apply DO; auto|].
           destruct H as [j [Hj [Kj Dj]]]. intros ->. apply Hk. rewrite <- Kj, <- Kx, Kx'.
           unfold key. rewrite Dj. f_equal.
        -- cbn [snd]. intros d H. destruct (gets_tree s sent t k W Hn) as [B _]. apply B in H.
           pose proof (Fresh _ _ H) as Hf. unfold s', set_dval; cbn [dval]. rewrite upN_other by auto.
           destruct H as [j [Hj [Kj Dj]]].
           assert (j = x) as ->.
           { eapply sorted_key_inj; [exact (w_sorted _ _ _ W)|auto|auto|congruence]. }
           rewrite Dx', Dj. apply upN_same.
      * cbn [plug] in F. rewrite E. cbn [rbind].
        assert (IT : forall k' d, in_tree s1 t k' d <-> in_tree s t k' d).
        { intros k' d. unfold in_tree. split; intros [j [Hj [Kj Dj]]]; exists j; destruct (KD j Hj) as [A1 A2];
          ands; auto; congruence. }
        exists (tid t, s1). split; [reflexivity|]. split; [apply (good_tree s1 sent t); auto|].
        split; [intros _ Ev; apply (even_of s1 sent t W1); destruct (even_at s sent t W Hn Ev) as [m Bm]; exists m; exact Bm|].
        ands.
        -- intros k' d H. destruct (gets_tree s1 sent t k' W1 Hn) as [A _]. apply A, IT.
           destruct (gets_tree s sent t k' W Hn) as [B _]. apply B; auto.
        -- intros k' _ H. destruct (gets_tree s1 sent t k' W1 Hn) as [_ A]. apply A.
           intros d Hd. apply IT in Hd. destruct (gets_tree s sent t k' W Hn) as [_ B]. apply (proj1 B H d); auto.
        -- cbn [snd]. intros k' d Hk H. destruct (gets_tree s sent t k' W Hn) as [B _]. apply B in H.
           apply DO. eapply Fresh; eauto.
        -- intros d H. exfalso. destruct (gets_tree s sent t k W Hn) as [B _]. apply B in H.
           destruct H as [j [Hj [Kj _]]]. apply (F j Hj). destruct (KD j Hj). congruence.
Qed.

(** [st] holds exactly the bindings of [m]. *)
Definition holds (st : N * mem) (m : gmap) : Prop :=
  forall k, match m k with
            | Some v => exists d, gets st k (Some d) /\ dval (snd st) d = v
            | None => gets st k None
            end.

Lemma gset_eq : forall m k v, gset m k v k = Some v.
Proof. intros; unfold gset; destruct (list_eq_dec N.eq_dec k k); congruence. Qed.
Lemma gset_ne : forall m k v k', k' <> k -> gset m k v k' = m k'.
Proof. intros; unfold gset; destruct (list_eq_dec N.eq_dec k' k); congruence. Qed.

Lemma step_holds : forall st o m, good st -> holds st m ->
  exists st', tstep st o = Ok st' /\ good st' /\ holds st' (meaning1 m o) /\
    (forall k d, gets st k (Some d) -> gets st' k (Some d)) /\ (ends_at st o -> even st -> even st').
Proof.
  intros st o m G H. destruct (step_ok st o G) as [st' [E [G' [PE [P1 [P2 [P3 P4]]]]]]].
  exists st'. ands; auto. intros k'. specialize (H k') as Hk.
  destruct o as [k v|k v]; cbn [meaning1].
  - destruct (sym_eq_dec k' k) as [->|Hne].
    + rewrite gset_eq. exact P4.
    + rewrite gset_ne by auto. destruct (m k') as [w|].
      * destruct Hk as [d [Hd Hw]]. exists d. split; auto. rewrite <- Hw. eapply P3; eauto.
      * apply P2; auto.
  - destruct (m k) as [v0|] eqn:Mk.
    + destruct (sym_eq_dec k' k) as [->|Hne].
      * rewrite gset_eq. rewrite Mk in Hk. destruct Hk as [d [Hd _]]. exists d. split; auto.
      * rewrite gset_ne by auto. destruct (m k') as [w|].
        -- destruct Hk as [d [Hd Hw]]. exists d. split; auto. rewrite <- Hw. eapply P3; eauto.
        -- apply P2; auto.
    + destruct (m k') as [w|] eqn:Mk'.
      * destruct Hk as [d [Hd Hw]]. exists d. split; auto. rewrite <- Hw.
        apply (P3 k'); auto. congruence.
      * apply P2; auto.
Qed.

Lemma empty_good : good empty_tree.
Proof. apply good_empty; reflexivity. Qed.
Lemma empty_holds : holds empty_tree (fun _ => None).
Proof. intros k. apply gets_empty. reflexivity. Qed.

Lemma run_holds : forall h st m, good st -> holds st m ->
  exists st', trun h st = Ok st' /\ good st' /\ holds st' (fold_left meaning1 h m) /\
    (forall k d, gets st k (Some d) -> gets st' k (Some d)).
Proof.
  induction h as [|o h IH]; intros st m G H; cbn [trun fold_left].
  - exists st; ands; auto.
  - destruct (step_holds st o m G H) as [st1 [E [G1 [H1 [S1 _]]]]]. rewrite E. cbn [rbind].
    destruct (IH st1 _ G1 H1) as [st2 [E2 [G2 [H2 S2]]]]. exists st2; ands; auto.
Qed.

(** Definitions at the ends keep the tree even. *)
Lemma ends_holds : forall st m o, holds st m ->
  (forall k v, o = TSet k v -> m k = None ->
     (forall k', m k' <> None -> sym_lt k' k) \/ (forall k', m k' <> None -> sym_lt k k')) -> ends_at st o.
Proof.
  intros st m [k v|k v] H En; cbn [ends_at]; auto. intros N.
  assert (M : forall k' d, gets st k' (Some d) -> m k' <> None).
  { intros k' d G E. specialize (H k'). rewrite E in H. pose proof (gets_fun _ _ _ _ G H). discriminate. }
  destruct (En k v eq_refl) as [A|A].
  - specialize (H k). destruct (m k) as [w|]; auto. destruct H as [d [G _]]. pose proof (gets_fun _ _ _ _ G N). discriminate.
  - left. intros k' d G. eauto.
  - right. intros k' d G. eauto.
Qed.
Lemma run_even : forall h st m, good st -> holds st m -> even st ->
  (forall h1 k v h2, h = h1 ++ TSet k v :: h2 -> fold_left meaning1 h1 m k = None ->
     (forall k', fold_left meaning1 h1 m k' <> None -> sym_lt k' k) \/
     (forall k', fold_left meaning1 h1 m k' <> None -> sym_lt k k')) ->
  exists st', trun h st = Ok st' /\ good st' /\ holds st' (fold_left meaning1 h m) /\ even st'.
Proof.
  induction h as [|o h IH]; intros st m G H Ev En; cbn [trun fold_left].
  - exists st; ands; auto.
  - destruct (step_holds st o m G H) as [st1 [E [G1 [H1 [_ SE]]]]]. rewrite E. cbn [rbind].
    apply (IH st1 _ G1 H1).
    + apply SE; auto. apply (ends_holds st m o H). intros k v -> N. exact (En [] k v h eq_refl N).
    + intros h1 k v h2 Eh. exact (En (o :: h1) k v h2 (f_equal (cons o) Eh)).
Qed.
(** What evenness gives: size, height, no two coloured nodes in a row. *)
Lemma bal_size : forall t f m, bal f t m -> (2 ^ m <= S (length (nodes t)))%nat.
Proof.
  induction t as [i|i l IHl r IHr]; intros f m B; cbn [bal nodes] in *; [destruct B as [_ ->]; cbn; lia|].
  rewrite app_length. cbn [length]. destruct (f i).
  - destruct B as (_ & _ & Bl & _). apply IHl in Bl. lia.
  - destruct B as (k & -> & Bl & Br). apply IHl in Bl. apply IHr in Br. cbn [Nat.pow]. lia.
Qed.
Lemma bal_height : forall t f m, bal f t m -> (height t <= 2 * m + (if f (tid t) then 1 else 0))%nat.
Proof.
  induction t as [i|i l IHl r IHr]; intros f m B; cbn [bal height tid] in *; [lia|].
  destruct (f i).
  - destruct B as (Fl & Fr & Bl & Br). apply IHl in Bl. apply IHr in Br. rewrite Fl in Bl. rewrite Fr in Br. lia.
  - destruct B as (k & -> & Bl & Br). apply IHl in Bl. apply IHr in Br.
    destruct (f (tid l)), (f (tid r)); lia.
Qed.
Lemma tall_height : forall s x n, tall s x n -> forall par t, rt s par t -> tid t = x -> (n <= height t)%nat.
Proof.
  induction 1 as [x K|x n K T IH|x n K T IH]; intros par t R E; [lia| |];
    (destruct t as [i|i l r]; cbn [rt tid height] in *; [congruence|]);
    destruct R as (_ & _ & L & Rr & Hl & Hr); subst i.
  - specialize (IH _ l Hl (eq_sym L)). lia.
  - specialize (IH _ r Hr (eq_sym Rr)). lia.
Qed.
Lemma bal_alternate : forall s r0 x, below s r0 x -> forall par t m, rt s par t -> tid t = r0 -> bal (col s) t m ->
  col s x = true -> (x = r0 /\ pf s x = par) \/ col s (pf s x) = false.
Proof.
  assert (P : forall s par t, rt s par t -> is_nd t -> pf s (tid t) = par).
  { intros s par [i|i l r] R H; [destruct H|]. cbn [rt tid] in *. tauto. }
  induction 1 as [x K|x y K Bl IH|x y K Bl IH]; intros par t m R E B C;
    (destruct t as [i|i l r]; cbn [rt tid] in R, E; [congruence|]); subst i;
    destruct R as (_ & Pp & L & Rr & Hl & Hr).
  - left; auto.
  - right. cbn [bal] in B. destruct (col s x) eqn:Cx.
    + destruct B as (Fl & _ & B1 & _). destruct (IH x l m Hl (eq_sym L) B1 C) as [[E _]|H]; auto. rewrite E, L in C. congruence.
    + destruct B as (k & -> & B1 & _). destruct (IH x l k Hl (eq_sym L) B1 C) as [[E P1]|H]; auto. congruence.
  - right. cbn [bal] in B. destruct (col s x) eqn:Cx.
    + destruct B as (_ & Fr & _ & B1). destruct (IH x r m Hr (eq_sym Rr) B1 C) as [[E _]|H]; auto. rewrite E, Rr in C. congruence.
    + destruct B as (k & -> & _ & B1). destruct (IH x r k Hr (eq_sym Rr) B1 C) as [[E P1]|H]; auto. congruence.
Qed.

Lemma holds_tlookup : forall st m k, holds st m -> tlookup st k = Ok (m k).
Proof.
  intros [root s] m k H. specialize (H k). unfold tlookup. unfold gets in H; cbn [fst snd] in H.
  destruct (m k) as [v|].
  - destruct H as [d [-> <-]]. reflexivity.
  - rewrite H. reflexivity.
Qed.

Lemma history_ok : forall h, exists st, trun h empty_tree = Ok st /\
  forall k, tlookup st k = Ok (meaning h k).
Proof.
  intros h. destruct (run_holds h _ _ empty_good empty_holds) as [st [E [_ [H _]]]].
  exists st. split; auto. intros k. apply holds_tlookup; auto.
Qed.

(** Links. *)
Lemma rt_linked : forall t s par, rt s par t -> linked s par (tid t) (map (key s) (nodes t)).
Proof.
  induction t as [i|i l IHl r IHr]; intros s par H; cbn [rt tid nodes] in *.
  - constructor; auto.
  - destruct H as [K [P [L [R [Hl Hr]]]]]. rewrite map_app. cbn [map].
    apply linked_node; auto.
    + rewrite L. apply IHl; auto.
    + rewrite R. apply IHr; auto.
Qed.

Lemma good_linked : forall root s m, good (root, s) -> holds (root, s) m ->
  exists sent ks, kind s sent = NilC /\ linked s sent root ks /\ ssorted ks /\
    (kind s root = NodeC -> col s root = false) /\ (forall k, In k ks <-> m k <> None).
Proof.
  intros root s m G H. inversion G as [root' s' K Hr|s' sent t W Hn C]; subst.
  - exists root, []. ands; auto.
    + constructor; auto.
    + constructor.
    + congruence.
    + intros k. specialize (H k). pose proof (gets_empty root s k K) as E.
      destruct (m k) as [v|].
      * destruct H as [d [Hd _]]. pose proof (gets_fun _ _ _ _ Hd E). discriminate.
      * cbn. tauto.
  - exists sent, (map (key s) (nodes t)). destruct (w_ok _ _ _ W) as [A B _]. ands; auto.
    + apply rt_linked; auto.
    + apply (w_sorted _ _ _ W).
    + intros k. specialize (H k). destruct (gets_tree s sent t k W Hn) as [GS GN].
      rewrite in_map_iff. destruct (m k) as [v|].
      * destruct H as [d [Hd _]]. apply GS in Hd. destruct Hd as [i [Hi [Ki _]]].
        split; [discriminate|]. intros _. exists i; auto.
      * apply GN with (d := 0) in H as H0. split; [|tauto].
        intros [i [Ki Hi]]. exfalso. apply (proj1 GN H (dat s i)). exists i; auto.
Qed.

Lemma insertion_safe : forall h, exists root s sent ks, trun h empty_tree = Ok (root, s) /\
  kind s sent = NilC /\ linked s sent root ks /\ ssorted ks /\
  (kind s root = NodeC -> col s root = false) /\
  (forall k, In k ks <-> meaning h k <> None).
Proof.
  intros h. destruct (run_holds h _ _ empty_good empty_holds) as [[root s] [E [G [H _]]]].
  destruct (good_linked root s _ G H) as [sent [ks P]].
  exists root, s, sent, ks. split; auto.
Qed.

(** Names that come at the ends. *)
Lemma ends_even : forall h,
  (forall h1 k v h2, h = h1 ++ TSet k v :: h2 -> meaning h1 k = None ->
     (forall k', meaning h1 k' <> None -> sym_lt k' k) \/ (forall k', meaning h1 k' <> None -> sym_lt k k')) ->
  exists root s sent ks, trun h empty_tree = Ok (root, s) /\ linked s sent root ks /\
    (forall k, In k ks <-> meaning h k <> None) /\
    (forall x, below s root x -> col s x = true -> col s (pf s x) = false) /\
    (forall n, tall s root n -> (2 ^ n <= S (length ks) * S (length ks))%nat).
Proof.
  intros h En.
  assert (Ev0 : even empty_tree).
  { intros par t R E Nt. destruct t as [|x l r]; [destruct Nt|]. cbn [rt tid] in R, E. destruct R as [K _].
    cbn [fst snd empty_tree] in *. subst x. discriminate K. }
  destruct (run_even h _ _ empty_good empty_holds Ev0 En) as [[root s] [E [G [H Ev]]]].
  inversion G as [root' s' K Hr|s' sent t W Hn C]; subst.
  - exists root, s, root, []. ands; auto.
    + constructor; auto.
    + intros k. specialize (H k). pose proof (gets_empty root s k K) as E0.
      fold (meaning h) in H. destruct (meaning h k) as [v|].
      * destruct H as [d [Hd _]]. pose proof (gets_fun _ _ _ _ Hd E0). discriminate.
      * cbn. tauto.
    + intros x B _. inversion B; subst; congruence.
    + intros n T. inversion T; subst; try congruence. cbn; lia.
  - destruct (even_at s sent t W Hn Ev) as [m Bm]. destruct (w_ok _ _ _ W) as [A B _].
    exists (tid t), s, sent, (map (key s) (nodes t)). split; [exact E|]. split; [apply rt_linked; auto|]. split; [|split].
    + intros k. specialize (H k). fold (meaning h) in H. destruct (gets_tree s sent t k W Hn) as [GS GN].
      rewrite in_map_iff. destruct (meaning h k) as [v|].
      * destruct H as [d [Hd _]]. apply GS in Hd. destruct Hd as [i [Hi [Ki _]]].
        split; [discriminate|]. intros _. exists i; auto.
      * split; [|tauto]. intros [i [Ki Hi]]. exfalso. apply (proj1 GN H (dat s i)). exists i; auto.
    + intros x Bx Cx. destruct (bal_alternate s _ x Bx sent t m A eq_refl Bm Cx) as [[-> _]|H0]; [congruence|exact H0].
    + intros n T. pose proof (tall_height s _ n T sent t A eq_refl) as Hh.
      pose proof (bal_height _ _ _ Bm) as Hb. rewrite C in Hb. pose proof (bal_size _ _ _ Bm) as Hs.
      rewrite map_length. assert (n <= m + m)%nat by lia.
      apply Nat.le_trans with (2 ^ (m + m))%nat; [apply Nat.pow_le_mono_r; lia|].
      rewrite Nat.pow_add_r. apply Nat.mul_le_mono; auto.
Qed.

(** In-place update. *)
Lemma update_ok : forall h root s k v, trun h empty_tree = Ok (root, s) ->
  exists s', 
    (forall o, meaning h k = Some o ->
       exists d kv, tree_get s root k = Ok (Some d) /\
         tree_upd (snd (new_pair s k v)) root (fst (new_pair s k v)) = Ok (Some kv, s') /\
         dkey s' kv = k /\ dval s' kv = o /\
         tree_get s' root k = Ok (Some d) /\ dval s' d = v) /\
    (meaning h k = None ->
       tree_upd (snd (new_pair s k v)) root (fst (new_pair s k v)) = Ok (None, s') /\
       tree_get s' root k = Ok None) /\
    (forall k', k' <> k -> tree_get s' root k' = tree_get s root k' /\
       tlookup (root, s') k' = tlookup (root, s) k').
Proof.
  intros h root s k v E.
  destruct (run_holds h _ _ empty_good empty_holds) as [st [E' [G [H _]]]].
  rewrite E in E'. injection E' as <-. fold (meaning h) in H.
  destruct (step_ok (root, s) (TUpd k v) G) as [[root' s'] [Et [G' [_ [P1 [P2 [P3 P4]]]]]]].
  destruct (step_holds (root, s) (TUpd k v) (meaning h) G H) as [st2 [Et2 [_ [H2 _]]]].
  rewrite Et in Et2. injection Et2 as <-.
  cbn [tstep] in Et. change (new_pair s k v) with (nxt s, snd (new_pair s k v)) in Et. cbv iota beta in Et.
  cbn [fst snd].
  destruct (tree_upd (snd (new_pair s k v)) root (nxt s)) as [[r sx]| |] eqn:U; cbn [rbind] in Et; try discriminate.
  injection Et as <- <-. exists sx. ands.
  - intros o Mo. pose proof (H k) as Hk. rewrite Mo in Hk. destruct Hk as [d [Hd Hv]].
    unfold gets in Hd; cbn [fst snd] in Hd.
    assert (R : r = Some (nxt s) /\ dkey sx (nxt s) = k /\ dval sx (nxt s) = dval s d).
    { change (nxt s) with (fst (new_pair s k v)) in U.
      inversion G as [root' s' K Hr|s' sent t W Hn C]; subst.
      { pose proof (gets_empty root s k K) as Eg. unfold gets in Eg; cbn [fst snd] in Eg. congruence. }
      destruct (pair_wft s sent t k v W) as [W1 [KD [DK [DV [NX [FR DO]]]]]].
      cbv zeta in *. set (s1 := snd (new_pair s k v)) in *.
      assert (Kt1 : kind s1 (tid t) = NodeC).
      { destruct t as [|x l r']; [destruct Hn|]. apply (okt_kind s1 sent Top x l r' (w_ok _ _ _ W1)). }
      unfold tree_upd, isnull in U. rewrite Kt1 in U. cbn [rbind fst] in U. 
      change (fst (new_pair s k v)) with (nxt s) in *. rewrite DK in U.
      destruct (search_ok t Top (loop_fuel s1) s1 sent k (w_ok _ _ _ W1) (w_sorted _ _ _ W1))
        as [[x [Es [Kx [I KX]]]]|[Es F]].
      { intros i []. }
      { intros i []. }
      { pose proof (wft_height _ _ _ W1). unfold loop_fuel. lia. }
      - rewrite Es in U. cbn [rbind] in U. unfold nvalue, data, on_node in U. rewrite KX in U. cbn [rbind] in U.
        injection U as <- <-. ands; auto.
        unfold set_dval; cbn [dval]. rewrite upN_same. cbn [plug] in I.
        destruct (KD x I) as [A1 A2]. transitivity (dval s1 (dat s1 x)); [reflexivity|]. rewrite A2, DO.
        + destruct (gets_tree s sent t k W Hn) as [GS _]. apply GS in Hd.
          destruct Hd as [j [Hj [Kj Dj]]]. f_equal.
          rewrite <- Dj. f_equal. eapply sorted_key_inj; [exact (w_sorted _ _ _ W)|auto|auto|congruence].
        + pose proof (w_dat _ _ _ W x I). lia.
      - exfalso. destruct (gets_tree s sent t k W Hn) as [GS _]. apply GS in Hd.
        destruct Hd as [j [Hj [Kj _]]]. cbn [plug] in F. apply (F j Hj). destruct (KD j Hj). congruence. }
    destruct R as [-> [R1 R2]]. exists d, (nxt s). ands; auto.
    + cbn [snd] in Hv; congruence.
    + apply (P1 k d). exact Hd.
  - intros Mo. pose proof (H k) as Hk. rewrite Mo in Hk.
    pose proof (P2 k I Hk) as Hn'. unfold gets in Hn'; cbn [fst snd] in Hn'. split; auto.
    assert (R : r = None); [|subst; auto].
    clear P1 P2 P3 P4 H2 G'. unfold gets in Hk; cbn [fst snd] in Hk.
    unfold tree_upd in U. unfold tree_get, tree_get_node in Hk.
    inversion G as [root' s' K Hr|s' sent t W Hn C]; subst.
    + unfold isnull in U. cbn [snd new_pair kind] in U. rewrite K in U. cbn [rbind] in U.
      injection U as <- <-. auto.
    + destruct (pair_wft s sent t k v W) as [W1 [KD [DK [DV [NX [FR DO]]]]]].
      cbv zeta in *. set (s1 := snd (new_pair s k v)) in *.
      assert (Kt1 : kind s1 (tid t) = NodeC).
      { destruct t as [|x l r']; [destruct Hn|]. apply (okt_kind s1 sent Top x l r' (w_ok _ _ _ W1)). }
      unfold isnull in U. rewrite Kt1 in U. cbn [rbind] in U. rewrite DK in U.
      destruct (search_ok t Top (loop_fuel s1) s1 sent k (w_ok _ _ _ W1) (w_sorted _ _ _ W1))
        as [[x [Es [Kx [I' KX]]]]|[Es F]].
      { intros i []. }
      { intros i []. }
      { pose proof (wft_height _ _ _ W1). unfold loop_fuel. lia. }
      * exfalso. pose proof (H k) as Hk2. rewrite Mo in Hk2.
        destruct (gets_tree s sent t k W Hn) as [_ GN]. apply (proj1 GN Hk2 (dat s x)).
        cbn [plug] in I'. destruct (KD x I'). exists x; ands; auto. congruence.
      * rewrite Es in U. cbn [rbind] in U. injection U as <- <-. auto.
  - intros k' Hne. pose proof (H k') as Hk. pose proof (H2 k') as Hk2.
    assert (Em : meaning1 (meaning h) (TUpd k v) k' = meaning h k').
    { cbn [meaning1]. destruct (meaning h k); auto. apply gset_ne; auto. }
    rewrite (holds_tlookup (root, sx) _ k' H2), (holds_tlookup (root, s) _ k' H), Em. split; auto.
    destruct (meaning h k') as [w|].
    + destruct Hk as [d [Hd _]]. pose proof (P1 _ _ Hd) as Hd'. unfold gets in *; cbn [fst snd] in *. congruence.
    + pose proof (P2 k' I Hk) as Hd'. unfold gets in *; cbn [fst snd] in *. congruence.
Qed.

(** The cache. *)
Definition caches_ok (name : N -> symbol) (st : N * mem) (cs : caches) : Prop :=
  forall o d, cs o = Some d -> gets st (name o) (Some d).

Lemma scan_first : forall c k before w after, c = before ++ (k, w) :: after -> ~ In k (map fst before) -> scan c k = Some w.
Proof.
  intros c k before w after ->. induction before as [|[k' v'] b IH]; intro N; cbn.
  - rewrite (proj2 (sym_match_eq k k) eq_refl). auto.
  - cbn in N. destruct (sym_match k' k) eqn:M; [|apply IH; tauto]. apply sym_match_eq in M. exfalso. apply N. auto.
Qed.
Lemma scan_absent : forall c k, ~ In k (map fst c) -> scan c k = None.
Proof.
  induction c as [|[k' v'] c IH]; intros k N; cbn; auto. cbn in N.
  destruct (sym_match k' k) eqn:M; [|apply IH; tauto]. apply sym_match_eq in M. exfalso. apply N. auto.
Qed.
Lemma ans_scan : forall name m o c r v vs,
    (forall w, scan c (name o) = Some w -> v = w) ->
    (scan c (name o) = None -> v = match m (name o) with Some w => w | None => Nil end) ->
    answers name m r vs -> answers name m (CLook o c :: r) (v :: vs).
Proof.
  intros name m o c r v vs A B C. constructor; auto.
  - intros b w a E N. apply A. eapply scan_first; eauto.
  - intro N. apply B. apply scan_absent. auto.
Qed.
Lemma crun_ok : forall name h st cs m, good st -> holds st m -> caches_ok name st cs ->
  exists vs, crun name h st cs = Ok vs /\ answers name m h vs.
Proof.
  induction h as [|[t|o c] h IH]; intros st cs m G H C; cbn [crun].
  - exists []. split; auto. constructor.
  - destruct (step_holds st t m G H) as [st1 [E [G1 [H1 [S1 _]]]]]. rewrite E. cbn [rbind].
    destruct (IH st1 cs _ G1 H1) as [vs [E2 A]].
    { intros o d Ho. apply S1, C; auto. }
    exists vs. split; auto. constructor; auto.
  - unfold lookup. destruct (scan c (name o)) as [w|] eqn:Sc.
    + cbn [rbind]. destruct (IH st cs m G H C) as [vs [E A]]. rewrite E. cbn [rbind].
      exists (w :: vs). split; auto. apply ans_scan; auto; intros; congruence.
    + pose proof (H (name o)) as Ho.
      destruct (cs o) as [d|] eqn:Co.
      * cbn [rbind]. destruct (IH st cs m G H C) as [vs [E A]]. rewrite E. cbn [rbind].
        eexists; split; [reflexivity|]. apply ans_scan; auto; intros; try congruence.
        apply C in Co. destruct (m (name o)) as [w|].
        -- destruct Ho as [d' [Hd <-]]. pose proof (gets_fun _ _ _ _ Co Hd). congruence.
        -- pose proof (gets_fun _ _ _ _ Co Ho). discriminate.
      * destruct (m (name o)) as [w|] eqn:Mo.
        -- destruct Ho as [d [Hd Hw]]. unfold gets in Hd. rewrite Hd. cbn [rbind].
           destruct (IH st (upN cs o (Some d)) m G H) as [vs [E A]].
           { intros o' d' Ho'. unfold upN in Ho'. destruct (N.eqb_spec o' o) as [->|].
             - injection Ho' as <-. exact Hd.
             - apply C; auto. }
           rewrite E. cbn [rbind]. eexists; split; [reflexivity|].
           apply ans_scan; auto; intros; try congruence. rewrite Mo. auto.
        -- unfold gets in Ho. rewrite Ho. cbn [rbind].
           destruct (IH st cs m G H C) as [vs [E A]]. rewrite E. cbn [rbind].
           eexists; split; [reflexivity|]. apply ans_scan; auto; intros; try congruence.
           rewrite Mo. auto.
Qed.

Lemma cache_fresh : forall name h, exists vs,
  crun name h empty_tree (fun _ => None) = Ok vs /\ answers name (fun _ => None) h vs.
Proof.
  intros name h. apply crun_ok.
  - apply empty_good.
  - apply empty_holds.
  - intros o d H; discriminate.
Qed.

(** ** Removal of a coloured node with a NIL child *)

Lemma unlink_left : forall s s' sent c p rr y a b xt,
  okt s sent (plug (CL c p rr) (Nd y a b)) -> xt = a \/ xt = b ->
  (forall i, i <> y -> kind s' i = kind s i) ->
  lf s' p = tid xt -> (forall i, i <> p -> lf s' i = lf s i) ->
  rf s' = rf s -> (forall i, i <> tid xt -> pf s' i = pf s i) ->
  (is_nd xt -> pf s' (tid xt) = p) ->
  okt s' sent (plug (CL c p rr) xt).
Proof.
  intros s s' sent c p rr y a b xt O Hxt HK Lp HL HR HP Hpx.
  pose proof (plug_parts _ _ _ _ O) as [RC RT]. cbn [rc tid] in RC.
  destruct RC as [Kp [Ly [Rp [Pp [Rr RC]]]]]. cbn [pid rt] in RT.
  destruct RT as [Ky [Py [La [Rb [Ra Rb']]]]].
  assert (ND : NoDup (y :: p :: ids a ++ ids b ++ sent :: ids rr ++ cids c)).
  { destruct O as [_ _ ND]. eapply Permutation_NoDup; [|exact ND]. rewrite ids_plug. cbn [ids cids]. perm. }
  apply NoDup_cons_iff in ND. destruct ND as [Ny ND]. apply NoDup_cons_iff in ND. destruct ND as [Np ND].
  cbn [In] in Ny. rewrite !in_app_iff in Ny, Np. cbn [In] in Ny, Np. rewrite !in_app_iff in Ny, Np.
  assert (Hout : forall j, In j (sent :: ids rr ++ cids c) -> j <> tid xt).
  { intros j Hj E. subst j.
    assert (Hx : In (tid xt) (ids a ++ ids b)).
    { apply in_or_app. destruct Hxt as [->| ->]; [left|right]; apply tid_in_ids. }
    rewrite app_assoc in ND. eapply nodup_app_ne; [exact ND|exact Hx|exact Hj|reflexivity]. }
  assert (SA : forall j, In j (sent :: ids rr ++ cids c) -> same_at s s' j).
  { intros j Hj. pose proof (Hout j Hj). unfold same_at.
    assert (j <> y /\ j <> p) as [J1 J2].
    { cbn [In] in Hj. rewrite in_app_iff in Hj. split; intros ->; destruct Hj as [Hj|[Hj|Hj]]; tauto. }
    rewrite HK, HL, HR, HP by auto. auto. }
  assert (Hpn : p <> y) by (intros ->; tauto).
  assert (Hpx' : p <> tid xt).
  { intros E. apply Np. pose proof (tid_in_ids xt) as T. rewrite <- E in T. destruct Hxt as [->| ->]; auto. }
  assert (NDx : NoDup (ids xt)).
  { destruct Hxt as [->| ->].
    - apply NoDup_app_remove_r in ND; auto.
    - apply NoDup_app_remove_l in ND. apply NoDup_app_remove_r in ND; auto. }
  assert (Hin : forall j, In j (ids xt) -> j <> y /\ j <> p).
  { intros j Hj; split; intros ->; destruct Hxt as [->| ->]; tauto. }
  destruct (proj2 (rt_plug (CL c p rr) s' xt sent)) as [A B].
  - cbn [rc pid]. split.
    + ands.
      * rewrite HK; auto.
      * exact Lp.
      * rewrite HR; auto.
      * rewrite HP; auto.
      * apply (rt_ext rr s); auto. intros j Hj; apply SA. right; apply in_or_app; auto.
      * apply (rc_ext c s); auto. intros j [<-|Hj]; apply SA; [left; auto|right; apply in_or_app; auto].
    + destruct (Hin (tid xt) (tid_in_ids xt)) as [Tx1 Tx2].
      refine (rt_reparent xt s s' y p _ NDx _ (HK _ Tx1) (HL _ Tx2) _ _).
      * destruct Hxt as [->| ->]; auto.
      * intros j Hj Hne. destruct (Hin j Hj). unfold same_at. rewrite HK, HL, HR, HP by auto. auto.
      * rewrite HR; auto.
      * intros i l r ->. apply Hpx. exact I.
  - constructor; auto. rewrite ids_plug. cbn [cids].
    destruct O as [_ _ ND0]. destruct Hxt as [->| ->].
    + eapply (NoDup_app_remove_l _ (y :: ids b)). eapply Permutation_NoDup; [|exact ND0].
      rewrite ids_plug. cbn [ids cids]. perm.
    + eapply (NoDup_app_remove_l _ (y :: ids a)). eapply Permutation_NoDup; [|exact ND0].
      rewrite ids_plug. cbn [ids cids]. perm.
Qed.

Lemma unlink_right : forall s s' sent c p ll y a b xt,
  okt s sent (plug (CR c p ll) (Nd y a b)) -> xt = a \/ xt = b ->
  (forall i, i <> y -> kind s' i = kind s i) ->
  rf s' p = tid xt -> (forall i, i <> p -> rf s' i = rf s i) ->
  lf s' = lf s -> (forall i, i <> tid xt -> pf s' i = pf s i) ->
  (is_nd xt -> pf s' (tid xt) = p) ->
  okt s' sent (plug (CR c p ll) xt).
Proof.
  intros s s' sent c p ll y a b xt O Hxt HK Rp HR HL HP Hpx.
  apply okt_mir in O. rewrite plug_mt in O. cbn [mt mc] in O.
  pose proof (unlink_left (mir s) (mir s') sent (mc c) p (mt ll) y (mt b) (mt a) (mt xt) O) as H.
  cbn [mir kind lf pf rf] in H. rewrite tid_mt in H.
  assert (O' : okt (mir s') sent (plug (CL (mc c) p (mt ll)) (mt xt))).
  { apply H; auto.
    - destruct Hxt as [->| ->]; auto.
    - intros Hn. apply Hpx. destruct xt; auto. }
  apply okt_mir in O'. rewrite plug_mt in O'. cbn [mt mc] in O'.
  rewrite mir_mir, mc_mc, !mt_mt in O'. exact O'.
Qed.

Lemma plug_nodes_split : forall c x l r t, plug c (Nd x l r) = t -> In x (nodes t).
Proof. intros c x l r t <-. rewrite nodes_plug. cbn [nodes]. rewrite !in_app_iff. cbn; auto. Qed.

Lemma nodes_zip : forall t x, In x (nodes t) -> exists c l r, t = plug c (Nd x l r).
Proof.
  induction t as [i|i l IHl r IHr]; intros x H; cbn [nodes] in H; [destruct H|].
  apply in_app_iff in H. destruct H as [H|[<-|H]].
  - destruct (IHl x H) as [c [a [b E]]].
    assert (G : forall c t, exists c', forall u, Nd i (plug c u) r = plug c' u /\ (t = plug c u -> True)).
    { clear. induction c as [|c IH j rr|c IH j ll]; intros t.
      - exists (CL Top i r). cbn; auto.
      - destruct (IH t) as [c' P]. exists (CL c' j rr). intros u; split; auto. cbn [plug].
        apply (P (Nd j u rr)).
      - destruct (IH t) as [c' P]. exists (CR c' j ll). intros u; split; auto. cbn [plug].
        apply (P (Nd j ll u)). }
    destruct (G c l) as [c' P]. exists c', a, b. rewrite E. apply P.
  - exists Top, l, r. auto.
  - destruct (IHr x H) as [c [a [b E]]].
    assert (G : forall c t, exists c', forall u, Nd i l (plug c u) = plug c' u /\ (t = plug c u -> True)).
    { clear. induction c as [|c IH j rr|c IH j ll]; intros t.
      - exists (CR Top i l). cbn; auto.
      - destruct (IH t) as [c' P]. exists (CL c' j rr). intros u; split; auto. cbn [plug].
        apply (P (Nd j u rr)).
      - destruct (IH t) as [c' P]. exists (CR c' j ll). intros u; split; auto. cbn [plug].
        apply (P (Nd j ll u)). }
    destruct (G c r) as [c' P]. exists c', a, b. rewrite E. apply P.
Qed.

Lemma below_nodes : forall s t par x, rt s par t -> below s (tid t) x -> In x (nodes t).
Proof.
  intros s t par x RT B. remember (tid t) as r eqn:E. revert t par RT E.
  induction B as [x K|x y K B IH|x y K B IH]; intros t par RT E; subst x;
    (destruct t as [i|i l r]; cbn [rt tid nodes] in *; [congruence|]);
    destruct RT as [_ [_ [L [R [Hl Hr]]]]].
  - apply in_or_app; right; left; auto.
  - apply in_or_app; left. apply (IH l i); auto.
  - apply in_or_app; right; right. apply (IH r i); auto.
Qed.

Lemma ssorted_remove : forall a b c, ssorted (a ++ b :: c) -> ssorted (a ++ c).
Proof.
  intros a b c H. apply ssorted_app in H. destruct H as [A [B C]].
  inversion B; subst. apply ssorted_app. ands; auto. intros x y Hx Hy; apply C; cbn; auto.
Qed.

Lemma remove_coloured : forall h root s n, trun h empty_tree = Ok (root, s) ->
  below s root n -> col s n = true ->
  kind s (lf s n) = NilC \/ kind s (rf s n) = NilC ->
  exists root' s', tree_rem s root (dkey s (dat s n)) = Ok (root', s') /\
    tlookup (root', s') (dkey s (dat s n)) = Ok None /\
    forall k, k <> dkey s (dat s n) -> tlookup (root', s') k = Ok (meaning h k).
Proof.
  intros h root s n E B Cn Knil.
  destruct (run_holds h _ _ empty_good empty_holds) as [st [E' [G [H _]]]].
  rewrite E in E'. injection E' as <-. fold (meaning h) in H.
  inversion G as [root' s' K Hr|s' sent t W Hn C]; subst.
  { inversion B; congruence. }
  pose proof (w_ok _ _ _ W) as O.
  assert (Hin : In n (nodes t)) by (eapply below_nodes; [exact (ok_rt _ _ _ O)|auto]).
  fold (key s n). set (k := key s n).
  destruct (get_tree s sent t k W Hn) as [[x [Eg [_ [Kx [Ix KX]]]]]|[_ [_ F]]].
  2: { exfalso. apply (F n Hin). reflexivity. }
  assert (x = n) as -> by (eapply sorted_key_inj; [exact (w_sorted _ _ _ W)|auto|auto|auto]).
  destruct (nodes_zip t n Hin) as [c [a [b Et]]].
  assert (Hct : c <> Top).
  { intros ->. subst t. cbn in C. congruence. }
  rewrite Et in O. destruct (okt_at _ _ _ _ _ _ O) as [_ [Pn [Ln Rn]]].
  pose proof (plug_parts _ _ _ _ O) as [RC RT]. cbn [rt] in RT.
  destruct RT as [_ [Pfn [Lfn [Rfn [Ra Rb]]]]].
  assert (Kab : forall u, rt s n u -> kind s (tid u) = match u with Lf _ => NilC | _ => NodeC end).
  { intros [i|i l r] Hu; cbn in Hu |- *; tauto. }
  pose proof (Kab a Ra) as Ka. pose proof (Kab b Rb) as Kb.
  rewrite Lfn, Ka, Rfn, Kb in Knil.
  assert (Kp : kind s (pid c sent) = NodeC).
  { destruct c as [|c p rr|c p ll]; [congruence| |]; cbn [pid plug] in *.
    - apply (okt_kind s sent c p (Nd n a b) rr O).
    - apply (okt_kind s sent c p ll (Nd n a b) O). }
  set (xt := match a with Lf _ => b | Nd _ _ _ => a end).
  assert (Exy : (if match a with Lf _ => true | _ => false end then tid b else tid a) = tid xt).
  { destruct a; reflexivity. }
  assert (Hnx : n <> tid xt).
  { destruct O as [_ _ ND]. intros Heq.
    assert (ND' : NoDup (n :: ids a ++ ids b)).
    { apply (NoDup_app_remove_r _ _ (sent :: cids c)). eapply Permutation_NoDup; [|exact ND].
      rewrite ids_plug. cbn [ids cids]. perm. }
    apply NoDup_cons_iff in ND'. destruct ND' as [ND' _]. apply ND'. rewrite Heq.
    unfold xt. destruct a; apply in_or_app; [right|left]; apply tid_in_ids. }
  assert (Ef : exists s', tree_rem s (tid t) k = Ok (tid t, s') /\ okt s' sent (plug c xt) /\
            dat s' = dat s /\ dkey s' = dkey s /\ dval s' = dval s /\ nxt s' = nxt s).
  { unfold tree_rem. rewrite Eg. cbn [rbind]. rewrite Ln, Rn. cbn [rbind].
    unfold isnull at 1 2. rewrite Ka, Kb.
    assert (Hy : (bl <- match match a with Lf _ => NilC | _ => NodeC end with Free => Ub | NilC => Ok true | NodeC => Ok false end ;;
                  br <- match match b with Lf _ => NilC | _ => NodeC end with Free => Ub | NilC => Ok true | NodeC => Ok false end ;;
                  (if negb bl && negb br then successor s n else Ok n)) = Ok n).
    { destruct a, b; cbn; auto. destruct Knil; discriminate. }
    assert (Hrest : forall (A : Type) (f : N -> res A),
       (bl <- match match a with Lf _ => NilC | _ => NodeC end with Free => Ub | NilC => Ok true | NodeC => Ok false end ;;
        br <- match match b with Lf _ => NilC | _ => NodeC end with Free => Ub | NilC => Ok true | NodeC => Ok false end ;;
        y <- (if negb bl && negb br then successor s n else Ok n) ;; f y) = f n).
    { intros A f. destruct a, b; cbn [rbind negb andb] in Hy |- *; auto. destruct Knil; discriminate. }
    rewrite Hrest. clear Hrest Hy. rewrite Ln. cbn [rbind].
    unfold isnull at 1. rewrite Ka.
    assert (Hb : match match a with Lf _ => NilC | _ => NodeC end with Free => Ub | NilC => Ok true | NodeC => Ok false end
                 = Ok match a with Lf _ => true | _ => false end) by (destruct a; auto).
    rewrite Hb. cbn [rbind]. rewrite Rn. cbn [rbind]. rewrite Pn. cbn [rbind]. rewrite Exy.
    assert (Kx' : kind s (tid xt) = match xt with Lf _ => NilC | _ => NodeC end).
    { unfold xt. destruct a; auto. }
    unfold isnull at 1. rewrite Kx'.
    assert (Hs1 : exists s1, (forall (A : Type) (f : bool -> mem -> res A),
       (bx <- match match xt with Lf _ => NilC | _ => NodeC end with Free => Ub | NilC => Ok true | NodeC => Ok false end ;;
        s0 <- (if bx then Ok s else set_parent s (tid xt) (pid c sent)) ;; f bx s0)
       = f match xt with Lf _ => true | _ => false end s1) /\
       kind s1 = kind s /\ lf s1 = lf s /\ rf s1 = rf s /\ (forall i, i <> tid xt -> pf s1 i = pf s i) /\
       (is_nd xt -> pf s1 (tid xt) = pid c sent) /\ col s1 = col s /\ dat s1 = dat s /\ dkey s1 = dkey s /\
       dval s1 = dval s /\ nxt s1 = nxt s).
    { destruct xt as [i|i xl xr] eqn:Ext.
      - exists s. ands; auto. intros [].
      - cbn [tid] in *. unfold set_parent, on_node. rewrite Kx'.
        eexists. split; [intros A f; cbn [rbind]; reflexivity|]. cbn [kind lf pf rf col dat dkey dval nxt].
        ands; auto. + intros j Hj; apply upN_other; auto. + intros _; apply upN_same. }
    destruct Hs1 as [s1 [Hstep [K1 [L1 [R1 [P1 [P1x [C1 [D1 [D2 [D3 D4]]]]]]]]]]].
    rewrite Hstep. clear Hstep. unfold isnull at 1. rewrite K1, Kp. cbn [rbind].
    unfold left, on_node. rewrite K1, Kp. cbn [rbind]. rewrite L1.
    destruct c as [|c p rr|c p ll]; [congruence| |]; cbn [pid plug] in *.
    - assert (Lp : lf s p = n).
      { destruct (okt_at s sent c p (Nd n a b) rr O) as [_ [_ [L _]]]. unfold left, on_node in L. rewrite Kp in L.
        cbn [tid] in L. congruence. }
      rewrite Lp, N.eqb_refl. unfold set_left, on_node. rewrite K1, Kp. cbn [rbind].
      unfold colored. cbn [kind col]. rewrite ?K1, KX. cbn [rbind].
      rewrite C1, Cn. unfold drop. cbn [kind]. rewrite ?K1, KX. cbn [rbind].
      eexists. split; [reflexivity|]. cbn [dat dkey dval nxt]. ands; auto.
      apply (unlink_left s _ sent c p rr n a b xt); auto; cbn [kind lf pf rf].
      + unfold xt; destruct a; auto.
      + intros i Hi. apply upN_other; auto.
      + apply upN_same.
      + intros i Hi. rewrite upN_other by auto. rewrite L1; auto.
    - assert (Rp : rf s p = n).
      { destruct (okt_at s sent c p ll (Nd n a b) O) as [_ [_ [_ L]]]. unfold right, on_node in L. rewrite Kp in L.
        cbn [tid] in L. congruence. }
      assert (Lp : lf s p = tid ll).
      { destruct (okt_at s sent c p ll (Nd n a b) O) as [_ [_ [L _]]]. unfold left, on_node in L. rewrite Kp in L.
        congruence. }
      assert (Hnl : N.eqb n (tid ll) = false).
      { apply N.eqb_neq. eapply (okt_ne s sent (CR c p ll) (Nd n a b)); [exact O|cbn; auto|].
        right. cbn. rewrite in_app_iff. right; left; apply tid_in_ids. }
      rewrite Lp, Hnl. unfold set_right, on_node. rewrite K1, Kp. cbn [rbind].
      rewrite N.eqb_refl. cbn [rbind]. unfold colored. cbn [kind col]. rewrite ?K1, KX. cbn [rbind].
      rewrite C1, Cn. unfold drop. cbn [kind]. rewrite ?K1, KX. cbn [rbind].
      eexists. split; [reflexivity|]. cbn [dat dkey dval nxt]. ands; auto.
      apply (unlink_right s _ sent c p ll n a b xt); auto; cbn [kind lf pf rf].
      + unfold xt; destruct a; auto.
      + intros i Hi. apply upN_other; auto.
      + apply upN_same.
      + intros i Hi. rewrite upN_other by auto. rewrite R1; auto. }
  destruct Ef as [s' [Er [O' [D1 [D2 [D3 D4]]]]]].
  assert (Hnodes : nodes (plug c xt) = cbefore c ++ nodes xt ++ cafter c) by apply nodes_plug.
  assert (Hnt : nodes t = cbefore c ++ nodes a ++ n :: nodes b ++ cafter c).
  { rewrite Et, nodes_plug. cbn [nodes]. rewrite <- !app_assoc. auto. }
  assert (Hab : nodes xt = nodes a ++ nodes b).
  { unfold xt. destruct a as [i|]; [reflexivity|]. destruct b as [j|]; [cbn [nodes]; rewrite app_nil_r; auto|].
    destruct Knil; discriminate. }
  assert (Ht : tid t = tid (plug c xt)) by (rewrite Et; apply tid_plug; auto).
  assert (Hnd : is_nd (plug c xt)).
  { assert (Hc : forall c0 u, is_nd u -> is_nd (plug c0 u)) by
      (induction c0 as [|c0 IH j rr|c0 IH j ll]; intros u Hu; cbn [plug]; auto; apply IH; exact I).
    destruct c as [|c p rr|c p ll]; [congruence| |]; cbn [plug]; apply Hc; exact I. }
  assert (W' : wft s' sent (plug c xt)).
  { constructor; auto.
    - intros i Hi. rewrite D4. apply (w_lt _ _ _ W). destruct Hi as [<-|Hi]; [left; auto|right].
      rewrite Et. apply (Permutation_in _ (Permutation_sym (ids_plug c (Nd n a b)))).
      apply (Permutation_in _ (ids_plug c xt)) in Hi. apply in_app_iff in Hi. apply in_or_app.
      destruct Hi as [Hi|Hi]; auto. left. cbn [ids]. right. apply in_or_app. unfold xt in Hi. destruct a; auto.
    - intros i Hi. rewrite D1, D4. apply (w_dat _ _ _ W). rewrite Hnodes, Hab in Hi. rewrite Hnt.
      rewrite !in_app_iff in *. cbn [In]. rewrite !in_app_iff. tauto.
    - rewrite (map_ext_in _ (key s)); [|intros i _; unfold key; rewrite D1, D2; auto].
      pose proof (w_sorted _ _ _ W) as SS. rewrite Hnt in SS. rewrite Hnodes, Hab.
      rewrite !map_app in *. cbn [map] in SS. rewrite !map_app in SS.
      rewrite <- !app_assoc. rewrite app_assoc in SS. apply ssorted_remove in SS.
      rewrite <- app_assoc in SS. exact SS. }
  assert (IT : forall k' d, in_tree s' (plug c xt) k' d <-> in_tree s t k' d /\ k' <> k).
  { intros k' d. unfold in_tree. rewrite Hnodes, Hab, Hnt.
    assert (Ek : forall i, key s' i = key s i) by (intros i; unfold key; rewrite D1, D2; auto).
    split.
    - intros [i [Hi [Ki Di]]]. rewrite Ek in Ki. rewrite D1 in Di.
      assert (Hi' : In i (nodes t)).
      { rewrite Hnt. rewrite !in_app_iff in *. cbn [In]. rewrite !in_app_iff. tauto. }
      split; [exists i; ands; auto; rewrite Hnt in Hi'; exact Hi'|].
      intros ->. assert (i = n) as ->.
      { eapply sorted_key_inj; [exact (w_sorted _ _ _ W)|auto|auto|auto]. }
      assert (NoDup (nodes t)) as NDt.
      { pose proof (w_sorted _ _ _ W) as SS. clear - SS.
        induction (nodes t) as [|z l IH]; [constructor|]. inversion SS as [|? ? S1 F]; subst.
        constructor; auto. intros Hz. rewrite Forall_forall in F.
        apply (sym_lt_irrefl (key s z)). apply F, in_map; auto. }
      rewrite Hnt, app_assoc in NDt. apply NoDup_remove_2 in NDt. apply NDt.
      rewrite !in_app_iff in *. tauto.
    - intros [[i [Hi [Ki Di]]] Hne]. exists i. rewrite Ek, D1. ands; auto.
      rewrite !in_app_iff in *. cbn [In] in Hi. rewrite !in_app_iff in Hi.
      destruct Hi as [Hi|[Hi|[Hi|[Hi|Hi]]]]; auto. subst i. congruence. }
  exists (tid t), s'. split; [exact Er|]. rewrite Ht.
  assert (LK : forall k', tlookup (tid (plug c xt), s') k' = Ok (if sym_eq_dec k' k then None else meaning h k')).
  { intros k'. unfold tlookup. destruct (gets_tree s' sent (plug c xt) k' W' Hnd) as [GS GN].
    unfold gets in GS, GN; cbn [fst snd] in GS, GN.
    destruct (sym_eq_dec k' k) as [->|Hne].
    - rewrite (proj2 GN); auto. intros d Hd. apply IT in Hd. tauto.
    - pose proof (H k') as Hk. destruct (gets_tree s sent t k' W Hn) as [GS0 GN0].
      destruct (meaning h k') as [v|].
      + destruct Hk as [d [Hd Hv]]. apply GS0 in Hd. cbn [snd] in Hv.
        rewrite (proj2 (GS d)); [|apply IT; auto]. cbn [rbind]. rewrite D3, Hv. auto.
      + rewrite (proj2 GN); auto. intros d Hd. apply IT in Hd. apply (proj1 GN0 Hk d). tauto. }
  split.
  - rewrite LK. destruct (sym_eq_dec k k); [auto|congruence].
  - intros k' Hne. rewrite LK. destruct (sym_eq_dec k' k); [contradiction|auto].
Qed.

(** ** Counterexamples *)

Fixpoint tallb (n : nat) (s : mem) (x : N) : bool :=
  match n, kind s x with
  | O, NilC => true
  | S n, NodeC => tallb n s (lf s x) || tallb n s (rf s x)
  | _, _ => false
  end.
Lemma tallb_ok : forall n s x, tallb n s x = true -> tall s x n.
Proof.
  induction n as [|n IH]; intros s x H; cbn [tallb] in H; destruct (kind s x) eqn:K; try discriminate.
  - constructor; auto.
  - apply Bool.orb_true_iff in H. destruct H as [H|H]; [apply tall_left|apply tall_right]; auto.
Qed.

Definition set_all (ks : list string) : list top := map (fun k => TSet (sy k) Tru) ks.

Lemma red_red : exists h root s x, trun h empty_tree = Ok (root, s) /\
  below s root x /\ col s x = true /\ kind s (pf s x) = NodeC /\ col s (pf s x) = true.
Proof.
  set (h := set_all ["c"; "a"; "b"]%string).
  destruct (history_ok h) as [[root s] [E _]].
  set (x := rf s (lf s root)).
  assert (P : match trun h empty_tree with
              | Ok (r, s) => kind s r = NodeC /\ kind s (lf s r) = NodeC /\
                             let x := rf s (lf s r) in
                             kind s x = NodeC /\ col s x = true /\ kind s (pf s x) = NodeC /\ col s (pf s x) = true
              | _ => False end).
  { vm_compute. ands; reflexivity. }
  rewrite E in P. cbv zeta in P. destruct P as [P1 [P2 [P3 [P4 [P5 P6]]]]].
  exists h, root, s, x. ands; auto.
  apply below_left; auto. apply below_right; auto. apply below_here; auto.
Qed.

Lemma unbalanced : exists h root s, trun h empty_tree = Ok (root, s) /\
  length h = 12%nat /\ tall s root 12.
Proof.
  set (h := set_all ["l"; "a"; "k"; "b"; "j"; "c"; "i"; "d"; "h"; "e"; "g"; "f"]%string).
  destruct (history_ok h) as [[root s] [E _]].
  assert (P : match trun h empty_tree with Ok (r, s) => tallb 12 s r = true | _ => False end).
  { vm_compute. reflexivity. }
  rewrite E in P. exists h, root, s. ands; auto. apply tallb_ok; auto.
Qed.

Lemma remove_crash : exists h root s k, trun h empty_tree = Ok (root, s) /\
  meaning h k <> None /\ tree_rem s root k = Ub.
Proof.
  set (h := set_all ["a"; "b"; "c"; "d"]%string).
  destruct (history_ok h) as [[root s] [E _]].
  assert (P : match trun h empty_tree with Ok (r, s) => tree_rem s r (sy "a") = Ub | _ => False end).
  { vm_compute. reflexivity. }
  rewrite E in P. exists h, root, s, (sy "a"). ands; auto. vm_compute; discriminate.
Qed.

Lemma remove_loses : exists h root s k root' s' k', trun h empty_tree = Ok (root, s) /\
  tree_rem s root k = Ok (root', s') /\ k' <> k /\
  meaning h k' <> None /\ tlookup (root', s') k' = Ok None.
Proof.
  set (h := set_all ["a"; "b"; "c"; "d"; "e"; "f"]%string).
  destruct (history_ok h) as [[root s] [E _]].
  assert (P : match trun h empty_tree with
              | Ok (r, s) => match tree_rem s r (sy "a") with
                             | Ok st => tlookup st (sy "b") = Ok None | _ => False end
              | _ => False end).
  { vm_compute. reflexivity. }
  rewrite E in P. destruct (tree_rem s root (sy "a")) as [[root' s']| |] eqn:R; try contradiction.
  exists h, root, s, (sy "a"), root', s', (sy "b"). ands; auto; vm_compute; discriminate.
Qed.

Lemma remove_absent : exists h root s k root' s' k', trun h empty_tree = Ok (root, s) /\
  meaning h k = None /\ tree_rem s root k = Ok (root', s') /\
  meaning h k' <> None /\ tlookup (root', s') k' = Ok None.
Proof.
  set (h := set_all ["a"; "b"]%string).
  destruct (history_ok h) as [[root s] [E _]].
  assert (P : match trun h empty_tree with
              | Ok (r, s) => match tree_rem s r (sy "z") with
                             | Ok st => tlookup st (sy "b") = Ok None | _ => False end
              | _ => False end).
  { vm_compute. reflexivity. }
  rewrite E in P. destruct (tree_rem s root (sy "z")) as [[root' s']| |] eqn:R; try contradiction.
  exists h, root, s, (sy "z"), root', s', (sy "b"). ands; auto; vm_compute; discriminate.
Qed.
