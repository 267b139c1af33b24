(** * InfoProofs: what slabinfo answers. *)
From Verif Require Import Value Heap HeapSpec HEvalSpec HeapOps Slab SlabProofs RSimSpec RSim RSimTop RSlabProofs Info.
From Verif Require RHeap REval.
Open Scope N_scope.

Section Bytes.
Variable enc : Heap.cell -> Slab.cell.

(** One more cell. *)
Lemma alloc_ok : forall b ops s hl m, run ops = Running s hl -> linked enc m s hl ->
  match R.alloc b m with
  | R.Done a m' => R.cells m a = None /\ (forall x, R.cells m' x = if N.eqb x a then Some (Heap.mkcell 1 false false b) else R.cells m x) /\
      exists ops' s' hl', run ops' = Running s' hl' /\ linked enc m' s' hl'
  | R.Full _ => N.of_nat (length hl) = 2097152
  | _ => False
  end.
Proof.
  intros b ops s hl m E L. pose proof (d_alloc enc b ops m s hl E L) as D. destruct (apart enc _ _ _ _ E L) as [ND [FR I]].
  unfold R.alloc in *. destruct (R.free m) as [|a l] eqn:F.
  - destruct (N.ltb_spec SLAB_SIZE (2 * R.pages m * PAGE_SIZE)) as [X|X].
    + destruct D as [o1 [s1 [h1 [E1 [L1 A1]]]]]. apply (abort_exact s hl I).
      unfold slab_allocate. assert (F0 : first s = END_MK) by (pose proof (k_free _ _ _ _ L) as C; rewrite F in C; inversion C; auto).
      rewrite F0, N.eqb_refl. unfold slab_expand. rewrite (k_pages _ _ _ _ L). destruct (N.ltb_spec SLAB_SIZE (2 * R.pages m * PAGE_SIZE)); [auto|lia].
    + destruct (inv_pages _ _ I) as [k [Hk Hp]]. pose proof (pow2_pos k) as PP. rewrite (k_pages _ _ _ _ L) in Hp.
      remember (R.range (R.count (R.pages m)) (N.to_nat (R.count (2 * R.pages m) - R.count (R.pages m)))) as rg eqn:G.
      unfold R.count in G. rewrite !cell_count_pages in G.
      remember (N.to_nat (128 * (2 * R.pages m) - 128 * R.pages m)) as q eqn:Q. destruct q as [|q]; [lia|]. cbn [R.range] in G. subst rg.
      unfold R.take in *. split; [|split; [intro x; reflexivity|]].
      * destruct (R.cells m (128 * R.pages m)) as [c|] eqn:Ec; auto. exfalso.
        assert (J : In (128 * R.pages m) hl) by (apply (k_given _ _ _ _ L); congruence).
        apply (inv_held_bound _ _ I) in J. rewrite cell_count_pages, (k_pages _ _ _ _ L) in J. lia.
      * destruct D as [o1 [s1 [h1 [E1 L1]]]]. exists (ops ++ o1), s1, h1. auto.
  - unfold R.take in *. split; [apply FR; cbn; auto|]. split; [intro x; reflexivity|].
    destruct D as [o1 [s1 [h1 [E1 L1]]]]. exists (ops ++ o1), s1, h1. auto.
Qed.

Lemma linked_length : forall ops s hl m, run ops = Running s hl -> linked enc m s hl -> NoDup hl.
Proof. intros ops s hl m E L. apply (run_inv ops s hl (or_introl E)). Qed.
Lemma same_members : forall l l' : list N, NoDup l -> NoDup l' -> (forall x, In x l <-> In x l') -> length l = length l'.
Proof.
  intros l l' N1 N2 H. apply Nat.le_antisymm; apply NoDup_incl_length; auto; intros x I; apply H; auto.
Qed.

(** The whole call. *)
Lemma slabinfo_ok : forall ops s hl m, run ops = Running s hl -> linked enc m s hl ->
  match slabinfo s m with
  | R.Done p m' => exists a d, held (R.cells m') p (Cons (Num (to_i64 (Z.of_N (n_alloc s)))) (Num (to_i64 (Z.of_N (n_free s))))) /\
      NoDup [a; d; p] /\ (forall b, In b [a; d; p] -> R.cells m b = None) /\
      (forall b, R.cells m' b <> None <-> In b [a; d; p] \/ R.cells m b <> None) /\
      (forall b, R.cells m b <> None -> R.cells m' b = R.cells m b)
  | R.Full _ => (2097152 <= N.of_nat (length hl) + 2)
  | _ => False
  end.
Proof.
  intros ops s hl m E L. unfold slabinfo, R.hbind_, R.hcons.
  set (A := to_i64 (Z.of_N (n_alloc s))). set (F := to_i64 (Z.of_N (n_free s))).
  pose proof (alloc_ok (KNum A) ops s hl m E L) as H1. destruct (R.alloc (KNum A) m) as [a m1| | | |m1|]; try contradiction; [|lia].
  destruct H1 as [N1 [C1 [o1 [s1 [h1 [E1 L1]]]]]].
  pose proof (alloc_ok (KNum F) o1 s1 h1 m1 E1 L1) as H2.
  assert (Q1 : length h1 = S (length hl)).
  { change (S (length hl)) with (length (a :: hl)). apply same_members.
    - eapply linked_length; eauto.
    - constructor; [|eapply linked_length; eauto]. intro J. apply (k_given _ _ _ _ L) in J. congruence.
    - intro x. rewrite (k_given _ _ _ _ L1), C1. cbn [In]. rewrite (k_given _ _ _ _ L).
      destruct (N.eqb_spec x a) as [->|]; [split; [auto|discriminate]|intuition congruence]. }
  destruct (R.alloc (KNum F) m1) as [d m2| | | |m2|]; try contradiction; [|lia].
  destruct H2 as [N2 [C2 [o2 [s2 [h2 [E2 L2]]]]]].
  pose proof (alloc_ok (KPair a d) o2 s2 h2 m2 E2 L2) as H3.
  assert (Q2 : length h2 = S (length h1)).
  { change (S (length h1)) with (length (d :: h1)). apply same_members.
    - eapply linked_length; eauto.
    - constructor; [|eapply linked_length; eauto]. intro J. apply (k_given _ _ _ _ L1) in J. congruence.
    - intro x. rewrite (k_given _ _ _ _ L2), C2. cbn [In]. rewrite (k_given _ _ _ _ L1).
      destruct (N.eqb_spec x d) as [->|]; [split; [auto|discriminate]|intuition congruence]. }
  destruct (R.alloc (KPair a d) m2) as [p m3| | | |m3|]; try contradiction; [|lia].
  destruct H3 as [N3 [C3 _]].
  assert (Dad : d <> a). { intros ->. rewrite C1, N.eqb_refl in N2. discriminate N2. }
  assert (Dpd : p <> d). { intros ->. rewrite C2, N.eqb_refl in N3. discriminate N3. }
  assert (Dpa : p <> a). { intros ->. rewrite C2, C1, N.eqb_refl in N3. destruct (N.eqb_spec a d); congruence. }
  assert (M2 : R.cells m d = None). { rewrite C1 in N2. destruct (N.eqb_spec d a); congruence. }
  assert (M3 : R.cells m p = None). { rewrite C2, C1 in N3. destruct (N.eqb_spec p d); [congruence|]. destruct (N.eqb_spec p a); congruence. }
  exists a, d. split; [|split; [|split; [|split]]].
  - apply (held_pair _ p (Heap.mkcell 1 false false (KPair a d)) a d); [rewrite C3, N.eqb_refl; auto|auto| |].
    + apply (held_num _ a (Heap.mkcell 1 false false (KNum A))); [|reflexivity]. rewrite C3, C2, C1, N.eqb_refl. destruct (N.eqb_spec a p); [congruence|]. destruct (N.eqb_spec a d); [congruence|]. reflexivity.
    + apply (held_num _ d (Heap.mkcell 1 false false (KNum F))); [|reflexivity]. rewrite C3, C2, N.eqb_refl. destruct (N.eqb_spec d p); [congruence|]. reflexivity.
  - repeat constructor; cbn; intuition congruence.
  - intros b [<-|[<-|[<-|[]]]]; auto.
  - intro b. rewrite C3, C2, C1. cbn [In]. destruct (N.eqb_spec b p) as [->|]; [split; [auto|discriminate]|].
    destruct (N.eqb_spec b d) as [->|]; [split; [auto|discriminate]|]. destruct (N.eqb_spec b a) as [->|]; [split; [auto|discriminate]|].
    intuition congruence.
  - intros b U. rewrite C3, C2, C1. destruct (N.eqb_spec b p); [congruence|]. destruct (N.eqb_spec b d); [congruence|]. destruct (N.eqb_spec b a); congruence.
Qed.
End Bytes.

Lemma to_i64_mod : forall z, (to_i64 z mod 2 ^ 64 = z mod 2 ^ 64)%Z.
Proof.
  intro z. unfold to_i64. destruct (Z.ltb_spec (z mod 2 ^ 64) (2 ^ 63)); [apply Z.mod_mod; lia|].
  rewrite Zminus_mod, Z_mod_same_full, Z.sub_0_r, !Z.mod_mod by lia. reflexivity.
Qed.
Lemma to_i64_small : forall z, (0 <= z < 2 ^ 63)%Z -> to_i64 z = z.
Proof. intros z H. unfold to_i64. rewrite Z.mod_small by lia. destruct (Z.ltb_spec z (2 ^ 63)); lia. Qed.

(** In a session that forgets nothing, the cells in use are those reached. *)
Lemma reached_used : forall W h r a m, mirrors W h m -> holds h [r] -> strays (aux h) = 0%nat -> lost (aux h) = [] -> open W = true -> a = place W r ->
  forall b, reached (R.cells m) (a :: roots_of (R.aux m)) b -> R.cells m b <> None.
Proof.
  intros W h r a m M H S Lo O -> b Rb.
  assert (P : forall x, alive h x -> R.cells m (place W x) <> None).
  { intros x Ax. unfold alive in Ax. destruct (cells h x) as [c|] eqn:E; [|congruence].
    destruct (m_cells _ _ _ M x c E) as [_ [c' [E' _]]]. congruence. }
  assert (Ow : own h ([r] ++ held_by_lisp (aux h))) by (split; [apply (h_correct _ _ H)|apply (h_strong _ _ H)]).
  induction Rb as [b I|x b Rx IH I].
  - rewrite <- (roots_at _ _ _ M O Lo) in I. change (place W r :: map (place W) (held_by_lisp (aux h))) with (map (place W) ([r] ++ held_by_lisp (aux h))) in I.
    apply in_map_iff in I. destruct I as [y [<- J]]. apply P. eapply own_alive; [exact Ow|exact J].
  - destruct (m_onto _ _ _ M S x IH) as [y [Ay <-]]. destruct (cells h y) as [c|] eqn:E; [|congruence]. clear Ay.
    unfold fields in I. destruct (m_cells _ _ _ M y c E) as [_ [c' [E' Cr]]]. rewrite E' in I.
    destruct (body c) as [| | | | | |u v] eqn:B.
    7:{ destruct (pair_at _ _ _ M y c u v E B) as [c2 [E2 [B2 _]]]. rewrite E' in E2. injection E2 as <-. rewrite B2 in I.
        destruct (own_pair _ _ _ _ _ _ Ow E B) as [Au Av]. destruct I as [<-|[<-|[]]]; apply P; auto. }
    all: destruct (body_at _ _ _ M y c E) as [c2 [E2 [B2 _]]]; [rewrite B; discriminate|]; rewrite E' in E2; injection E2 as <-; rewrite B2, B in I; destruct I.
Qed.
