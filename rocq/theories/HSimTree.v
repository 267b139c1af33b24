(** * HSimTree: code as a tree of cells, and the cells that [hcollect] collects. *)
From Verif Require Import Value Tails Print Heap HeapSpec HeapProofs HeapOps HEval HEvalSpec HEvalBase HEvalProofs ValueProofs TailsProofs HSimSpec HSimBase HSimOps HSimList HSimMix HSimPure HSimLisp HSimState HSimMark HSimCall.
From Verif Require Eval.
Open Scope nat_scope.
Open Scope heap_scope.

(** ** Values with the addresses of their cells *)
Inductive lat := LLeaf (a : N) (v : atom) | LNode (a : N) (t : bool) (x y : lat).
Definition root (l : lat) : N := match l with LLeaf a _ => a | LNode a _ _ _ => a end.
Fixpoint erase (l : lat) : atom := match l with LLeaf _ v => v | LNode _ t x y => Pair t (erase x) (erase y) end.
Fixpoint addrs (l : lat) : list N := match l with LLeaf a _ => [a] | LNode a _ x y => a :: addrs x ++ addrs y end.

(** What lisp_collect_tails collects (lib/core/utils.c:396-518). *)
Fixpoint ltails (x : lat) : list lat :=
  match x with
  | LLeaf _ Nil => []
  | LNode _ _ (LLeaf _ (Sym _ s) as h) d =>
      if named s "if" then
        match d with
        | LNode _ _ _ (LNode _ _ th (LNode _ _ el _)) => ltails th ++ ltails el
        | LNode _ _ _ (LNode _ _ th _) => ltails th
        | _ => []
        end
      else if named s "cond" || named s "match" then
        match d with
        | LNode _ _ _ l =>
            (fix assoc (l : lat) : list lat :=
               match l with
               | LNode _ _ (LNode _ _ _ e) r => ltails e ++ assoc r
               | LNode _ _ _ r => assoc r
               | _ => []
               end) l
        | _ => []
        end
      else if named s "prog" || named s "|>" then
        match d with
        | LNode _ _ _ _ =>
            (fix last (l : lat) : list lat :=
               match l with
               | LNode _ _ a (LNode _ _ _ _ as r) => last r
               | LNode _ _ a _ => ltails a
               | _ => []
               end) d
        | _ => [h]
        end
      else if named s "unless" || named s "when" then
        match d with
        | LNode _ _ _ (LNode _ _ e _) => ltails e
        | _ => []
        end
      else [x]
  | _ => [x]
  end.
Fixpoint lassoc (l : lat) : list lat :=
  match l with
  | LNode _ _ (LNode _ _ _ e) r => ltails e ++ lassoc r
  | LNode _ _ _ r => lassoc r
  | _ => []
  end.
Fixpoint llast (l : lat) : list lat :=
  match l with
  | LNode _ _ a (LNode _ _ _ _ as r) => llast r
  | LNode _ _ a _ => ltails a
  | _ => []
  end.
(** The last element. *)
Fixpoint lend (l : lat) (x : lat) : Prop :=
  match l with
  | LNode _ _ a (LNode _ _ _ _ as r) => lend r x
  | LNode _ _ a _ => x = a
  | _ => False
  end.
Lemma llast_end : forall l x, lend l x -> llast l = ltails x.
Proof.
  induction l as [|a t x1 IH1 y IH2]; intros x E; [destruct E|]. cbn in *. destruct y as [a1 v1|a1 t1 x2 y2]; [subst; auto|]. apply IH2. exact E.
Qed.

(** The cells of [l] that are still there have the contents that [l] says. *)
Definition body_of (v : atom) (k : content) : Prop :=
  match v with
  | Nil => k = KNil | Tru => k = KTrue | Value.Wild => k = KWild | Chr z => k = KChar z | Num z => k = KNum z
  | Sym _ s => k = KSym s | Pair _ _ _ => False
  end.
Fixpoint lw (lo : N) (h : heap) (l : lat) : Prop :=
  match l with
  | LLeaf a v => (a < lo)%N /\ is_pair v = false /\ forall c, cells h a = Some c -> body_of v (body c)
  | LNode a _ x y => (a < lo)%N /\ (forall c, cells h a = Some c -> body c = KPair (root x) (root y)) /\ lw lo h x /\ lw lo h y
  end.

(** Below [lo] contents stay. *)
Definition lasts (lo : N) (h h' : heap) : Prop := (nxt h <= nxt h')%N /\
  forall a c', (a < lo)%N -> cells h' a = Some c' -> exists c, cells h a = Some c /\ body c' = body c.
Lemma lasts_ages : forall h h', ages h h' -> lasts (nxt h) h h'.
Proof.
  intros h h' [A B]. split; auto. intros a c' L E. destruct (B a c' L E) as [c [E1 S]]. exists c. split; auto. unfold stored in S. congruence.
Qed.
Lemma lasts_refl : forall lo h, lasts lo h h.
Proof. intros. split; [lia|eauto]. Qed.
Lemma lasts_trans : forall lo h1 h2 h3, lasts lo h1 h2 -> lasts lo h2 h3 -> lasts lo h1 h3.
Proof.
  intros lo h1 h2 h3 [A B] [C D]. split; [lia|]. intros a c L E. destruct (D a c L E) as [c2 [E2 S2]]. destruct (B a c2 L E2) as [c1 [E1 S1]].
  exists c1. split; auto. congruence.
Qed.
Lemma lasts_le : forall lo lo' h h', lasts lo h h' -> (lo' <= lo)%N -> lasts lo' h h'.
Proof. intros lo lo' h h' [A B] L. split; auto. intros a c La. apply B. lia. Qed.
Lemma lw_lasts : forall lo h h' l, lw lo h l -> lasts lo h h' -> lw lo h' l.
Proof.
  intros lo h h' l H [_ L]. induction l as [a v|a t x IHx y IHy]; cbn in *.
  - destruct H as [A [P C]]. split; auto. split; auto. intros c E. destruct (L a c A E) as [c0 [E0 Q]]. rewrite Q. auto.
  - destruct H as [A [C [X Y]]]. split; auto. split; auto. intros c E. destruct (L a c A E) as [c0 [E0 Q]]. rewrite Q. auto.
Qed.
Lemma lw_le : forall lo lo' h l, lw lo h l -> (lo <= lo')%N -> lw lo' h l.
Proof.
  intros lo lo' h l H L. induction l as [a v|a t x IHx y IHy]; cbn in *.
  - destruct H as [A P]. split; auto. lia.
  - destruct H as [A [C [X Y]]]. split; [lia|]. auto.
Qed.

(** ** Lists of collected cells *)
Fixpoint chain (lo hi : N) (h : heap) (r : N) (l : list N) : Prop :=
  match l with
  | [] => (r < hi)%N /\ forall c, cells h r = Some c -> body c = KNil
  | x :: l' => (lo <= r)%N /\ (r < hi)%N /\ exists d, (forall c, cells h r = Some c -> body c = KPair x d) /\ chain (N.succ r) hi h d l'
  end.
Lemma chain_lasts : forall l lo hi h h' r, chain lo hi h r l -> lasts hi h h' -> chain lo hi h' r l.
Proof.
  induction l as [|x l IH]; intros lo hi h h' r H L; cbn in *.
  - destruct H as [A B]. split; auto. intros c E. destruct (proj2 L r c A E) as [c0 [E0 Q]]. rewrite Q. auto.
  - destruct H as [A [B [d [C D]]]]. split; auto. split; auto. exists d. split; [|eapply IH; eauto].
    intros c E. destruct (proj2 L r c B E) as [c0 [E0 Q]]. rewrite Q. auto.
Qed.
Lemma chain_le : forall l lo lo' hi hi' h r, chain lo hi h r l -> (lo' <= lo)%N -> (hi <= hi')%N -> chain lo' hi' h r l.
Proof.
  induction l as [|x l IH]; intros lo lo' hi hi' h r H L1 L2; cbn in *.
  - destruct H as [A B]. split; [lia|auto].
  - destruct H as [A [B [d [C D]]]]. split; [lia|]. split; [lia|]. exists d. split; auto. eapply IH; eauto. lia.
Qed.
(** The last pair, and what the list becomes when its end is replaced by [b]. *)
Definition joins (lo hi : N) (h : heap) (r : N) (l : list N) (p : N) : Prop :=
  exists x, (lo <= p < hi)%N /\ (exists c d, cells h p = Some c /\ body c = KPair x d) /\
  forall h2 b l2 hi2, (hi <= hi2)%N -> (forall a c', (a < hi)%N -> a <> p -> cells h2 a = Some c' -> exists c, cells h a = Some c /\ body c' = body c) ->
    (forall c, cells h2 p = Some c -> body c = KPair x b) -> chain hi hi2 h2 b l2 -> chain lo hi2 h2 r (l ++ l2).
Lemma last_chain : forall n l lo hi h r, l <> [] -> chain lo hi h r l ->
  wpv (last_pair n r) (fun p h' => h' = h /\ joins lo hi h r l p) h.
Proof.
  induction n as [|n IH]; intros l lo hi h r NE H; [exact I|]. destruct l as [|x l]; [congruence|]. clear NE.
  cbn [last_pair]. cbn [chain] in H. destruct H as [A [B [d [C D]]]].
  unfold wpv, CDR, hbind_, rd. destruct (cells h r) as [c|] eqn:E; auto. rewrite (C c eq_refl). unfold done at 1.
  destruct (cells h d) as [cd|] eqn:Ed; auto. unfold is_pair_c. destruct l as [|y l].
  - cbn in D. rewrite (proj2 D cd Ed). unfold done. split; auto. exists x. split; [lia|]. split; [exists c, d; auto|].
    intros h2 b l2 hi2 L2 K P CH. cbn [app chain]. split; auto. split; [lia|]. exists b. split; auto. eapply chain_le; eauto; lia.
  - pose proof D as D0. cbn [chain] in D. destruct D as [_ [_ [d2 [C2 _]]]]. rewrite (C2 cd Ed).
    specialize (IH (y :: l) _ _ h d ltac:(congruence) D0). unfold wpv in IH. destruct (last_pair n d h) as [p h1| | | | |]; auto.
    destruct IH as [-> [xp [LP [CP J]]]]. split; auto. exists xp. split; [lia|]. split; auto.
    intros h2 b l2 hi2 L2 K P CH. change ((x :: y :: l) ++ l2) with (x :: ((y :: l) ++ l2)). cbn [chain]. split; auto. split; [lia|]. exists d. split.
    + intros c2 E2. destruct (K r c2 B ltac:(lia) E2) as [c1 [E1 Q]]. rewrite Q. apply C. congruence.
    + apply (J h2 b l2 hi2); auto.
Qed.
Lemma X_lasts : forall a h, wpv (X a) (fun _ h' => lasts (nxt h) h h') h.
Proof. intros a h. eapply wpv_mono; [apply ages_X|]. intros u h' A. apply lasts_ages. exact A. Qed.
Lemma conc_chain : forall n l1 l2 lo mid hi h a b, chain lo mid h a l1 -> chain mid hi h b l2 -> (lo <= mid <= hi)%N -> (hi <= nxt h)%N ->
  wpv (hconc n a b) (fun r h' => chain lo hi h' r (l1 ++ l2) /\ lasts lo h h') h.
Proof.
  intros n l1 l2 lo mid hi h a b H1 H2 L1 L2. unfold hconc. apply wpv_bind. unfold wpv at 1, rd. destruct (cells h a) as [c|] eqn:E; auto.
  destruct l1 as [|x l1].
  - cbn in H1. unfold is_pair_c. rewrite (proj2 H1 c E). apply wpv_bind. eapply wpv_mono; [apply X_lasts|]. intros u h' LA. unfold wpv, done.
    split; [|eapply lasts_le; [exact LA|lia]]. cbn [app]. apply (chain_le _ mid lo hi hi); try lia. eapply chain_lasts; [exact H2|].
    eapply lasts_le; [exact LA|lia].
  - assert (PC : is_pair_c c = true). { cbn in H1. destruct H1 as [_ [_ [d [C _]]]]. unfold is_pair_c. rewrite (C c E). auto. }
    rewrite PC. apply wpv_bind. eapply wpv_mono; [apply (last_chain n (x :: l1) lo mid h a); auto; congruence|].
    intros p h1 [-> [xp [LP [[cp [d [EP BP]]] J]]]].
    apply wpv_bind. unfold wpv at 1, CDR, hbind_, rd. rewrite EP, BP. unfold done at 1.
    apply wpv_bind. eapply wpv_mono; [apply X_lasts|]. intros u h1 LA.
    apply wpv_bind. unfold wpv at 1, rd. destruct (cells h1 p) as [c1|] eqn:E1; auto.
    assert (B1 : body c1 = KPair xp d). { destruct (proj2 LA p c1 ltac:(lia) E1) as [c0 [E0 Q]]. congruence. }
    rewrite B1. apply wpv_bind. unfold wpv at 1, wr. rewrite E1. unfold wpv, done.
    assert (K : forall a0 c', (a0 < nxt h)%N -> a0 <> p -> cells (set_cell h1 p (Some (with_body c1 (KPair xp b)))) a0 = Some c' -> exists c0, cells h a0 = Some c0 /\ body c' = body c0).
    { intros a0 c' La NE E0. rewrite set_other in E0 by auto. apply (proj2 LA); auto. }
    split.
    + apply (J _ b l2 hi).
      * lia.
      * intros a0 c' La. apply K. lia.
      * intros c0 E0. rewrite set_same in E0. injection E0 as <-. reflexivity.
      * apply (chain_le _ mid mid hi hi); try lia.
        assert (G : forall l lo2 r, (mid <= lo2)%N -> chain lo2 hi h r l -> chain lo2 hi (set_cell h1 p (Some (with_body c1 (KPair xp b)))) r l).
        { induction l as [|y l IH]; intros lo2 r ML G; cbn in *.
          - destruct G as [G1 G2]. split; auto. intros c0 E0. destruct (N.eq_dec r p) as [->|NE].
            + rewrite (G2 cp EP) in BP. discriminate.
            + destruct (K r c0 ltac:(lia) NE E0) as [c2 [E2 Q]]. rewrite Q. auto.
          - destruct G as [G0 [G1 [d2 [G2 G3]]]]. split; auto. split; auto. exists d2. split; [|apply IH; auto; lia].
            intros c0 E0. destruct (K r c0 ltac:(lia) ltac:(lia) E0) as [c2 [E2 Q]]. rewrite Q. auto. }
        apply G; auto. lia.
    + split; [apply (proj1 LA)|]. intros a0 c' La E0. apply K; auto; lia.
Qed.

(** ** Operations on labelled values *)
Definition lcar (r : N) (l : lat) : lat := match l with LNode _ _ x _ => x | _ => LLeaf r Nil end.
Definition lcdr (r : N) (l : lat) : lat := match l with LNode _ _ _ y => y | _ => LLeaf r Nil end.
Lemma lw_nil : forall h, wpv make_nil (fun r h' => lasts (nxt h) h h' /\ lw (nxt h') h' (LLeaf r Nil)) h.
Proof.
  intros h. unfold wpv, make_nil, alloc. split.
  - split; [cbn; lia|]. intros a c' L E. cbn in E. destruct (N.eqb_spec a (nxt h)); [lia|eauto].
  - cbn. split; [lia|]. split; auto. intros c E. rewrite N.eqb_refl in E. injection E as <-. reflexivity.
Qed.
Lemma lw_up : forall a h, wpv (up a) (fun r h' => r = a /\ lasts (nxt h) h h') h.
Proof. intros a h. eapply wpv_mono; [apply quiet_up|]. intros r h' [-> [Q _]]. split; auto. apply lasts_ages, ages_quiet. auto. Qed.
Lemma lw_car : forall h l, lw (nxt h) h l -> wpv (hcar (root l)) (fun r h' => lasts (nxt h) h h' /\ root (lcar r l) = r /\ lw (nxt h') h' (lcar r l)) h.
Proof.
  intros h l H. unfold hcar. apply wpv_bind. unfold wpv at 1, rd. destruct (cells h (root l)) as [c|] eqn:E; auto. destruct l as [a v|a t x y]; cbn in H.
  - destruct H as [A [P C]]. specialize (C c E).
    assert (NP : match body c with KPair _ _ => False | _ => True end) by (destruct v; cbn in C; rewrite ?C; auto; contradiction).
    assert (K : wpv make_nil (fun r h' => lasts (nxt h) h h' /\ root (lcar r (LLeaf a v)) = r /\ lw (nxt h') h' (lcar r (LLeaf a v))) h).
    { eapply wpv_mono; [apply lw_nil|]. intros r h' [LA LW]. auto. }
    destruct (body c); auto; contradiction.
  - destruct H as [A [C [X Y]]]. cbn in E. rewrite (C c E). eapply wpv_mono; [apply lw_up|]. intros r h' [-> LA]. split; auto. split; auto.
    cbn [lcar]. apply (lw_le (nxt h)); [|apply LA]. eapply lw_lasts; eauto.
Qed.
Lemma lw_cdr : forall h l, lw (nxt h) h l -> wpv (hcdr (root l)) (fun r h' => lasts (nxt h) h h' /\ root (lcdr r l) = r /\ lw (nxt h') h' (lcdr r l)) h.
Proof.
  intros h l H. unfold hcdr. apply wpv_bind. unfold wpv at 1, rd. destruct (cells h (root l)) as [c|] eqn:E; auto. destruct l as [a v|a t x y]; cbn in H.
  - destruct H as [A [P C]]. specialize (C c E).
    assert (NP : match body c with KPair _ _ => False | _ => True end) by (destruct v; cbn in C; rewrite ?C; auto; contradiction).
    assert (K : wpv make_nil (fun r h' => lasts (nxt h) h h' /\ root (lcdr r (LLeaf a v)) = r /\ lw (nxt h') h' (lcdr r (LLeaf a v))) h).
    { eapply wpv_mono; [apply lw_nil|]. intros r h' [LA LW]. auto. }
    destruct (body c); auto; contradiction.
  - destruct H as [A [C [X Y]]]. cbn in E. rewrite (C c E). eapply wpv_mono; [apply lw_up|]. intros r h' [-> LA]. split; auto. split; auto.
    cbn [lcdr]. apply (lw_le (nxt h)); [|apply LA]. eapply lw_lasts; eauto.
Qed.
Lemma lw_last : forall n h l, lw (nxt h) h l -> wpv (last_pair n (root l)) (fun p h' => h' = h /\ exists x r c, lend l x /\ lw (nxt h) h x /\
   cells h p = Some c /\ body c = KPair (root x) r) h.
Proof.
  induction n as [|n IH]; intros h l H; [exact I|]. cbn [last_pair]. unfold wpv, CDR, hbind_, rd.
  destruct (cells h (root l)) as [c|] eqn:E; auto. destruct l as [a v|a t x y]; cbn in H.
  - destruct H as [A [P C]]. specialize (C c E). destruct v; cbn in C; rewrite ?C; cbn; auto. contradiction.
  - destruct H as [A [C [X Y]]]. cbn in E. rewrite (C c E). unfold done at 1. destruct (cells h (root y)) as [cy|] eqn:Ey; auto.
    destruct y as [a1 v1|a1 t1 x1 y1].
    + destruct Y as [A1 [P1 C1]]. cbn in Ey. specialize (C1 cy Ey). unfold is_pair_c.
      assert (NP : match body cy with KPair _ _ => false | _ => true end = true) by (destruct v1; cbn in C1; rewrite ?C1; auto; contradiction).
      destruct (body cy); try discriminate NP; unfold done; split; auto; exists x, a1, c; cbn; auto.
    + pose proof Y as Y0. cbn in Y. destruct Y as [A1 [C1 _]]. cbn in Ey. unfold is_pair_c. rewrite (C1 cy Ey).
      specialize (IH h (LNode a1 t1 x1 y1) Y0). unfold wpv in IH. cbn [root] in *. destruct (last_pair n a1 h); auto.
Qed.

(** ** Collecting *)
Definition gathers (m : HM N) (h : heap) (l : list lat) : Prop :=
  wpv m (fun r h' => lasts (nxt h) h h' /\ chain (nxt h) (nxt h') h' r (map root l)) h.
Lemma wrap_gathers : forall h x, lw (nxt h) h x -> gathers (wrap (root x)) h [x].
Proof.
  intros h x H. unfold gathers, wrap, make_nil, hcons. unfold wpv, hbind_, alloc. cbn [cells nxt].
  split; [split; [cbn; lia|]|].
  - intros a c' L E. cbn in E. destruct (N.eqb_spec a (N.succ (nxt h))); [lia|]. destruct (N.eqb_spec a (nxt h)); [lia|eauto].
  - cbn [map chain]. split; [cbn; lia|]. split; [cbn; lia|]. exists (nxt h). cbn. split.
    + intros c E. rewrite N.eqb_refl in E. injection E as <-. auto.
    + split; [lia|]. intros c E. destruct (N.eqb_spec (nxt h) (N.succ (nxt h))); [lia|]. rewrite N.eqb_refl in E. injection E as <-. auto.
Qed.
Definition gathering (col : N -> HM N) : Prop := forall x h, lw (nxt h) h x -> gathers (col (root x)) h (ltails x).
Lemma lw_next : forall h h' l, lw (nxt h) h l -> lasts (nxt h) h h' -> lw (nxt h') h' l.
Proof. intros h h' l H L. apply (lw_le (nxt h)); [|apply L]. eapply lw_lasts; eauto. Qed.
Lemma chain_next : forall lo hi h h' r l, chain lo hi h r l -> (hi <= nxt h)%N -> lasts (nxt h) h h' -> chain lo hi h' r l.
Proof. intros lo hi h h' r l H L A. eapply chain_lasts; [exact H|]. eapply lasts_le; eauto. Qed.
Lemma lasts_step : forall h0 h h', lasts (nxt h0) h0 h -> lasts (nxt h) h h' -> lasts (nxt h0) h0 h'.
Proof. intros h0 h h' A C. eapply lasts_trans; [exact A|]. eapply lasts_le; [exact C|apply A]. Qed.

(** The list [thn] then the list [els]. *)
Lemma conc_gathers : forall n l1 l2 h0 mid mid2 h a b, chain (nxt h0) mid h a (map root l1) -> chain mid2 (nxt h) h b (map root l2) ->
  (nxt h0 <= mid)%N -> (mid <= mid2)%N -> (mid2 <= nxt h)%N -> lasts (nxt h0) h0 h ->
  wpv (hconc n a b) (fun r h' => lasts (nxt h0) h0 h' /\ chain (nxt h0) (nxt h') h' r (map root (l1 ++ l2))) h.
Proof.
  intros n l1 l2 h0 mid mid2 h a b C1 C2 L1 L2 L3 LA. rewrite map_app.
  eapply wpv_mono; [apply (conc_chain n (map root l1) (map root l2) (nxt h0) mid2 (nxt h) h a b); auto; try lia|].
  - eapply chain_le; [exact C1|lia|lia].
  - intros r h' [C LA2]. split; [eapply lasts_trans; eauto|]. eapply chain_le; [exact C|lia|apply LA2].
Qed.

Ltac opx := apply wpv_bind; eapply wpv_mono; [apply X_lasts|]; let u := fresh "u" in let h := fresh "hx" in let LA := fresh "LA" in intros u h LA.
Lemma assoc_gathers : forall col, gathering col -> forall n x h, lw (nxt h) h x -> gathers (hcollect_assoc col n (root x)) h (lassoc x).
Proof.
  intros col CO. induction n as [|n IH]; intros x h H; [exact I|]. cbn [hcollect_assoc]. unfold gathers. apply wpv_bind. unfold wpv at 1, rd.
  destruct (cells h (root x)) as [c|] eqn:E; auto. destruct x as [a v|a t x y].
  - pose proof H as H0. cbn in H. destruct H as [A [P C]]. cbn in E. specialize (C c E). unfold is_nil_c, is_pair_c.
    destruct v as [| | | | |t0 s0|]; cbn in C; try contradiction; rewrite C; cbn [negb].
    { unfold wpv, done. split; [apply lasts_refl|]. cbn. split; [lia|]. intros c0 E0. cbn in E0. congruence. }
    all: opx; eapply wpv_mono; [apply lw_nil|]; intros r h' [LB [B1 [_ B2]]]; (split; [apply (lasts_step _ _ _ LA LB)|]); cbn; (split; [auto|]); intros c1 E0; apply (B2 c1 E0).
  - pose proof H as H0. cbn in H. destruct H as [A [C [X Y]]]. cbn in E. unfold is_nil_c, is_pair_c. rewrite (C c E). cbn [negb].
    apply wpv_bind. eapply wpv_mono; [apply (lw_car _ _ H0)|]. intros r1 h1 [LA1 [R1 W1]]. cbn [lcar] in *.
    apply wpv_bind. eapply wpv_mono; [apply (lw_cdr _ _ (lw_next _ _ _ H0 LA1))|]. intros r2 h2 [LA2 [R2 W2]]. cbn [lcdr] in *.
    apply (lw_next _ _ _ W1) in LA2 as W1'. pose proof (lasts_step _ _ _ LA1 LA2) as LB2. clear LA1 LA2 W1.
    opx. pose proof (lw_next _ _ _ W1' LA) as W1. pose proof (lw_next _ _ _ W2 LA) as W3. pose proof (lasts_step _ _ _ LB2 LA) as LB3. clear W1' W2 LA LB2 h1 h2.
    rewrite <- R1. apply wpv_bind. eapply wpv_mono; [apply (lw_cdr _ _ W1)|]. intros e h4 [LA4 [R4 W4]].
    pose proof (lw_next _ _ _ W3 LA4) as W5. pose proof (lasts_step _ _ _ LB3 LA4) as LB4.
    rewrite <- R4. apply wpv_bind. eapply wpv_mono; [apply (CO _ _ W4)|]. intros head h5 [LA5 CH5].
    pose proof (lw_next _ _ _ W5 LA5) as W6. pose proof (lasts_step _ _ _ LB4 LA5) as LB5.
    opx. pose proof (lw_next _ _ _ W6 LA) as W7. pose proof (lasts_step _ _ _ LB5 LA) as LB6.
    assert (CH6 : chain (nxt h4) (nxt h5) hx0 head (map root (ltails (lcdr e x)))) by (eapply chain_next; [exact CH5|lia|exact LA]).
    rewrite <- R2. apply wpv_bind. eapply wpv_mono; [apply (IH _ _ W7)|]. intros tl h7 [LA7 CH7].
    assert (Q : lassoc (LNode a t x y) = ltails (lcdr e x) ++ lassoc y) by (destruct x; reflexivity). rewrite Q.
    eapply conc_gathers; [| exact CH7 | | | | eapply lasts_step; eauto].
    + eapply chain_le; [eapply chain_next; [exact CH6|apply LA|exact LA7]|apply LB4|apply N.le_refl].
    + apply LB5.
    + apply LA.
    + apply LA7.
Qed.
Lemma collect_gathers : forall n, gathering (hcollect n).
Proof.
  induction n as [|n IH]; intros x h H; [exact I|]. cbn [hcollect]. unfold gathers. apply wpv_bind. unfold wpv at 1, rd.
  destruct (cells h (root x)) as [c|] eqn:E; auto. destruct x as [a v|a t x y].
  - pose proof H as H0. cbn in H. destruct H as [A [P C]]. cbn in E. specialize (C c E).
    destruct v as [| | | | |t0 s0|]; cbn in C; rewrite ?C; try (apply (wrap_gathers _ _ H0)); try contradiction.
    unfold wpv, done. split; [apply lasts_refl|]. cbn. split; auto. intros c0 E0. congruence.
  - pose proof H as H0. cbn in H. destruct H as [A [C [X Y]]]. cbn in E. rewrite (C c E).
    apply wpv_bind. unfold wpv at 1, rd. destruct (cells h (root x)) as [cx|] eqn:Ex; auto.
    destruct x as [ax vx|ax tx x1 x2].
    2:{ cbn in X, Ex. destruct X as [_ [CX _]]. rewrite (CX cx Ex). apply (wrap_gathers _ _ H0). }
    cbn in X, Ex. destruct X as [_ [PX CX]]. specialize (CX cx Ex).
    destruct vx as [| | | | |t0 s|]; cbn in CX; rewrite ?CX; try (apply (wrap_gathers _ _ H0)); try contradiction.
    set (cell := LNode a t (LLeaf ax (Sym t0 s)) y) in *. change a with (root cell).
    destruct (named s "if") eqn:N1; [|destruct (named s "cond" || named s "match") eqn:N2; [|destruct (named s "prog" || named s "|>") eqn:N3;
      [|destruct (named s "unless" || named s "when") eqn:N4]]].
    + apply wpv_bind. eapply wpv_mono; [apply (lw_cdr _ _ H0)|]. intros cd0 h1 [LA1 [R1 W1]]. change (lcdr cd0 cell) with y in *.
      rewrite <- R1. apply wpv_bind. eapply wpv_mono; [apply (lw_cdr _ _ W1)|]. intros cd1 h2 [LA2 [R2 W2]]. pose proof (lasts_step _ _ _ LA1 LA2) as LB2.
      rewrite <- R2. apply wpv_bind. eapply wpv_mono; [apply (lw_car _ _ W2)|]. intros th h3 [LA3 [R3 W3]]. pose proof (lasts_step _ _ _ LB2 LA3) as LB3. pose proof (lw_next _ _ _ W2 LA3) as V3.
      rewrite <- R3. apply wpv_bind. eapply wpv_mono; [apply (IH _ _ W3)|]. intros thn h4 [LA4 CH4]. pose proof (lasts_step _ _ _ LB3 LA4) as LB4. pose proof (lw_next _ _ _ V3 LA4) as V4.
      apply wpv_bind. eapply wpv_mono; [apply (lw_cdr _ _ V4)|]. intros cd2 h5 [LA5 [R5 W5]]. pose proof (lasts_step _ _ _ LB4 LA5) as LB5.
      assert (CH5 : chain (nxt h3) (nxt h4) h5 thn (map root (ltails (lcar th (lcdr cd1 y))))) by (eapply chain_next; [exact CH4|lia|exact LA5]).
      rewrite <- R5. apply wpv_bind. eapply wpv_mono; [apply (lw_car _ _ W5)|]. intros e h6 [LA6 [R6 W6]]. pose proof (lasts_step _ _ _ LB5 LA6) as LB6.
      pose proof (lasts_step _ _ _ LA5 LA6) as LC6.
      assert (CH6 : chain (nxt h3) (nxt h4) h6 thn (map root (ltails (lcar th (lcdr cd1 y))))) by (eapply chain_next; [exact CH5|apply LA5|exact LA6]).
      rewrite <- R6. apply wpv_bind. eapply wpv_mono; [apply (IH _ _ W6)|]. intros els h7 [LA7 CH7]. pose proof (lasts_step _ _ _ LB6 LA7) as LB7.
      pose proof (lasts_step _ _ _ LC6 LA7) as LC7.
      assert (CH8 : chain (nxt h3) (nxt h4) h7 thn (map root (ltails (lcar th (lcdr cd1 y))))) by (eapply chain_next; [exact CH6|apply LC6|exact LA7]).
      clear CH4 CH5 CH6 W1 W2 W3 V3 V4 W5 W6.
      opx. opx. opx. opx. pose proof (lasts_step _ _ _ (lasts_step _ _ _ (lasts_step _ _ _ LA LA0) LA8) LA9) as LX. 
      assert (Q : ltails cell = ltails (lcar th (lcdr cd1 y)) ++ ltails (lcar e (lcdr cd2 (lcdr cd1 y)))).
      { unfold cell. cbn [ltails]. rewrite N1. destruct y as [a1 v1|a1 t1 x1 y1]; [reflexivity|]. destruct y1 as [a2 v2|a2 t2 x2 y2]; [reflexivity|].
        destruct y2 as [a3 v3|a3 t3 x3 y3]; cbn; rewrite ?app_nil_r; reflexivity. }
      rewrite Q. eapply conc_gathers; [| | | | |eapply lasts_step; [exact LB7|exact LX]].
      * eapply chain_le; [eapply chain_next; [exact CH8|apply LC7|exact LX]|apply LB3|apply N.le_refl].
      * eapply chain_le; [eapply chain_next; [exact CH7|lia|exact LX]|apply N.le_refl|apply LX].
      * apply LB4.
      * apply LC6.
      * eapply N.le_trans; [apply LA7|apply LX].
    + apply wpv_bind. eapply wpv_mono; [apply (lw_cdr _ _ H0)|]. intros cd0 h1 [LA1 [R1 W1]]. change (lcdr cd0 cell) with y in *.
      rewrite <- R1. apply wpv_bind. eapply wpv_mono; [apply (lw_cdr _ _ W1)|]. intros cd1 h2 [LA2 [R2 W2]]. pose proof (lasts_step _ _ _ LA1 LA2) as LB2.
      rewrite <- R2. apply wpv_bind. eapply wpv_mono; [apply (assoc_gathers _ IH n _ _ W2)|]. intros res h3 [LA3 CH3]. pose proof (lasts_step _ _ _ LB2 LA3) as LB3.
      opx. opx. pose proof (lasts_step _ _ _ LA LA0) as LX. unfold wpv, done.
      assert (Q : ltails cell = lassoc (lcdr cd1 y)).
      { unfold cell. cbn [ltails]. rewrite N1, N2. destruct y as [a1 v1|a1 t1 x1 y1]; reflexivity. }
      rewrite Q. split; [eapply lasts_step; eauto|]. eapply chain_le; [eapply chain_next; [exact CH3|lia|exact LX]|apply LB2|apply LX].
    + apply wpv_bind. eapply wpv_mono; [apply (lw_last n h cell H0)|]. intros p h1 [-> [x [r0 [cp [LE [W1 [EP BP]]]]]]].
      apply wpv_bind. unfold wpv at 1, CAR, hbind_, rd. rewrite EP, BP. unfold done at 1.
      apply wpv_bind. eapply wpv_mono; [apply lw_up|]. intros la h2 [-> LA2]. pose proof (lw_next _ _ _ W1 LA2) as W2.
      apply wpv_bind. eapply wpv_mono; [apply (IH _ _ W2)|]. intros res h3 [LA3 CH3]. pose proof (lasts_step _ _ _ LA2 LA3) as LB3.
      opx. unfold wpv, done.
      assert (Q : ltails cell = ltails x).
      { unfold cell in *. cbn [ltails]. rewrite N1, N2, N3. destruct y as [a1 v1|a1 t1 x1 y1].
        - cbn [lend] in LE. subst x. reflexivity.
        - apply (llast_end (LNode a1 t1 x1 y1) x LE). }
      rewrite Q. split; [eapply lasts_step; eauto|]. eapply chain_le; [eapply chain_next; [exact CH3|lia|exact LA]|apply LA2|apply LA].
    + apply wpv_bind. eapply wpv_mono; [apply (lw_cdr _ _ H0)|]. intros cd0 h1 [LA1 [R1 W1]]. change (lcdr cd0 cell) with y in *.
      rewrite <- R1. apply wpv_bind. eapply wpv_mono; [apply (lw_cdr _ _ W1)|]. intros cd1 h2 [LA2 [R2 W2]]. pose proof (lasts_step _ _ _ LA1 LA2) as LB2.
      rewrite <- R2. apply wpv_bind. eapply wpv_mono; [apply (lw_car _ _ W2)|]. intros th h3 [LA3 [R3 W3]]. pose proof (lasts_step _ _ _ LB2 LA3) as LB3.
      rewrite <- R3. apply wpv_bind. eapply wpv_mono; [apply (IH _ _ W3)|]. intros res h4 [LA4 CH4]. pose proof (lasts_step _ _ _ LB3 LA4) as LB4.
      opx. opx. opx. pose proof (lasts_step _ _ _ (lasts_step _ _ _ LA LA0) LA5) as LX. unfold wpv, done.
      assert (Q : ltails cell = ltails (lcar th (lcdr cd1 y))).
      { unfold cell. cbn [ltails]. rewrite N1, N2, N3, N4. destruct y as [a1 v1|a1 t1 x1 y1]; [reflexivity|]. destruct y1; reflexivity. }
      rewrite Q. split; [eapply lasts_step; eauto|]. eapply chain_le; [eapply chain_next; [exact CH4|lia|exact LX]|apply LB3|apply LX].
    + assert (Q : ltails cell = [cell]) by (unfold cell; cbn [ltails]; rewrite N1, N2, N3, N4; reflexivity). rewrite Q. apply (wrap_gathers _ _ H0).
Qed.
