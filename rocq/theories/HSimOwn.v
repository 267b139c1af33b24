(** * HSimOwn: flagging the code that a call of def owns. *)
From Verif Require Import Value Tails Print Heap HeapSpec HeapProofs HeapOps HEval HEvalSpec HEvalBase HEvalProofs HEvalTails ValueProofs TailsProofs HSimSpec HSimBase HSimOps HSimList HSimMix HSimPure HSimLisp HSimState HSimMark HSimCall HSimTree HSimFlag.
From Verif Require Eval.
From Coq Require Import Permutation.
Open Scope nat_scope.
Open Scope heap_scope.

(** ** Cells that nothing else refers to *)
Lemma distinct_nodup : forall l, distinct_all l = true -> NoDup l.
Proof.
  induction l as [|x l IH]; intro H; [constructor|]. cbn in H. apply andb_true_iff in H. destruct H as [A C]. constructor; auto.
  intro I. apply negb_true_iff in A. assert (existsb (N.eqb x) l = true); [|congruence]. apply existsb_exists. exists x. split; auto. apply N.eqb_refl.
Qed.
Lemma cnt_in : forall a l, In a l -> 0 < cnt a l.
Proof. induction l as [|x l IH]; intros I; [destruct I|]. cbn. destruct I as [->|I]; [unfold is; rewrite N.eqb_refl; lia|]. specialize (IH I). lia. Qed.
Lemma cnt_perm : forall (l r : list N) a, Permutation l r -> cnt a l = cnt a r.
Proof. intros l r a H. induction H; cbn; lia. Qed.
Lemma cnt_flat : forall (f : N -> list N) l r a, Permutation l r -> cnt a (flat_map f l) = cnt a (flat_map f r).
Proof. intros f l r a H. apply cnt_perm. apply Permutation_flat_map. auto. Qed.
Lemma addresses_in : forall h a, (a < nxt h)%N -> In a (addresses h).
Proof. intros h a L. unfold addresses. apply in_map_iff. exists (N.to_nat a). split; [lia|]. apply in_seq. lia. Qed.
Lemma addresses_nodup : forall h, NoDup (addresses h).
Proof.
  intro h. unfold addresses. apply FinFun.Injective_map_NoDup; [|apply seq_NoDup]. intros x y E. lia.
Qed.
Lemma split_flat : forall h U, NoDup U -> incl U (addresses h) ->
  forall a, cnt a (edges h) = cnt a (flat_map (fields_at h) U) + cnt a (flat_map (fields_at h) (filter (fun x => negb (mem x U)) (addresses h))).
Proof.
  intros h U ND I a. unfold edges. rewrite <- cnt_app, <- flat_map_app. apply cnt_flat. apply NoDup_Permutation.
  - apply addresses_nodup.
  - assert (G : forall l, NoDup l -> NoDup (l ++ filter (fun x => negb (mem x U)) (addresses h)) \/ ~ incl l U).
    { intros l NL. destruct (Forall_Exists_dec (fun x => In x U) (fun x => in_dec N.eq_dec x U) l) as [FA|EX].
      - left. rewrite Forall_forall in FA. clear -NL FA. induction l as [|x l IH]; [apply NoDup_filter, addresses_nodup|]. inversion NL; subst. cbn. constructor.
        + rewrite in_app_iff. intros [J|J]; [contradiction|]. apply filter_In in J. destruct J as [_ J]. apply negb_true_iff in J.
          assert (mem x U = true); [|congruence]. apply mem_in. apply FA. cbn. auto.
        + apply IH; auto. intros y Iy. apply FA. cbn. auto.
      - right. intro J. apply Exists_exists in EX. destruct EX as [x [Ix NI]]. apply NI. auto. }
    destruct (G U ND) as [|NI]; auto. exfalso. apply NI. apply incl_refl.
  - intro x. rewrite in_app_iff, filter_In. split.
    + intro J. destruct (mem x U) eqn:M; [left; apply mem_in; auto|right; auto].
    + intros [J|[J _]]; auto.
Qed.
Lemma enclosed_apart : forall h U R O, own h (R ++ O) -> enclosed h U R = true -> forall a, reach h O a -> ~ In a U.
Proof.
  intros h U R O OW EN. unfold enclosed in EN. apply andb_true_iff in EN. destruct EN as [ND FA]. apply distinct_nodup in ND. rewrite forallb_forall in FA.
  destruct OW as [[Bd Ct Pr] St].
  assert (IU : incl U (addresses h)).
  { intros u Iu. apply addresses_in. apply Bd. specialize (FA u Iu). unfold alive. destruct (cells h u); congruence. }
  assert (Z : forall u, In u U -> cnt u O = 0 /\ cnt u (flat_map (fields_at h) (filter (fun x => negb (mem x U)) (addresses h))) = 0).
  { intros u Iu. specialize (FA u Iu). destruct (cells h u) as [c|] eqn:E; [|discriminate]. apply Nat.eqb_eq in FA. destruct (Ct u c E) as [Q _].
    rewrite (split_flat h U ND IU), cnt_app in Q. lia. }
  intros a H. induction H as [a I|a b H IH I]; intro Iu.
  - destruct (Z a Iu) as [Z1 _]. apply cnt_in in I. lia.
  - destruct (Z b Iu) as [_ Z2]. assert (J : In b (flat_map (fields_at h) (filter (fun x => negb (mem x U)) (addresses h)))).
    { apply in_flat_map. exists a. split; auto. apply filter_In. split.
      - apply addresses_in. apply Bd. unfold alive, fields_at in *. destruct (cells h a); [congruence|destruct I].
      - rewrite mem_out; auto. }
    apply cnt_in in J. lia.
Qed.
Lemma tree_addrs : forall n h a t l, tree_at n h a = Some t -> lr h l -> root l = a -> t = addrs l.
Proof.
  induction n as [|n IH]; intros h a t l T R Q; [discriminate|]. cbn [tree_at] in T. destruct l as [b v|b tl x y]; cbn in Q; subst b.
  - destruct R as [R NP]. destruct (leaf_body _ _ _ R NP) as [c [E Bc]]. rewrite E in T. destruct v; cbn in Bc; rewrite ?Bc in T; try (injection T as <-; reflexivity). discriminate NP.
  - destruct R as [[c [E [Bc _]]] [X Y]]. rewrite E, Bc in T. destruct (tree_at n h (root x)) as [lx|] eqn:TX; [|discriminate]. destruct (tree_at n h (root y)) as [ly|] eqn:TY; [|discriminate].
    injection T as <-. rewrite (IH _ _ _ _ TX X eq_refl), (IH _ _ _ _ TY Y eq_refl). reflexivity.
Qed.
Lemma owned_apart : forall n h full bdy l O, own h ([full; bdy] ++ O) -> code_owned n full bdy h = true -> lr h l -> root l = bdy ->
  NoDup (addrs l) /\ forall a, In a (addrs l) -> ~ reach h O a.
Proof.
  intros n h full bdy l O OW C R Q. unfold code_owned in C. destruct (cells h full) as [c|]; [|discriminate]. destruct (body c) as [| | | | | |e q]; try discriminate.
  destruct (cells h e) as [ce|]; [|discriminate]. destruct (body ce) as [| | | | | |k x]; try discriminate. destruct (tree_at n h bdy) as [t|] eqn:T; [|discriminate].
  rewrite (tree_addrs _ _ _ _ _ T R Q) in C. split.
  - unfold enclosed in C. apply andb_true_iff in C. destruct C as [ND _]. apply distinct_nodup in ND. inversion ND as [|? ? _ N1]; subst. inversion N1 as [|? ? _ N2]; subst.
    eapply nodup_r; eauto.
  - intros a I RA. eapply (enclosed_apart _ _ _ _ OW C a RA). cbn. right. right. apply in_or_app. auto.
Qed.

(** ** The loop *)
Lemma may_apply_lset : forall S av l, may_apply av (erase (lset S l)) = may_apply av (erase l).
Proof.
  intros S. induction av as [| | | | | |t x _ y IH]; intro l; cbn [may_apply].
  1-6: destruct l as [a v|]; [destruct v|]; reflexivity.
  destruct l as [a v|a t1 x1 y1]; [destruct v; reflexivity|]. cbn. apply IH.
Qed.
Lemma loop_flags : forall k av h symb args t S0, (forall T h1, incl T S0 -> flags T h h1 -> reads h1 symb (Sym t k) /\ reads h1 args av) ->
  forall n l lo hi pt S h1, incl (S ++ theads k av l) S0 -> flags S h h1 -> l <> [] -> Forall (lr h) l -> chain lo hi h pt (map root l) ->
  wpv (hmark_loop n symb args pt) (fun _ h' => flags (S ++ theads k av l) h h') h1.
Proof.
  intros k av h symb args t S0 RD. induction n as [|n IH]; intros l lo hi pt S h1 IS FL NE FA CH; [exact I|]. cbn [hmark_loop].
  destruct l as [|x l]; [congruence|]. clear NE. pose proof (flags_chain _ _ _ FL _ _ _ _ CH) as CH1. cbn [map chain] in CH1. destruct CH1 as [_ [_ [d [Bd CH1]]]].
  inversion FA as [|? ? LX FL1]; subst.
  apply wpv_bind. unfold wpv at 1, CAR, hbind_, rd. destruct (cells h1 pt) as [c|] eqn:Ec; auto. rewrite (Bd c eq_refl). unfold done at 1.
  pose proof (flags_lr _ _ _ FL _ LX) as LX1. pose proof (lr_reads _ _ LX1) as RX. rewrite lset_root in RX.
  eapply gives_wpv; [eapply (g_test h1 (root x) _ is_pair_c); [exact RX|intros c0 Sc; apply (shows_pair _ _ _ Sc)]|]. intros b ->.
  apply wpv_bind. apply (wpv_mono _ (fun (_ : unit) h' => flags (S ++ thead k av x) h h')).
  - assert (SK : flags (S ++ []) h h1) by (rewrite app_nil_r; auto).
    destruct x as [ax vx|ax tx hx dx].
    { pose proof (lr_ok _ _ LX) as K. cbn in K. assert (Q : is_pair (erase (lset S (LLeaf ax vx))) = false) by (destruct vx; try discriminate K; reflexivity).
      rewrite Q. exact SK. }
    cbn [lset erase is_pair]. cbn [lset] in LX1. destruct LX1 as [[cx [Ex [Bx _]]] [LH LD]]. cbn [root] in *.
    apply wpv_bind. unfold wpv at 1, CAR, hbind_, rd. rewrite Ex, Bx. unfold done at 1.
    assert (IH0 : incl S S0) by (intros z Iz; apply IS; apply in_or_app; auto).
    destruct (RD S h1 IH0 FL) as [RS RA].
    eapply gives_wpv; [apply (g_same_key _ _ _ _ _ (lr_reads _ _ LH) RS)|]. intros b ->.
    destruct hx as [kh vh|kh th h1x h2x].
    2:{ cbn [lset erase]. exact SK. }
    destruct vh as [| | | | |u s|]; cbn [lset erase]; try exact SK. cbn [thead].
    destruct (sym_match s k); cbn [andb]; [|exact SK].
    apply wpv_bind. unfold wpv at 1, CDR, hbind_, rd. rewrite Ex, Bx. unfold done at 1.
    eapply gives_wpv; [apply (g_may_apply _ _ _ _ _ _ RA (lr_reads _ _ LD))|]. intros b ->. rewrite may_apply_lset.
    destruct (may_apply av (erase dx)); [|exact SK].
    cbn [lset root]. eapply wpv_mono; [apply set_tail_flags|]. intros u0 h2 F2. eapply flags_trans; eauto.
  - intros u0 h2 F2. pose proof (flags_chain _ _ _ F2 _ _ _ _ CH) as CH2. cbn [map chain] in CH2. destruct CH2 as [_ [_ [d2 [Bd2 CH2]]]].
    apply wpv_bind. unfold wpv at 1, CDR, hbind_, rd. destruct (cells h2 pt) as [c2|] eqn:Ec2; auto. rewrite (Bd2 c2 eq_refl). unfold done at 1.
    apply wpv_bind. unfold wpv at 1, test, hbind_, rd. destruct (cells h2 d2) as [cd|] eqn:Ed; auto. unfold done at 1.
    cbn [theads flat_map] in IS |- *. fold (theads k av l) in IS |- *. rewrite app_assoc in IS |- *.
    destruct l as [|y l].
    + cbn in CH2. unfold is_pair_c. rewrite (proj2 CH2 cd Ed). unfold wpv, done. cbn. rewrite app_nil_r. exact F2.
    + cbn [map chain] in CH. destruct CH as [C1 [C2 [d0 [Bd0 CH]]]].
      assert (d0 = d2).
      { destruct (flags_back _ _ _ F2 _ _ Ec2) as [c0 [E0 [B0 _]]]. pose proof (Bd2 c2 eq_refl) as Q1. pose proof (Bd0 c0 E0) as Q2. congruence. }
      subst d0. assert (PC : is_pair_c cd = true).
      { cbn [map chain] in CH2. destruct CH2 as [_ [_ [d3 [Bd3 _]]]]. unfold is_pair_c. rewrite (Bd3 cd Ed). auto. }
      rewrite PC. apply (IH (y :: l) (N.succ pt) hi d2 (S ++ thead k av x) h2 IS F2); auto. congruence.
Qed.

(** ** Marking *)
Lemma reach_lasts : forall h h' R O a, own h O -> strong h' -> incl R O -> lasts (nxt h) h h' -> reach h' R a -> reach h R a.
Proof.
  intros h h' R O a OW St' I [_ L] H. induction H as [a Ia|a b H IH Ib]; [apply reach_root; auto|].
  eapply reach_step; [exact IH|]. 
  assert (AL : alive h a).
  { clear - IH OW I. induction IH as [a Ia|a b H IH Ib]; [eapply own_alive; [exact OW|auto]|]. eapply fields_alive; [apply OW|exact Ib]. }
  unfold fields_at in Ib |- *. destruct (cells h' a) as [c'|] eqn:E'; [|destruct Ib].
  destruct (L a c') as [c [E Q]]; [apply OW; auto|auto|]. rewrite E. unfold fields in *. rewrite Q, (St' _ _ E') in Ib. destruct OW as [_ St]. rewrite (St _ _ E). auto.
Qed.
Lemma lend_reach : forall h l x, lend l x -> lr h l -> strong h -> reach h [root l] (root x) /\ lr h x.
Proof.
  intros h. induction l as [a v|a t x0 _ y IH]; intros x E R St; [destruct E|]. destruct R as [[c [Ec [Bc _]]] [X Y]]. cbn [lend] in E.
  destruct y as [a1 v1|a1 t1 x1 y1].
  - subst x0. split; auto. eapply reach_step; [apply reach_root; cbn; eauto|]. eapply field_car; eauto.
  - destruct (IH x E Y St) as [RE LX]. split; auto. eapply reach_incl; [|exact RE]. intros r [<-|[]]. eapply reach_step; [apply reach_root; cbn; eauto|].
    eapply field_cdr; eauto.
Qed.
Section Mark.
Variables (h0 : heap) (F : list N) (B : list (N * atom)) (V0 : list N).
Notation at_ := (vat h0 F B V0).
Lemma vat_flags : forall h w h' S L1 L1' L P1 P1' P, at_ h w (L1 ++ L) (P1 ++ P) -> flags S h h' ->
  (forall s, In s S -> ~ reach h (heads L ++ heads P ++ F ++ held_by_lisp (aux h)) s) ->
  heads L1' = heads L1 -> heads P1' = heads P1 -> Forall (says h') L1' -> Forall (says h') P1' -> at_ h' w (L1' ++ L) (P1' ++ P).
Proof.
  intros h w h' S L1 L1' L P1 P1' P H FL D Q1 Q2 R1 R2. pose proof (vat_own _ _ _ _ _ _ _ _ H) as O. pose proof (vat_strong _ _ _ _ _ _ _ _ H) as St.
  set (R := heads L ++ heads P ++ F ++ held_by_lisp (aux h)) in *.
  assert (K : kept R h h').
  { apply (flags_kept _ _ _ FL R _ O); auto. unfold R. intros x Ix. rewrite !heads_app, !in_app_iff in *. tauto. }
  assert (RK : forall x v, In x R -> reads h x v -> reads h' x v).
  { intros x v I R0. eapply kept_reads; eauto. apply reach_root. auto. }
  assert (EL : heads (L1' ++ L) = heads (L1 ++ L)) by (rewrite !heads_app; congruence).
  assert (EP : heads (P1' ++ P) = heads (P1 ++ P)) by (rewrite !heads_app; congruence).
  assert (KF : kept F h h').
  { eapply kept_sub; [|exact K]. unfold R. intros x Ix. rewrite !in_app_iff. tauto. }
  destruct H as [A0 A1 A2 A3 A4 A5 A6 A7 A8]. constructor.
  - rewrite EL, EP. apply (flags_holds _ _ _ FL). auto.
  - apply Forall_app in A1. apply Forall_app. split; auto. destruct A1 as [_ A1]. rewrite Forall_forall in *. intros [x v] I. apply RK; [|apply (A1 _ I)].
    unfold R. apply in_or_app. left. eapply heads_in; eauto.
  - apply Forall_app in A2. apply Forall_app. split; auto. destruct A2 as [_ A2]. rewrite Forall_forall in *. intros [x v] I. apply RK; [|apply (A2 _ I)].
    unfold R. apply in_or_app. right. apply in_or_app. left. eapply heads_in; eauto.
  - rewrite Forall_forall in *. intros [x v] I. destruct (A3 _ I) as [G1 G2]. split; [eapply kept_reads; eauto|eapply reach_kept; eauto].
  - eapply kept_trans; eauto.
  - rewrite EL, EP. destruct A5 as [N1 C1]. split; [destruct FL as [-> _]; auto|]. intros T C. apply (flags_clear _ _ _ FL). auto.
  - intros P2 a v P3 E. rewrite EL. apply (flags_solo _ _ _ FL).
    assert (G : exists P2' v' P3', P1 ++ P = P2' ++ (a, v') :: P3' /\ heads (P2' ++ P3') = heads (P2 ++ P3)).
    { clear - E EP. revert E EP. generalize (P1' ++ P) (P1 ++ P). intros l l' -> E. unfold heads in E. rewrite map_app in E. cbn in E. symmetry in E.
      apply map_eq_app in E. destruct E as [l1 [l2 [-> [E1 E2]]]]. destruct l2 as [|[a' v'] l2]; [discriminate|]. cbn in E2. injection E2 as -> E2.
      exists l1, v', l2. split; auto. unfold heads. rewrite !map_app. congruence. }
    destruct G as [P2' [v' [P3' [E2 E3]]]]. rewrite <- E3. eapply A6; eauto.
  - apply (flags_lisp _ _ _ FL w _ O); auto.
    + intros x Ix. rewrite in_app_iff. auto.
    + intros s Is RE. apply (D s Is). eapply reach_sub; [|exact RE]. unfold R. intros x Ix. rewrite !in_app_iff. auto.
  - pose proof FL as [_ [-> _]]. auto.
Qed.

Lemma o_mark_owned : forall n m h w L P full cv symb args bdy t k av bv b', at_ h w ((bdy, bv) :: (full, cv) :: L) P ->
  In (symb, Sym t k) (L ++ B) -> In (args, av) (L ++ B) -> code_owned m full bdy h = true -> mark_body k av bv = Some b' ->
  wpv (hmark n symb args bdy) (fun _ h' => exists cv', at_ h' w ((bdy, b') :: (full, cv') :: L) P) h.
Proof.
  intros n m h w L P full cv symb args bdy t k av bv b' H Is Ia CO M. unfold hmark.
  pose proof (vat_own _ _ _ _ _ _ _ _ H) as O. pose proof (vat_strong _ _ _ _ _ _ _ _ H) as St.
  assert (Rb : reads h bdy bv) by (eapply (reads_in _ _ _ _ _ _ _ _ _ _ H); cbn; auto).
  destruct (lr_exists _ _ _ Rb) as [lt [QR [QE LR]]].
  set (R := heads L ++ heads P ++ F ++ held_by_lisp (aux h)).
  assert (OR : own h ([full; bdy] ++ R)) by (apply (own_perm _ _ _ O); unfold R; hperm).
  destruct (owned_apart _ _ _ _ _ _ OR CO LR QR) as [ND AP].
  assert (BD : forall a, alive h a -> (a < nxt h)%N) by (apply O).
  pose proof (lr_lw _ _ BD LR) as LW.
  eapply gives_wpv; [eapply (g_test h bdy _ is_nil_c); [apply Rb|intros c0 Sc; apply (shows_nil _ _ _ Sc)]|]. intros b ->.
  destruct (is_null bv); [exact I|].
  rewrite <- QR. apply wpv_bind. eapply wpv_mono; [apply (lw_last n h lt LW)|]. intros p h1 [-> [x [r0 [cp [LE [WX [EP BP]]]]]]].
  destruct (lend_reach _ _ _ LE LR St) as [RE LX].
  apply wpv_bind. unfold wpv at 1, CAR, hbind_, rd. rewrite EP, BP. unfold done at 1.
  assert (AV : avail h ((bdy, bv) :: (full, cv) :: L) B (root x) (erase x)).
  { split; [apply lr_reads; auto|]. eapply reach_sub; [|exact RE]. intros y [<-|[]]. rewrite QR. cbn. auto. }
  op ltac:(eapply wpv_and; [apply (quiet_up (root x) h)|eapply o_up; [exact H|exact AV]]). intros l h2 [[-> [Q2 A2]] [_ H2]].
  pose proof (lasts_ages _ _ (ages_quiet _ _ Q2)) as LA2. pose proof (lw_next _ _ _ WX LA2) as WX2. pose proof (lw_next _ _ _ LW LA2) as LW2.
  pose proof (vat_own _ _ _ _ _ _ _ _ H2) as O2.
  op ltac:(eapply wpv_and; [eapply wpv_and; [apply (collect_gathers n x h2 WX2)|apply wp_wpv; apply (collect_spec n (root x) h2 _ O2)]|
    eapply (o_collect _ _ _ _ (fun y => y)); [reflexivity|exact H2|apply tmap_id]]).
  intros tails h3 [[[LA3 CH3] [_ [FZ _]]] [lv [H3 _]]].
  assert (A3 : aux h3 = aux h) by (rewrite (f_aux _ _ _ FZ); auto).
  pose proof (lasts_step _ _ _ LA2 LA3) as LB3. pose proof (lw_next _ _ _ LW2 LA3) as LW3. pose proof (vat_strong _ _ _ _ _ _ _ _ H3) as St3.
  set (S := theads k av (ltails x)).
  assert (ST : forall s, In s S -> In s (addrs lt)).
  { intros s Js. unfold S in Js. rewrite <- (llast_end _ _ LE) in Js. apply (llast_in k av). auto. }
  assert (D3 : forall s, In s S -> ~ reach h3 R s).
  { intros s Js RS. apply (AP s (ST s Js)). eapply reach_lasts; [exact OR|exact St3| |exact LB3|exact RS]. intros y Iy. apply in_or_app. auto. }
  assert (Rb3 : reads h3 bdy bv) by (eapply (reads_in _ _ _ _ _ _ _ _ _ _ H3); cbn; auto).
  assert (LR3 : lr h3 lt) by (apply (lr_again _ _ _ LW3); rewrite QR, QE; auto).
  destruct (lend_reach _ _ _ LE LR3 St3) as [_ LX3].
  assert (FT : Forall (lr h3) (ltails x)) by (apply tails_parts; [apply lr_down|auto]).
  assert (Rt : reads h3 tails lv). { pose proof (v_P _ _ _ _ _ _ _ _ H3) as A. inversion A; auto. }
  assert (RD : forall T h4, incl T S -> flags T h3 h4 -> reads h4 symb (Sym t k) /\ reads h4 args av).
  { intros T h4 IT FL. assert (K : kept R h3 h4).
    { apply (flags_kept _ _ _ FL R _ (vat_own _ _ _ _ _ _ _ _ H3)); auto. unfold R. intros y Iy. rewrite A3. unfold heads in *. cbn [map fst]. rewrite !in_app_iff in *. cbn. tauto. }
    assert (G : forall a v, In (a, v) (L ++ B) -> reads h4 a v).
    { intros a v J. eapply kept_reads; [exact St3|exact K| |eapply (reads_in _ _ _ _ _ _ _ _ _ _ H3); cbn; auto].
      apply in_app_or in J. destruct J as [J|J]; [apply reach_root; unfold R; apply in_or_app; left; eapply heads_in; eauto|].
      pose proof (v_B _ _ _ _ _ _ _ _ H3) as GB. rewrite Forall_forall in GB. destruct (GB _ J) as [_ RB]. eapply reach_sub; [|exact RB].
      unfold R. intros y Iy. rewrite !in_app_iff. auto. }
    auto. }
  eapply gives_wpv; [eapply (g_test h3 tails _ is_nil_c); [apply Rt|intros c0 Sc; apply (shows_nil _ _ _ Sc)]|]. intros b ->.
  apply wpv_bind. apply (wpv_mono _ (fun (_ : unit) h' => flags S h3 h')).
  - destruct (ltails x) as [|t0 tl] eqn:ET.
    + assert (lv = Nil). { destruct (reads_alive _ _ _ Rt) as [c E]. cbn in CH3. pose proof (proj2 CH3 c E) as Bc. inversion Rt; congruence. }
      subst lv. unfold wpv, done. cbn. apply flags_refl.
    + assert (NL : is_null lv = false). { destruct (reads_alive _ _ _ Rt) as [c E]. cbn [map chain] in CH3. destruct CH3 as [_ [_ [d [Bd _]]]]. pose proof (Bd c E) as Bc. inversion Rt; subst; auto; congruence. }
      rewrite NL. eapply wpv_mono; [apply (loop_flags k av h3 symb args t S RD n (t0 :: tl) (nxt h2) (nxt h3) tails [] h3); auto; [apply incl_refl|apply flags_refl|congruence]|].
      intros u0 h4 FL. exact FL.
  - intros u0 h4 FL.
    destruct (lr_exists h3 full cv) as [lc [QC [QEC LRC]]]. { eapply (reads_in _ _ _ _ _ _ _ _ _ _ H3); cbn; auto. }
    destruct (lr_exists h3 tails lv Rt) as [ll [QL [QEL LRL]]].
    assert (Qb : b' = erase (lset S lt)). { unfold S. rewrite <- (llast_end _ _ LE). apply mark_labelled; auto; [apply (lr_ok _ _ LR)|]. rewrite QE. auto. }
    assert (H4 : at_ h4 w ([(bdy, b'); (full, erase (lset S lc))] ++ L) ([(tails, erase (lset S ll))] ++ P)).
    { apply (vat_flags h3 w h4 S [(bdy, bv); (full, cv)] _ L [(tails, lv)] _ P H3 FL).
      - rewrite A3. exact D3.
      - reflexivity.
      - reflexivity.
      - pose proof (lr_reads _ _ (flags_lr _ _ _ FL _ LR3)) as G1. pose proof (lr_reads _ _ (flags_lr _ _ _ FL _ LRC)) as G2. rewrite lset_root in G1, G2.
        repeat constructor; cbn; [rewrite Qb, <- QR; auto|rewrite <- QC; auto].
      - pose proof (lr_reads _ _ (flags_lr _ _ _ FL _ LRL)) as G1. rewrite lset_root in G1. repeat constructor. cbn. rewrite <- QL. auto. }
    cbn [app] in H4. apply vat_demote in H4. op ltac:(eapply o_X; exact H4). intros u h5 H5. exists (erase (lset S lc)). rewrite QR. exact H5.
Qed.
End Mark.

(** ** The argument of a builtin *)
(** [any] is the value of the first binding of the closure [full]. *)
Definition argument (h : heap) (full any : N) : Prop := exists c e q ce k,
  cells h full = Some c /\ body c = KPair e q /\ cells h e = Some ce /\ body ce = KPair k any.
Lemma argument_reads : forall h full any cv av, argument h full any -> reads h full cv -> reads h any av ->
  exists t t1 x y, cv = Pair t (Pair t1 x av) y.
Proof.
  intros h full any cv av [c [e [q [ce [k [E [Bc [Ee Be]]]]]]]] R RA. inversion R as [| | | | | |a0 c0 x0 y0 v0 w0 E0 B0 RX RY]; subst; try congruence.
  rewrite E in E0. injection E0 as <-. rewrite Bc in B0. injection B0 as <- <-.
  inversion RX as [| | | | | |a1 c1 x1 y1 v1 w1 E1 B1 RX1 RY1]; subst; try congruence. rewrite Ee in E1. injection E1 as <-. rewrite Be in B1. injection B1 as <- <-.
  rewrite (reads_fun _ _ _ RA _ RY1). eauto.
Qed.
Lemma argument_avail : forall h full any cv av L B, strong h -> argument h full any -> reads h any av -> avail h ((full, cv) :: L) B any av.
Proof.
  intros h full any cv av L B St [c [e [q [ce [k [E [Bc [Ee Be]]]]]]]] RA. split; auto.
  eapply reach_step; [eapply reach_step; [apply reach_root; cbn; eauto|eapply field_car; eauto]|eapply field_cdr; eauto].
Qed.
Lemma avail_cons : forall h L B p a v, avail h L B a v -> avail h (p :: L) B a v.
Proof. intros h L B p a v [R A]. split; auto. eapply reach_sub; [|exact A]. intros x I. cbn. auto. Qed.
Lemma argument_ages : forall h h' full any cv av, (forall a, alive h a -> (a < nxt h)%N) -> argument h full any -> reads h full cv -> reads h any av -> reads h' full cv -> ages h h' ->
  argument h' full any /\ reads h' any av.
Proof.
  intros h h' full any cv av BD AR R RA R' [_ AG]. destruct (argument_reads _ _ _ _ _ AR R RA) as [t [t1 [x [y ->]]]].
  destruct AR as [c [e [q [ce [k [E [Bc [Ee Be]]]]]]]].
  inversion R' as [| | | | | |a0 c0 x0 y0 v0 w0 E0 B0 RX RY]; subst.
  assert (LF : (full < nxt h)%N) by (apply BD; unfold alive; congruence). assert (LE : (e < nxt h)%N) by (apply BD; unfold alive; congruence).
  destruct (AG _ _ LF E0) as [c2 [E2 S2]]. apply stored_eq in S2. destruct S2 as [S2 _]. assert (c2 = c) by congruence. subst c2. rewrite S2, Bc in B0. injection B0 as <- <-.
  inversion RX as [| | | | | |a1 c1 x1 y1 v1 w1 E1 B1 RX1 RY1]; subst.
  destruct (AG _ _ LE E1) as [c2 [E3 S3]]. apply stored_eq in S3. destruct S3 as [S3 _]. assert (c2 = ce) by congruence. subst c2. rewrite S3, Be in B1. injection B1 as <- <-.
  split; auto. exists c0, e, q, c1, k. repeat split; auto; congruence.
Qed.
