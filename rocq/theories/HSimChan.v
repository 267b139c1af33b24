(** * HSimChan: channels on a heap that stands for values. *)
From Verif Require Import Value Tails Print Heap HeapSpec HeapProofs HeapOps HEval HEvalSpec HEvalBase HEvalProofs ValueProofs HSimSpec HSimBase HSimOps HSimList HSimMix HSimPure HSimLisp HSimState.
From Verif Require Eval.
Open Scope nat_scope.
Open Scope heap_scope.

Lemma chan_held : forall output r, In (chan output r) (held_by_lisp r).
Proof. intros output r. apply in_or_app. right. destruct output; cbn; auto. Qed.
Lemma chan_lisp : forall output r, In (chan output r) (ichan r :: ochan r :: lost r).
Proof. intros [|] r; cbn; auto. Qed.
(** The channels of the value evaluator, in one direction. *)
Definition wchan (output : bool) (w : Eval.world) : list N := if output then (Eval.ochan w) else (Eval.ichan w).
Definition with_wchan (output : bool) (w : Eval.world) (l : list N) : Eval.world :=
  if output then (Eval.mkw (Eval.globals w) (Eval.outs w) (Eval.ichan w) l (Eval.opens w))
  else (Eval.mkw (Eval.globals w) (Eval.outs w) l (Eval.ochan w) (Eval.opens w)).
Lemma g_chan : forall output h w, lisp h w -> chans h (chan output (aux h)) (wchan output w).
Proof. intros [|] h w L; apply L. Qed.
(** The same struct lisp but for one channel. *)
Lemma lisp_chan : forall output h w h' R a l, holds h R -> lisp h w -> aux h' = with_chan output (aux h) a ->
  kept (map snd (binds (aux h))) h h' -> kept [chan (negb output) (aux h)] h h' ->
  (forall s kv, In (s, kv) (binds (aux h)) -> exists c', cells h' kv = Some c' /\ refs c' = 1) ->
  (nxt h <= nxt h')%N ->
  (forall a c' s, (a < nxt h)%N -> cells h' a = Some c' -> body c' = KSym s -> exists c, cells h a = Some c /\ body c = KSym s) ->
  chans h' a l -> lisp h' (with_wchan output w l).
Proof.
  intros output h w h' R a l H L A K KC AL NX SY CH.
  assert (OC : chans h' (chan (negb output) (aux h)) (wchan (negb output) w)).
  { apply (chans_kept [chan (negb output) (aux h)] h h'); auto; [apply (h_strong _ _ H)|apply reach_root; cbn; auto|apply g_chan; auto]. }
  apply (lisp_step h w h' _ R H L); auto; try (rewrite A; destruct output; try reflexivity; try apply L; auto; fail).
  - apply (cached_same h w h' L); auto. rewrite A. destruct output; reflexivity.
  - destruct output; reflexivity.
Qed.

Section Steps.
Variable allowed : event -> bool.
Hypothesis NoAny : allowed AssignsAny = false.
Variables (h0 : heap) (F : list N) (B : list (N * atom)) (V0 : list N).
Notation at_ := (vat h0 F B V0).

(** ** Opening a channel *)
Lemma s_open : forall opened output v h w L P, opens (aux h0) <> 0%N -> at_ h w L P ->
  sim (hopen opened output v) (Eval.open_chan opened output v) (fun r r' h' w' => r' = r /\ at_ h' w' L P /\ cells h' = cells h) h w.
Proof.
  intros opened output v h w L P OP H. pose proof (v_lisp _ _ _ _ _ _ _ _ H) as LI. pose proof (v_open _ _ _ _ _ _ _ _ H) as VO.
  pose proof (v_holds _ _ _ _ _ _ _ _ H) as HH.
  unfold sim, hopen, get_aux, hbind_. cbv beta iota. unfold Eval.open_chan. rewrite <- (g_opens _ _ LI).
  set (try := if opened _ _ _ then _ else _).
  assert (W : match try h with
    | Done r h' => match (if opened (opens (aux h)) output v then Eval.Ret (Some (opens (aux h)))
        (Eval.mkw (Eval.globals w) (Eval.outs w) (Eval.ichan w) (Eval.ochan w) (opens (aux h) + 1)) else Eval.Ret None w) with
      | Eval.Ret r' w' => r' = r /\ at_ h' w' L P /\ cells h' = cells h | Eval.Stop Eval.Shared => True | _ => False end
    | _ => True end).
  { unfold try. destruct (opened (opens (aux h)) output v); [|unfold done; auto].
    unfold hbind_, set_aux, done. split; auto. split; auto.
    eapply vat_aux; [exact H|reflexivity|reflexivity|reflexivity|reflexivity|reflexivity|reflexivity| | |cbn; lia].
    - apply (aux_holds h _ _ _ HH); auto; try apply HH. intros _. apply (h_chans _ _ HH). lia.
    - eapply lisp_aux; [exact LI|reflexivity|reflexivity|reflexivity|reflexivity|reflexivity|apply LI|reflexivity|apply LI|reflexivity|reflexivity|reflexivity]. }
  destruct v; try exact W; try (unfold done; split; auto; fail).
  destruct output; [destruct (Eval.proper _); [exact W|exact I]|destruct (is_string _); [exact W|unfold done; auto]].
Qed.

(** ** PUSH_IO_CONTEXT *)
Lemma o_push : forall output k dir h w L P, at_ h w L P ->
  wpv (hpush output k dir) (fun _ h' => at_ h' (with_wchan output w (k :: wchan output w)) L P) h.
Proof.
  intros output k dir h w L P H. pose proof (v_holds _ _ _ _ _ _ _ _ H) as HH.
  assert (FACTS : wpv (hpush output k dir) (fun _ h' => exists h5 y, at_ h5 w ((y, Cons (Num (Z.of_N k)) (Cons dir Nil)) :: L) P /\
    aux h' = with_chan output (aux h5) (nxt h5) /\ nxt h' = N.succ (nxt h5) /\
    cells h' (nxt h5) = Some (mkcell 1 false false (KPair y (chan output (aux h5)))) /\
    forall a, a <> nxt h5 -> cells h' a = cells h5 a) h).
  { clear HH. unfold hpush. op ltac:(apply (o_plant _ _ _ _ dir _ _ _ _ H)). clear H. intros p h1 H. xnil H z. xcons H p z x.
    op ltac:(apply (o_alloc _ _ _ _ _ _ _ _ (KNum (Z.of_N k)) (Num (Z.of_N k)) H); [reflexivity|intros; eapply reads_num; eauto]).
    clear H. intros n h4 H. xcons H n x y.
    match type of H with vat _ _ _ _ ?hh _ _ _ => remember hh as h9 eqn:Q9; clear Q9 end.
    apply wpv_bind. unfold wpv at 1, get_aux. cbv beta. fold (chan output (aux h9)).
    unfold wpv, hcons, alloc, hbind_, set_aux. exists h9, y. split; auto. cbn [aux nxt cells].
    split; [unfold with_chan; destruct output; reflexivity|]. split; auto. split; [rewrite N.eqb_refl; auto|].
    intros a N1. apply N.eqb_neq in N1. rewrite N1. auto. }
  eapply wpv_mono; [eapply wpv_and; [exact FACTS|]; apply wp_wpv; apply (push_spec allowed NoAny output k dir h _ HH)|].
  intros u h' [[h5 [y [H5 [A [N5 [Ee OTH]]]]]] [H' _]]. clear FACTS HH H. set (e := nxt h5) in *.
  pose proof (v_holds _ _ _ _ _ _ _ _ H5) as HH. pose proof (v_lisp _ _ _ _ _ _ _ _ H5) as LI.
  pose proof (vat_own _ _ _ _ _ _ _ _ H5) as O. pose proof (vat_strong _ _ _ _ _ _ _ _ H5) as St.
  assert (OLD : forall a, alive h5 a -> a <> e).
  { intros a Al ->. pose proof (own_bounded _ _ _ O Al). unfold e in *. lia. }
  assert (ADD : forall a c, cells h5 a = Some c -> cells h' a = Some c).
  { intros a c E. rewrite OTH; auto. apply OLD. unfold alive. congruence. }
  assert (KEPT : forall R, (forall r, In r R -> alive h5 r) -> kept R h5 h').
  { intros R Al a Ra. assert (Aa : alive h5 a) by (destruct Ra as [a Ia|a b _ Ib]; [auto|eapply fields_alive; [apply O|eauto]]).
    unfold alive in Aa. destruct (cells h5 a) as [c|] eqn:E; [|congruence]. exists c, c. auto. }
  assert (ALH : forall r, In r (held_by_lisp (aux h5)) -> alive h5 r).
  { intros r Ir. eapply own_alive; [exact O|]. apply in_or_app. auto. }
  apply (vat_step _ _ _ _ h5 w h' _ [(y, Cons (Num (Z.of_N k)) (Cons dir Nil))] [] L P [y] H5).
  - intros r [<-|[]]. apply reach_root. apply in_or_app. left. cbn. auto.
  - split; [lia|]. intros S C. constructor.
    + intros a Sa. pose proof (c_below _ _ _ C a Sa). lia.
    + intros a b I Sb. destruct (N.eq_dec a e) as [->|N1].
      * unfold fields_at, fields in I. rewrite Ee in I. cbn in I. destruct I as [<-|[<-|[]]].
        -- destruct (c_held _ _ _ C y); cbn; auto.
        -- destruct (c_lisp _ _ _ C (chan output (aux h5))); auto. apply chan_lisp.
      * apply (c_in _ _ _ C a b); auto. unfold fields_at in *. rewrite OTH in I by auto. auto.
    + intros a [].
    + rewrite A. replace (binds (with_chan output (aux h5) e)) with (binds (aux h5)) by (destruct output; reflexivity).
      intros s kv b I J. apply (c_glob _ _ _ C s kv b I). unfold fields_at in *. rewrite OTH in J; auto.
      apply OLD. apply ALH. apply in_or_app. left. apply in_map_iff. exists (s, kv). auto.
    + intros a I Sa. pose proof (c_below _ _ _ C a Sa) as LT.
      assert (NE : a <> e) by (unfold e; lia). apply (c_lisp _ _ _ C a); auto. rewrite A in I. destruct output; cbn in I |- *; intuition (exfalso; auto).
  - apply KEPT. intros r Ir. eapply own_alive; [exact O|]. unfold heads. cbn [map fst app]. right. apply in_or_app. auto.
  - exact H'.
  - constructor.
  - apply (lisp_chan output h5 w h' _ e _ HH LI A).
    + apply KEPT. intros r Ir. apply ALH. apply in_or_app. auto.
    + apply KEPT. intros r [<-|[]]. apply ALH. apply chan_held.
    + intros s kv I. destruct (g_alone _ _ LI _ _ I) as [c [E Q]]. eauto.
    + lia.
    + intros a c' s LT E' Bc. rewrite OTH in E' by (unfold e; lia). eauto.
    + pose proof (v_L _ _ _ _ _ _ _ _ H5) as FL. inversion FL as [|? ? Ry _]; subst. unfold says in Ry. cbn [fst snd] in Ry.
      destruct (reads_shows _ _ _ Ry) as [cy [Ey [p [q [By [_ [Rp _]]]]]]]. destruct (reads_shows _ _ _ Rp) as [cp [Ep Bp]]. cbn in Bp.
      eapply chans_cons; [exact Ee|reflexivity|apply (ADD _ _ Ey)|exact By|apply (ADD _ _ Ep)|exact Bp|].
      apply (chans_kept [chan output (aux h5)] h5 h'); auto; [|apply reach_root; cbn; auto|apply g_chan; auto].
      apply KEPT. intros r [<-|[]]. apply ALH. apply chan_held.
  - rewrite A. destruct output; cbn; lia.
Qed.

(** ** POP_IO_CONTEXT *)
Lemma o_pop : forall output n m l h w L P, at_ h w L P -> wchan output w = n :: m :: l ->
  wpv (hpop output) (fun _ h' => at_ h' (with_wchan output w (m :: l)) L P) h.
Proof.
  intros output n m l h w L P H WC. pose proof (v_holds _ _ _ _ _ _ _ _ H) as HH. pose proof (v_lisp _ _ _ _ _ _ _ _ H) as LI.
  pose proof (vat_own _ _ _ _ _ _ _ _ H) as O. pose proof (vat_strong _ _ _ _ _ _ _ _ H) as St.
  pose proof (g_chan output _ _ LI) as GC. rewrite WC in GC.
  inversion GC as [|a c e d ce k x ck n' l' E Bc Ee Be Ek Bk Cd Q1 [Q2 Q3]]. subst n' l'. clear GC.
  assert (Pd : a_pair h d) by (inversion Cd as [|a1 c1 e1 d1 ce1 k1 x1 ck1 n1 l1 E1 B1]; subst; exists c1; unfold is_pair_c; rewrite B1; auto).
  assert (FACTS : wpv (hpop output) (fun _ h' => quiet h h') h).
  { unfold hpop. apply wpv_bind. unfold wpv at 1, get_aux. cbv beta. fold (chan output (aux h)).
    apply wpv_bind. unfold wpv at 1. rewrite (CDR_run _ _ _ _ _ E Bc).
    apply wpv_bind. eapply wpv_mono; [apply quiet_up|]. cbv beta. intros r h1 [-> [Q1' _]].
    apply wpv_bind. unfold wpv at 1, set_aux. eapply wpv_mono; [apply quiet_X|]. cbv beta. intros u h2 [Q2' _].
    eapply quiet_trans; [exact Q1'|]. constructor; [apply Q2'|]. intros a0 c' E'. destruct (q_same _ _ Q2' _ _ E') as [c0 [E0 T]]. cbn [cells] in E0. eauto. }
  eapply wpv_mono; [eapply wpv_and; [exact FACTS|]; apply wp_wpv; apply (pop_spec allowed NoAny output h _ _ _ _ HH E Bc Pd)|].
  intros u h' [Q [H' [_ A]]]. clear FACTS.
  pose proof (holds_own _ _ H') as O'.
  assert (BA : binds (aux h') = binds (aux h)) by (rewrite A; destruct output; reflexivity).
  assert (Dh : In d (held_by_lisp (aux h'))) by (rewrite A; apply in_or_app; right; destruct output; cbn; auto).
  assert (KEPT : forall R, (forall r, In r R -> alive h r) -> (forall r, In r R -> alive h' r) -> kept R h h').
  { intros R A1 A2. apply (kept_of R _ _ h h' O O'); auto. intros a1 c1 c1' _ E1 E1'. destruct (q_same _ _ Q _ _ E1') as [c0 [E0 T]]. congruence. }
  assert (SEP : sep h [] h' []).
  { split; [rewrite (q_nxt _ _ Q); lia|]. intros S C. constructor.
    - rewrite (q_nxt _ _ Q). apply C.
    - intros a1 b I. apply (c_in _ _ _ C a1 b). eapply quiet_fields; eauto.
    - intros a1 [].
    - rewrite BA. intros s kv b I J. apply (c_glob _ _ _ C s kv b I). eapply quiet_fields; eauto.
    - intros a1 I Sa. assert (CP : a1 = d \/ In a1 (ichan (aux h) :: ochan (aux h) :: lost (aux h))).
      { rewrite A in I. destruct output; cbn in I |- *; intuition. }
      destruct CP as [->|CP]; [|apply (c_lisp _ _ _ C _ CP Sa)].
      apply (c_lisp _ _ _ C (chan output (aux h)) (chan_lisp _ _)). apply (c_in _ _ _ C _ d); auto. eapply field_cdr; eauto. }
  assert (AH : forall r, In r (heads L ++ heads P ++ F) -> alive h r /\ alive h' r).
  { intros r Ir. split; eapply own_alive; eauto; apply in_or_app; auto. }
  assert (AB : forall r, In r (map snd (binds (aux h))) -> alive h r /\ alive h' r).
  { intros r Ir. split; eapply own_alive; eauto; apply in_or_app; right; apply in_or_app; left; rewrite ?BA; auto. }
  apply (vat_step _ _ _ _ h w h' _ [] [] L P [] H).
  - intros r [].
  - exact SEP.
  - apply KEPT; intros r Ir; apply AH; auto.
  - exact H'.
  - constructor.
  - apply (lisp_chan output h w h' _ d _ HH LI A).
    + apply KEPT; intros r Ir; apply AB; auto.
    + assert (I1 : In (chan (negb output) (aux h)) (held_by_lisp (aux h'))).
      { rewrite A. apply in_or_app. right. destruct output; cbn; auto. }
      apply KEPT; intros r [<-|[]]; eapply own_alive; eauto; apply in_or_app; right; auto. apply chan_held.
    + apply (alone_after2 h w h' [] [] _ (heads L ++ heads P ++ F) HH LI SEP); auto; [intros r []|apply incl_refl].
    + rewrite (q_nxt _ _ Q). lia.
    + intros a1 c' s _ E' Bs. destruct (q_same _ _ Q _ _ E') as [c0 [E0 T]]. exists c0. split; auto. apply stored_eq in T. destruct T. congruence.
    + apply (chans_kept [d] h h'); auto; [|apply reach_root; cbn; auto].
      apply KEPT; intros r [<-|[]]; [|eapply own_alive; [exact O'|apply in_or_app; auto]].
      destruct Pd as [cd [Ed _]]. unfold alive. congruence.
  - rewrite A. destruct output; cbn; lia.
Qed.
End Steps.
