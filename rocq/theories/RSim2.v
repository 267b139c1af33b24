(** * RSim2: memory that is used again, against cells that are never used again: every
    function of the evaluator. *)
From Verif Require Import Value Heap HeapSpec RSimSpec RSim.
From Verif Require Slab RHeap HEval HEvalBoot HEvalBase REval Eval.
Import HEval(assq, with_binds, with_ichan, with_ochan, with_opens, with_outs, with_caches, with_lost, with_strays).
Module E := REval.
Open Scope N_scope.

(** ** Cases *)
Lemma crel_case : forall W c c', crel W c c' ->
  (exists rf t w x y x' y', c = mkcell rf t w (KPair x y) /\ c' = mkcell rf t w (KPair x' y') /\ pt W x x' /\ pt W y y') \/
  (c' = c /\ (forall x y, body c <> KPair x y)).
Proof.
  intros W [rf t w b] [rf' t' w' b'] [R T K B]. cbn in *. subst. inversion B as [x y x' y' X Y|u U]; subst; [left|right]; auto.
  exists rf, t, w, x, y, x', y'. auto.
Qed.
Lemma pair_same : forall W c c', crel W c c' -> is_pair_c c' = is_pair_c c.
Proof. intros W c c' H. destruct (crel_case _ _ _ H) as [(rf & t & w & x & y & x' & y' & -> & -> & _)|[-> _]]; auto. Qed.
Lemma nil_same : forall W c c', crel W c c' -> is_nil_c c' = is_nil_c c.
Proof. intros W c c' H. destruct (crel_case _ _ _ H) as [(rf & t & w & x & y & x' & y' & -> & -> & _)|[-> _]]; auto. Qed.
Lemma true_same : forall W c c', crel W c c' -> is_true_c c' = is_true_c c.
Proof. intros W c c' H. destruct (crel_case _ _ _ H) as [(rf & t & w & x & y & x' & y' & -> & -> & _)|[-> _]]; auto. Qed.
Lemma wild_same : forall W c c', crel W c c' -> is_wild_c c' = is_wild_c c.
Proof. intros W c c' H. destruct (crel_case _ _ _ H) as [(rf & t & w & x & y & x' & y' & -> & -> & _)|[-> _]]; auto. Qed.
Lemma char_same : forall W c c', crel W c c' -> is_char_c c' = is_char_c c.
Proof. intros W c c' H. destruct (crel_case _ _ _ H) as [(rf & t & w & x & y & x' & y' & -> & -> & _)|[-> _]]; auto. Qed.
Lemma num_same : forall W c c', crel W c c' -> is_num_c c' = is_num_c c.
Proof. intros W c c' H. destruct (crel_case _ _ _ H) as [(rf & t & w & x & y & x' & y' & -> & -> & _)|[-> _]]; auto. Qed.
Lemma sym_same : forall W c c', crel W c c' -> is_sym_c c' = is_sym_c c.
Proof. intros W c c' H. destruct (crel_case _ _ _ H) as [(rf & t & w & x & y & x' & y' & -> & -> & _)|[-> _]]; auto. Qed.
Lemma list_same : forall W c c', crel W c c' -> HEval.is_list_c c' = HEval.is_list_c c.
Proof. intros W c c' H. unfold HEval.is_list_c. rewrite (nil_same _ _ _ H), (pair_same _ _ _ H). auto. Qed.
Lemma leaf_same : forall W c c', crel W c c' -> HEval.leaf c' = HEval.leaf c.
Proof. intros W c c' H. destruct (crel_case _ _ _ H) as [(rf & t & w & x & y & x' & y' & -> & -> & _)|[-> _]]; auto. Qed.
Lemma crel_refs : forall W c c' n, crel W c c' -> crel W (with_refs c n) (with_refs c' n).
Proof. intros W c c' n [R T K B]. constructor; auto. Qed.
Lemma crel_tail : forall W c c', crel W c c' -> crel W (with_tail c) (with_tail c').
Proof. intros W c c' [R T K B]. constructor; auto. Qed.
Lemma crel_body : forall W c c' x y x' y', crel W c c' -> pt W x x' -> pt W y y' ->
  crel W (with_body c (KPair x y)) (with_body c' (KPair x' y')).
Proof. intros W c c' x y x' y' [R T K B] X Y. constructor; auto. apply b_pair; auto. Qed.
Lemma crel_mk : forall W rf t w x y x' y', pt W x x' -> pt W y y' -> crel W (mkcell rf t w (KPair x y)) (mkcell rf t w (KPair x' y')).
Proof. intros. constructor; auto. apply b_pair; auto. Qed.
Lemma crel_leaf : forall W c, (forall x y, body c <> KPair x y) -> crel W c c.
Proof. intros. constructor; auto. apply b_leaf. auto. Qed.

Create HintDb trk discriminated.

Section Strict.
Variable strict : bool.
Notation tracks := (tracks_ strict).
Hint Resolve crel_refs crel_tail crel_body crel_mk crel_leaf t_rd t_wr t_release t_alloc b_pair : trk.
Hint Extern 4 (brel _ _ _) => (apply b_leaf; intros; discriminate) : trk.
Ltac fin := first [reflexivity | solve [eauto 4 with trk] | split; fin].

Ltac lift L :=
  match type of L with
  | wle ?W ?W' =>
      repeat match goal with
      | H : pt W _ _ |- _ => apply (pt_le _ _ _ _ L) in H
      | H : crel W _ _ |- _ => apply (crel_le _ _ _ _ L) in H
      | H : orel W _ _ |- _ => apply (orel_le _ _ _ _ L) in H
      | H : brel W _ _ |- _ => apply (brel_le _ _ _ _ L) in H
      | H : open W = true |- _ => apply (open_le _ _ L) in H
      end
  end.
Ltac tests :=
  repeat match goal with
  | H : crel _ ?c ?c' |- context [is_pair_c ?c'] => rewrite (pair_same _ _ _ H)
  | H : crel _ ?c ?c' |- context [is_nil_c ?c'] => rewrite (nil_same _ _ _ H)
  | H : crel _ ?c ?c' |- context [is_true_c ?c'] => rewrite (true_same _ _ _ H)
  | H : crel _ ?c ?c' |- context [is_wild_c ?c'] => rewrite (wild_same _ _ _ H)
  | H : crel _ ?c ?c' |- context [is_char_c ?c'] => rewrite (char_same _ _ _ H)
  | H : crel _ ?c ?c' |- context [is_num_c ?c'] => rewrite (num_same _ _ _ H)
  | H : crel _ ?c ?c' |- context [is_sym_c ?c'] => rewrite (sym_same _ _ _ H)
  | H : crel _ ?c ?c' |- context [HEval.is_list_c ?c'] => rewrite (list_same _ _ _ H)
  | H : crel _ ?c ?c' |- context [HEval.leaf ?c'] => rewrite (leaf_same _ _ _ H)
  | H : crel _ ?c ?c' |- context [refs ?c'] => rewrite (c_refs _ _ _ H)
  | H : crel _ ?c ?c' |- context [tail ?c'] => rewrite (c_tail _ _ _ H)
  | H : crel _ ?c ?c' |- context [weak ?c'] => rewrite (c_weak _ _ _ H)
  end.
Ltac cells H :=
  let rf := fresh "rf" in let t := fresh "t" in let w := fresh "w" in
  let x := fresh "x" in let y := fresh "y" in let x' := fresh "x'" in let y' := fresh "y'" in
  let X := fresh "X" in let Y := fresh "Y" in let U := fresh "U" in
  destruct (crel_case _ _ _ H) as [(rf & t & w & x & y & x' & y' & -> & -> & X & Y)|[-> U]]; clear H; cbn [body].
Ltac post L Q :=
  cbv beta in Q; lift L; clear L;
  lazymatch type of Q with
  | same _ _ _ => hnf in Q; subst
  | two _ ?p ?q => destruct p, q; destruct Q as [? ?]; cbn [fst snd] in *
  | _ => idtac
  end.
Ltac guess :=
  lazymatch goal with
  | |- tracks ?Q _ _ _ =>
      is_evar Q;
      lazymatch type of Q with
      | world -> N -> N -> Prop => unify Q pt
      | world -> ?A -> ?A -> Prop => unify Q (@same A)
      end
  | |- _ => idtac
  end.
Ltac ghost := fail.
Ltac step :=
  cbv beta; cbv iota; cbn [fst snd body negb andb orb]; tests;
  lazymatch goal with
  | |- tracks _ (hbind_ _ _) (R.hbind_ _ _) _ =>
      let W := fresh "W" in let L := fresh "L" in let Q := fresh "Q" in
      first
        [ eapply t_bind; [solve [eauto 4 with trk]|intros W ? ? L Q; post L Q]
        | ghost
        | eapply t_bind; [guess; solve [repeat step]|intros W ? ? L Q; post L Q] ]
  | |- tracks _ (hbind_ _ _) _ _ => ghost
  | |- tracks _ (done _) (R.done _) _ =>
      let L := fresh "L" in apply t_done; intros ? L; lift L; clear L; solve [fin]
  | |- tracks _ wild _ _ => apply t_wild
  | |- tracks _ dry _ _ => apply t_dry
  | |- tracks _ (fun _ => _) _ _ => apply t_stop; intro; exact I
  | |- tracks _ (match body ?c with _ => _ end) (match body ?c with _ => _ end) _ =>
      destruct (body c) eqn:?; try solve [exfalso; match goal with U : forall x y, KPair _ _ <> KPair x y |- _ => eapply U; reflexivity end]
  | H : crel _ ?c ?c' |- tracks _ (match body ?c with _ => _ end) _ _ => cells H
  | H : crel _ ?c ?c' |- tracks _ _ (match body ?c' with _ => _ end) _ => cells H
  | H : orel _ ?o ?o' |- tracks _ (match ?o with _ => _ end) _ _ =>
      destruct o, o'; cbn [orel] in H; try contradiction
  | |- tracks _ (if ?b then _ else _) (if ?b then _ else _) _ => destruct b
  | |- tracks _ (match ?b with _ => _ end) (match ?b with _ => _ end) _ => destruct b
  | |- tracks _ _ _ _ => solve [eauto 4 with trk]
  end.
Ltac go := repeat step.

(** ** Lists *)
Lemma t_up : forall W a b, pt W a b -> tracks pt (up a) (R.up b) W.
Proof. intros. unfold up, R.up. go. Qed.
Lemma t_nil : forall W, tracks pt make_nil R.make_nil W.
Proof. intros. unfold make_nil, R.make_nil. go. Qed.
Lemma t_cons : forall W x y x' y', pt W x x' -> pt W y y' -> tracks pt (hcons x y) (R.hcons x' y') W.
Proof. intros. unfold hcons, R.hcons. go. Qed.
Hint Resolve t_up t_nil t_cons : trk.
Lemma t_drop : forall n W a b, pt W a b -> tracks same (drop n a) (R.drop n b) W.
Proof.
  induction n as [|n IH]; intros W a b P; cbn [drop R.drop]; go.
Qed.

Lemma t_X : forall W a b, pt W a b -> tracks same (X a) (R.X b) W.
Proof.
  intros W a b P W0 h r L M. unfold X, R.X. rewrite (m_served _ _ _ M). apply (t_drop _ _ _ _ P W0 h r L M).
Qed.
Lemma t_CAR : forall W a b, pt W a b -> tracks pt (CAR a) (R.CAR b) W.
Proof. intros. unfold CAR, R.CAR. go. Qed.
Lemma t_CDR : forall W a b, pt W a b -> tracks pt (CDR a) (R.CDR b) W.
Proof. intros. unfold CDR, R.CDR. go. Qed.
Hint Resolve t_X t_CAR t_CDR : trk.
Definition stable (f : cell -> bool) : Prop := forall W c c', crel W c c' -> f c' = f c.
Lemma t_test : forall W f a b, stable f -> pt W a b -> tracks same (test f a) (R.test f b) W.
Proof.
  intros W f a b S P. unfold test, R.test. step. rewrite (S _ _ _ Q). go.
Qed.
Hint Resolve t_test pair_same nil_same true_same wild_same char_same num_same sym_same list_same c_tail : trk.
Hint Unfold stable : trk.
Lemma t_hcar : forall W a b, pt W a b -> tracks pt (hcar a) (R.hcar b) W.
Proof. intros. unfold hcar, R.hcar. go. Qed.
Lemma t_hcdr : forall W a b, pt W a b -> tracks pt (hcdr a) (R.hcdr b) W.
Proof. intros. unfold hcdr, R.hcdr. go. Qed.
Hint Resolve t_hcar t_hcdr : trk.
Lemma t_last_pair : forall n W a b, pt W a b -> tracks pt (last_pair n a) (R.last_pair n b) W.
Proof. induction n as [|n IH]; intros; cbn [last_pair R.last_pair]; go. Qed.
Hint Resolve t_last_pair : trk.
Lemma t_conc : forall n W a b a' b', pt W a a' -> pt W b b' -> tracks pt (hconc n a b) (R.hconc n a' b') W.
Proof. intros. unfold hconc, R.hconc. go. Qed.
Hint Resolve t_conc : trk.
Lemma t_append : forall n W a b a' b', pt W a a' -> pt W b b' -> tracks pt (happend n a b) (R.happend n a' b') W.
Proof. intros. unfold happend, R.happend. go. Qed.
Lemma t_dup : forall n W a b, pt W a b -> tracks pt (hdup n a) (R.hdup n b) W.
Proof. induction n as [|n IH]; intros; cbn [hdup R.hdup]; go. Qed.
Hint Resolve t_append t_dup : trk.
Lemma t_hbind : forall n W c a v c' a' v', pt W c c' -> pt W a a' -> pt W v v' -> tracks pt (hbind n c a v) (R.hbind n c' a' v') W.
Proof. induction n as [|n IH]; intros; cbn [hbind R.hbind]; go. Qed.
Lemma t_symbol_of : forall W a b, pt W a b -> tracks same (symbol_of a) (R.symbol_of b) W.
Proof. intros. unfold symbol_of, R.symbol_of. go. Qed.
Hint Resolve t_hbind t_symbol_of : trk.
Lemma t_sss : forall n W a b a' b', pt W a a' -> pt W b b' -> tracks pt (hsss n a b) (R.hsss n a' b') W.
Proof. induction n as [|n IH]; intros; cbn [hsss R.hsss]; go. Qed.
Hint Resolve t_sss : trk.
Lemma t_merge_loop : forall n W a b a' b', pt W a a' -> pt W b b' -> tracks pt (hmerge_loop n a b) (R.hmerge_loop n a' b') W.
Proof. induction n as [|n IH]; intros; cbn [hmerge_loop R.hmerge_loop]; go. Qed.
Hint Resolve t_merge_loop : trk.
Lemma t_merge : forall n W a b a' b', pt W a a' -> pt W b b' -> tracks pt (hmerge n a b) (R.hmerge n a' b') W.
Proof. intros. unfold hmerge, R.hmerge. go. Qed.
Hint Resolve t_merge : trk.
Lemma t_mix : forall n W a b a' b', pt W a a' -> pt W b b' -> tracks pt (HEval.hmix n a b) (E.hmix n a' b') W.
Proof. intros. unfold HEval.hmix, E.hmix. go. Qed.
Hint Resolve t_mix : trk.

(** ** Reading and building values *)
Lemma t_set_cdr : forall W a b a' b', pt W a a' -> pt W b b' -> tracks same (HEval.set_cdr a b) (E.set_cdr a' b') W.
Proof. intros. unfold HEval.set_cdr, E.set_cdr. go. Qed.
Lemma t_set_tail : forall W a b, pt W a b -> tracks same (HEval.set_tail a) (E.set_tail b) W.
Proof. intros. unfold HEval.set_tail, E.set_tail. go. Qed.
Lemma t_key_is : forall W a b s, pt W a b -> tracks same (HEval.key_is a s) (E.key_is b s) W.
Proof.
  intros. unfold HEval.key_is, E.key_is. step. cells Q; [go|]. go.
Qed.
Lemma t_same_key : forall W a b a' b', pt W a a' -> pt W b b' -> tracks same (HEval.same_key a b) (E.same_key a' b') W.
Proof.
  intros. unfold HEval.same_key, E.same_key. step. step. cells Q; cells Q0; go.
Qed.
Lemma t_number_of : forall W a b, pt W a b -> tracks same (HEval.number_of a) (E.number_of b) W.
Proof. intros. unfold HEval.number_of, E.number_of. go. Qed.
Hint Resolve t_set_cdr t_set_tail t_key_is t_same_key t_number_of : trk.
Lemma t_value_at : forall n W a b, pt W a b -> tracks same (HEval.value_at n a) (E.value_at n b) W.
Proof. induction n as [|n IH]; intros; cbn [HEval.value_at E.value_at]; go. Qed.
Lemma t_truth : forall W b, tracks pt (HEval.make_truth b) (E.make_truth b) W.
Proof. intros W []; unfold HEval.make_truth, E.make_truth; go. Qed.
Hint Resolve t_value_at t_truth : trk.
Lemma t_equ : forall n W a b a' b', pt W a a' -> pt W b b' -> tracks same (HEval.hequ n a b) (E.hequ n a' b') W.
Proof. induction n as [|n IH]; intros; cbn [HEval.hequ E.hequ]; go. Qed.
Lemma t_neq : forall n W a b a' b', pt W a a' -> pt W b b' -> tracks same (HEval.hneq n a b) (E.hneq n a' b') W.
Proof. induction n as [|n IH]; intros; cbn [HEval.hneq E.hneq]; go. Qed.
Lemma t_match : forall n W a b a' b', pt W a a' -> pt W b b' -> tracks same (HEval.hmatch n a b) (E.hmatch n a' b') W.
Proof. induction n as [|n IH]; intros; cbn [HEval.hmatch E.hmatch]; go. Qed.
Lemma t_may_apply : forall n W a b a' b', pt W a a' -> pt W b b' -> tracks same (HEval.hmay_apply n a b) (E.hmay_apply n a' b') W.
Proof. induction n as [|n IH]; intros; cbn [HEval.hmay_apply E.hmay_apply]; go. Qed.
Lemma t_len : forall n W a b, pt W a b -> tracks same (HEval.hlen n a) (E.hlen n b) W.
Proof. induction n as [|n IH]; intros; cbn [HEval.hlen E.hlen]; go. Qed.
Lemma t_is_func : forall W a b, pt W a b -> tracks same (HEval.his_func a) (E.his_func b) W.
Proof. intros. unfold HEval.his_func, E.his_func. go. Qed.
Hint Resolve t_equ t_neq t_match t_may_apply t_len t_is_func : trk.
Lemma t_scan : forall n W a b s, pt W a b -> tracks orel (HEval.scan n a s) (E.scan n b s) W.
Proof. induction n as [|n IH]; intros; cbn [HEval.scan E.scan]; go. Qed.
Hint Resolve t_scan : trk.
Lemma t_find_local : forall n W a b s, pt W a b -> tracks orel (HEval.find_local n a s) (E.find_local n b s) W.
Proof. intros. unfold HEval.find_local, E.find_local. go. Qed.
Hint Resolve t_find_local : trk.
Lemma t_flag : forall W t a b, pt W a b -> tracks pt (flag t a) (E.flag t b) W.
Proof. intros W [] a b P; unfold flag, E.flag; go. Qed.
Hint Resolve t_flag : trk.
Lemma t_plant : forall v W, tracks pt (plant v) (E.plant v) W.
Proof. induction v; intros; cbn [plant E.plant]; go. Qed.
Hint Resolve t_plant : trk.

(** ** Tail calls *)
Lemma t_wrap : forall W a b, pt W a b -> tracks pt (HEval.wrap a) (E.wrap b) W.
Proof. intros. unfold HEval.wrap, E.wrap. go. Qed.
Hint Resolve t_wrap : trk.
Lemma t_collect_assoc : forall col col' (C : forall W a b, pt W a b -> tracks pt (col a) (col' b) W) n W a b,
  pt W a b -> tracks pt (HEval.hcollect_assoc col n a) (E.hcollect_assoc col' n b) W.
Proof. intros col col' C. induction n as [|n IH]; intros; cbn [HEval.hcollect_assoc E.hcollect_assoc]; go. Qed.
Lemma t_collect : forall n W a b, pt W a b -> tracks pt (HEval.hcollect n a) (E.hcollect n b) W.
Proof.
  induction n as [|n IH]; intros; cbn [HEval.hcollect E.hcollect]; [go|].
  pose proof (t_collect_assoc _ _ IH) as CA. go.
Qed.
Hint Resolve t_collect : trk.
Lemma t_mark_loop : forall n W s a p s' a' p', pt W s s' -> pt W a a' -> pt W p p' ->
  tracks same (HEval.hmark_loop n s a p) (E.hmark_loop n s' a' p') W.
Proof. induction n as [|n IH]; intros; cbn [HEval.hmark_loop E.hmark_loop]; go. Qed.
Hint Resolve t_mark_loop : trk.
Lemma t_mark : forall n W s a p s' a' p', pt W s s' -> pt W a a' -> pt W p p' ->
  tracks same (HEval.hmark n s a p) (E.hmark n s' a' p') W.
Proof. intros. unfold HEval.hmark, E.hmark. go. Qed.
Hint Resolve t_mark : trk.

(** ** struct lisp *)
Record frel (W : world) (r r' : rest) : Prop := mkfrel {
  f_binds : forall s, orel W (assq (fun k => sym_match k s) (binds r)) (assq (fun k => sym_match k s) (binds r'));
  f_ichan : pt W (ichan r) (ichan r');
  f_ochan : pt W (ochan r) (ochan r');
  f_opens : opens r' = opens r }.
Lemma frel_le : forall W W' r r', wle W W' -> frel W r r' -> frel W' r r'.
Proof.
  intros W W' r r' L [B I O P]. constructor; auto; try (eapply pt_le; eauto). intro s. eapply orel_le; eauto.
Qed.
Lemma t_get_aux : forall W, open W = true -> tracks frel HEval.get_aux E.get_aux W.
Proof.
  intros W O W0 h r L M. apply (open_le _ _ L) in O. unfold HEval.get_aux, E.get_aux. exists W0. split; [apply wle_refl|]. split; auto.
  destruct (m_aux _ _ _ M) as [B I C P X]. constructor; auto. intro s. clear -B.
  induction B as [|[k v] [k' v'] l l' [E H] B IH]; cbn in *; [exact I|]. subst k'. destruct (sym_match k s); auto.
Qed.
Lemma t_set_aux : forall W f f',
  (forall W0 r r', wle W W0 -> arel W0 r r' -> arel W0 (f r) (f' r') /\ caches (f r) = caches r /\ caches (f' r') = caches r' /\ strays (f r) = strays r) ->
  tracks same (HEval.set_aux f) (E.set_aux f') W.
Proof.
  intros W f f' H W0 h r L M. unfold HEval.set_aux, E.set_aux. exists W0. split; [apply wle_refl|]. split; [|reflexivity].
  destruct (H W0 _ _ L (m_aux _ _ _ M)) as [A [C [C' Z]]].
  destruct M as [M1 M2 M3 M4 M5 M6 M7 M8 MS M9 M10 MO M11]. constructor; cbn; auto; try rewrite C; try rewrite Z; auto. intros a X. rewrite C'. auto.
Qed.
Lemma t_global : forall W s, open W = true -> tracks orel (HEval.global s) (E.global s) W.
Proof.
  intros W s O. unfold HEval.global, E.global. eapply t_bind; [apply t_get_aux; auto|]. intros W' r r' L F.
  apply t_done. intros W2 L2. eapply orel_le; [exact L2|apply F].
Qed.
Hint Resolve t_get_aux t_global : trk.
Lemma t_add_bind : forall W s a b, pt W a b ->
  tracks same (HEval.set_aux (fun r => with_binds r ((s, a) :: binds r))) (E.set_aux (fun r => with_binds r ((s, b) :: binds r))) W.
Proof.
  intros W s a b P. apply t_set_aux. intros W0 r r' L [B I C O X]. split; auto. constructor; auto. cbn. constructor; auto.
  split; auto. eapply pt_le; eauto.
Qed.
Lemma t_add_out : forall W p, tracks same (HEval.set_aux (fun r => with_outs r (p :: outs r))) (E.set_aux (fun r => with_outs r (p :: outs r))) W.
Proof. intros W p. apply t_set_aux. intros W0 r r' L [B I C O X]. split; auto. constructor; auto. cbn. congruence. Qed.
Lemma t_add_open : forall W, tracks same (HEval.set_aux (fun r => with_opens r (opens r + 1)%N)) (E.set_aux (fun r => with_opens r (opens r + 1)%N)) W.
Proof. intros W. apply t_set_aux. intros W0 r r' L [B I C O X]. split; auto. constructor; auto. cbn. congruence. Qed.
Lemma t_set_open : forall W n, tracks same (HEval.set_aux (fun r => with_opens r n)) (E.set_aux (fun r => with_opens r n)) W.
Proof. intros W n. apply t_set_aux. intros W0 r r' L [B I C O X]. split; auto. constructor; auto. Qed.
Lemma t_set_chan : forall W (o : bool) a b, pt W a b ->
  tracks same (HEval.set_aux (fun r => if o then with_ochan r a else with_ichan r a)) (E.set_aux (fun r => if o then with_ochan r b else with_ichan r b)) W.
Proof.
  intros W o a b P. apply t_set_aux. intros W0 r r' L [B I C O X]. apply (pt_le _ _ _ _ L) in P.
  destruct o; (split; [constructor; auto|auto]).
Qed.
Lemma t_set_ochan : forall W a b, pt W a b -> tracks same (HEval.set_aux (fun r => with_ochan r a)) (E.set_aux (fun r => with_ochan r b)) W.
Proof. intros W a b P. apply (t_set_chan W true a b P). Qed.
Lemma t_set_ichan : forall W a b, pt W a b -> tracks same (HEval.set_aux (fun r => with_ichan r a)) (E.set_aux (fun r => with_ichan r b)) W.
Proof. intros W a b P. apply (t_set_chan W false a b P). Qed.
Hint Resolve t_add_bind t_add_out t_add_open t_set_open t_set_ochan t_set_ichan : trk.

(** ** Steps of the cells only *)
Definition pure {A} (m : HM A) : Prop := forall h a h', m h = Done a h' -> h' = h.
Lemma pure_bind : forall A B (m : HM A) (k : A -> HM B), pure m -> (forall a, pure (k a)) -> pure (hbind_ m k).
Proof.
  intros A B m k P K h a h' H. unfold hbind_ in H. destruct (m h) as [b h1| | | | |] eqn:E; try discriminate.
  apply P in E. subst. eapply K; eauto.
Qed.
Lemma pure_done : forall A (a : A), pure (done a).
Proof. intros A a h b h' [= _ <-]. auto. Qed.
Lemma pure_rd : forall a, pure (rd a).
Proof. intros a h c h'. unfold rd. destruct (cells h a); [intros [= _ <-]|]; auto; discriminate. Qed.
Lemma pure_stop : forall A (m : HM A), (forall h, match m h with Done _ _ => False | _ => True end) -> pure m.
Proof. intros A m H h a h' E. specialize (H h). rewrite E in H. contradiction. Qed.
Ltac pures :=
  repeat (cbv beta;
    first [ assumption
          | apply pure_done | apply pure_rd | solve [eauto 2]
          | (apply pure_stop; intro; exact I)
          | (apply pure_bind; [|intro])
          | match goal with |- pure (match ?x with _ => _ end) => destruct x end ]).
Lemma pure_value_at : forall n a, pure (HEval.value_at n a).
Proof. induction n as [|n IH]; intro a; cbn [HEval.value_at]; [apply pure_stop; intro; exact I|]. pures. Qed.
Lemma pure_left : forall A C D (S : world -> C -> D -> Prop) (m : HM A) k m' W, pure m ->
  (forall h, match m h with Wild | Dry => strict = false | _ => True end) ->
  (forall a, tracks S (k a) m' W) -> tracks S (hbind_ m k) m' W.
Proof.
  intros A C D S m k m' W P N0 K. apply t_left; auto. intros W0 h r M. specialize (N0 h). destruct (m h) eqn:E; auto. apply P in E. subst. auto.
Qed.
Lemma calm_bar : forall al e h, match HEval.bar al e h with Wild | Dry => strict = false | _ => True end.
Proof. intros. unfold HEval.bar. destruct (al e); cbn; auto. Qed.
Lemma calm_bar_any : forall al s h, match HEval.bar_any al s h with Wild | Dry => strict = false | _ => True end.
Proof. intros. unfold HEval.bar_any. destruct (sym_match s _); [apply calm_bar|cbn; auto]. Qed.
Lemma calm_watch : forall al e n a ok h, (strict = true -> al e = true) ->
  match HEval.watch al e n a ok h with Wild | Dry => strict = false | _ => True end.
Proof.
  intros al e n a ok h H. unfold HEval.watch. destruct strict; [rewrite (H eq_refl); cbn; auto|].
  match goal with |- match ?m with _ => _ end => destruct m end; auto.
Qed.
Lemma calm_watch_marks : forall al ow n s a b h, (strict = true -> al MarksCode = true) ->
  match HEval.watch_marks al ow n s a b h with Wild | Dry => strict = false | _ => True end.
Proof.
  intros al ow n s a b h H. unfold HEval.watch_marks. destruct strict; [rewrite (H eq_refl); cbn; auto|].
  match goal with |- match ?m with _ => _ end => destruct m end; auto.
Qed.
Lemma pure_bar : forall al e, pure (HEval.bar al e).
Proof. intros. unfold HEval.bar. pures. Qed.
Lemma pure_bar_any : forall al s, pure (HEval.bar_any al s).
Proof. intros. unfold HEval.bar_any, HEval.bar. pures. Qed.
Lemma pure_watch : forall al e n a ok, pure (HEval.watch al e n a ok).
Proof. intros. unfold HEval.watch. pose proof pure_value_at. pures. Qed.
Lemma pure_symbol_of : forall a, pure (symbol_of a).
Proof. intros. unfold symbol_of. pures. Qed.
Lemma pure_watch_marks : forall al ow n s a b, pure (HEval.watch_marks al ow n s a b).
Proof.
  intros. unfold HEval.watch_marks. pose proof pure_value_at. pose proof pure_symbol_of. pures.
  intros h u h' E. destruct (ow h); [|discriminate]. injection E. auto.
Qed.
Lemma left_forget : forall C D (S : world -> C -> D -> Prop) a k m' W,
  (forall u, tracks S (k u) m' W) -> tracks S (hbind_ (HEval.forget a) k) m' W.
Proof.
  intros C D S a k m' W K. apply t_left; auto. intros W0 h r M. unfold HEval.forget, HEval.set_aux.
  destruct M as [M1 M2 M3 M4 M5 M6 M7 M8 MS M9 M10 MO [B I C' O X]]. constructor; cbn; auto. constructor; auto.
Qed.
Lemma left_abandon : forall C D (Q : world -> C -> D -> Prop) a k m' W,
  (forall u, tracks Q (k u) m' W) -> tracks Q (hbind_ (HEval.abandon a) k) m' W.
Proof.
  intros C D Q a k m' W K. apply t_left; auto. intros W0 h r M. unfold HEval.abandon, hbind_, release.
  destruct (cells h a); auto. unfold HEval.set_aux.
  assert (AL : forall b c, cells (set_cell h a None) b = Some c -> cells h b = Some c).
  { intros b c'. cbn. destruct (N.eqb b a); [discriminate|auto]. }
  assert (AN : forall b, cells (set_cell h a None) b <> None -> cells h b <> None).
  { intros b. cbn. destruct (N.eqb b a); [congruence|auto]. }
  destruct M as [M1 M2 M3 M4 M5 M6 M7 M8 MS M9 M10 MO [B I C' O X]]. constructor; auto; [discriminate|constructor; auto].
Qed.
Ltac calm := solve
  [ apply calm_bar | apply calm_bar_any
  | intro; apply calm_watch; match goal with H : strict = true -> _ /\ _ |- _ => intro; apply H; assumption end
  | intro; apply calm_watch_marks; match goal with H : strict = true -> _ /\ _ |- _ => intro; apply H; assumption end ].
Ltac ghost ::=
  first [ apply left_forget; intro | apply left_abandon; intro
        | apply pure_left; [solve [apply pure_bar | apply pure_bar_any | apply pure_watch | apply pure_watch_marks]|calm|intro] ].

(** ** Variables *)
Lemma pure_CAR : forall a, pure (CAR a).
Proof. intros. unfold CAR. pures. Qed.
Lemma pure_CDR : forall a, pure (CDR a).
Proof. intros. unfold CDR. pures. Qed.
Lemma pure_test : forall f a, pure (test f a).
Proof. intros. unfold test. pures. Qed.
Lemma pure_find : forall n c s, pure (HEval.find_local n c s).
Proof.
  intros. unfold HEval.find_local. pose proof pure_CAR. pose proof pure_CDR. pose proof pure_test.
  assert (forall n c, pure (HEval.scan n c s)).
  { induction n0 as [|m IH]; intros; cbn [HEval.scan]; [apply pure_stop; intro; exact I|]. unfold HEval.key_is. pures. }
  pures.
Qed.
(** lib/core/lisp.c:91-131 with the liveness of the symbol in view. *)
Definition look (n : nat) (c x : N) : HM N :=
  s <- symbol_of x ;;
  l <- HEval.find_local n c s ;;
  match l with
  | Some kv => v <- CDR kv ;; up v
  | None =>
      e <- (rd x ;;; HEval.cached x) ;;
      match e with
      | Some kv => v <- CDR kv ;; up v
      | None =>
          g <- HEval.global s ;;
          match g with
          | Some kv => elt <- up kv ;; res <- hcdr elt ;; (rd x ;;; HEval.remember x elt) ;;; X elt ;;; done res
          | None => elt <- make_nil ;; res <- hcdr elt ;; X elt ;;; done res
          end
      end
  end.
Definition live (h : heap) (a : N) : Prop := cells h a <> None.
Definition keeps {A} (m : HM A) : Prop := forall h a h' x, m h = Done a h' -> live h x -> live h' x.
Lemma keeps_bind : forall A B (m : HM A) (k : A -> HM B), keeps m -> (forall a, keeps (k a)) -> keeps (hbind_ m k).
Proof.
  intros A B m k P K h a h' x H L. unfold hbind_ in H. destruct (m h) as [b h1| | | | |] eqn:E; try discriminate.
  eapply K; eauto.
Qed.
Lemma keeps_pure : forall A (m : HM A), pure m -> keeps m.
Proof. intros A m P h a h' x E. apply P in E. subst. auto. Qed.
Lemma keeps_up : forall a, keeps (up a).
Proof.
  intros a. unfold up. apply keeps_bind; [apply keeps_pure, pure_rd|intro c]. apply keeps_bind; [|intro; apply keeps_pure, pure_done].
  intros h b h' x. unfold wr, live. destruct (cells h a) eqn:E; [|discriminate]. intros [= _ <-]. cbn. destruct (N.eqb x a); [discriminate|auto].
Qed.
Lemma keeps_alloc : forall b, keeps (alloc b).
Proof. intros b h a h' x. unfold alloc, live. intros [= _ <-]. cbn. destruct (N.eqb x (nxt h)); [discriminate|auto]. Qed.
Lemma keeps_cdr : forall a, keeps (hcdr a).
Proof.
  intros a. unfold hcdr. apply keeps_bind; [apply keeps_pure, pure_rd|intro c]. destruct (body c); try apply keeps_alloc. apply keeps_up.
Qed.
Lemma rd_live : forall B (x : N) h (k : HM B), live h x -> (rd x ;;; k) h = k h.
Proof. intros B x h k L. unfold hbind_, rd. unfold live in L. destruct (cells h x); [auto|contradiction]. Qed.
Lemma bind_at : forall A B (m : HM A) (k k' : A -> HM B) h, (forall a h', m h = Done a h' -> k a h' = k' a h') ->
  hbind_ m k h = hbind_ m k' h.
Proof. intros A B m k k' h H. unfold hbind_. destruct (m h) eqn:E; auto. Qed.
Lemma bind_first : forall A B (m m' : HM A) (k k' : A -> HM B) h, m h = m' h -> (forall a h', m h = Done a h' -> k a h' = k' a h') ->
  hbind_ m k h = hbind_ m' k' h.
Proof. intros A B m m' k k' h E H. unfold hbind_. rewrite <- E. destruct (m h) eqn:X; auto. Qed.
Lemma look_ok : forall n c x h, HEval.hlookup n c x h = look n c x h.
Proof.
  intros n c x h. unfold HEval.hlookup, look. apply bind_at. intros s h1 E1.
  assert (L : live h x). { unfold symbol_of, hbind_, rd in E1. unfold live. destruct (cells h x); congruence. }
  apply pure_symbol_of in E1. subst h1.
  apply bind_at. intros l h2 E2. apply pure_find in E2. subst h2. destruct l as [kv|]; [reflexivity|].
  apply bind_first; [rewrite rd_live; auto|]. intros e h3 E3. injection E3 as _ <-. destruct e as [kv|]; [reflexivity|].
  apply bind_at. intros g h4 E4. injection E4 as _ <-. destruct g as [kv|]; [|reflexivity].
  apply bind_at. intros elt h5 E5. apply (keeps_up _ _ _ _ _ E5) in L.
  apply bind_at. intros res h6 E6. apply (keeps_cdr _ _ _ _ _ E6) in L.
  apply bind_first; [rewrite rd_live; auto|]. reflexivity.
Qed.
Lemma t_ext : forall A B (Q : world -> A -> B -> Prop) m m2 m' W, (forall h, m h = m2 h) -> tracks Q m2 m' W -> tracks Q m m' W.
Proof. intros A B Q m m2 m' W E T W0 h r L M. rewrite E. apply T; auto. Qed.
Lemma t_cached : forall W a b, pt W a b -> tracks orel (rd a ;;; HEval.cached a) (E.cached b) W.
Proof.
  intros W a b P W0 h r L M. apply (pt_le _ _ _ _ L) in P. destruct P as [_ ->].
  unfold hbind_, rd. destruct (cells h a) eqn:E; auto. cbn. exists W0. split; [apply wle_refl|]. split; auto.
  apply (m_cache _ _ _ M). congruence.
Qed.
Lemma t_remember : forall W a b e e', pt W a b -> pt W e e' -> tracks same (rd a ;;; HEval.remember a e) (E.remember b e') W.
Proof.
  intros W a b e e' P P' W0 h r L M. apply (pt_le _ _ _ _ L) in P, P'. destruct P as [H ->].
  unfold hbind_, rd. destruct (cells h a) eqn:E; auto. unfold HEval.remember, E.remember, HEval.set_aux, E.set_aux.
  exists W0. split; [apply wle_refl|]. split; [|reflexivity].
  destruct M as [M1 M2 M3 M4 M5 M6 M7 M8 MS M9 M10 MO [B I C O X]]. constructor; cbn; auto; try (constructor; auto; fail).
  - intros x y [[= -> ->]|J]; eauto.
  - intros x Y. destruct (N.eqb_spec x a) as [->|N0]; [rewrite N.eqb_refl; exact P'|].
    destruct (N.eqb_spec (place W0 x) (place W0 a)) as [Z|]; [|apply M10; auto].
    exfalso. apply N0. apply M4; auto. congruence.
Qed.
Hint Resolve t_cached t_remember : trk.
Lemma t_lookup : forall n W c x c' x', open W = true -> pt W c c' -> pt W x x' -> tracks pt (HEval.hlookup n c x) (E.hlookup n c' x') W.
Proof. intros. apply t_ext with (m2 := look n c x); [apply look_ok|]. unfold look, E.hlookup. go. Qed.
Hint Resolve t_lookup : trk.

(** ** Output and globals *)
Ltac lift L ::=
  match type of L with
  | wle ?W ?W' =>
      repeat match goal with
      | H : pt W _ _ |- _ => apply (pt_le _ _ _ _ L) in H
      | H : crel W _ _ |- _ => apply (crel_le _ _ _ _ L) in H
      | H : orel W _ _ |- _ => apply (orel_le _ _ _ _ L) in H
      | H : brel W _ _ |- _ => apply (brel_le _ _ _ _ L) in H
      | H : frel W _ _ |- _ => apply (frel_le _ _ _ _ L) in H
      | H : open W = true |- _ => apply (open_le _ _ L) in H
      end
  end.
Hint Resolve f_ichan f_ochan : trk.
Lemma t_emit : forall W b, open W = true -> tracks same (HEval.hemit b) (E.hemit b) W.
Proof. intros. unfold HEval.hemit, E.hemit. go. Qed.
Hint Resolve t_emit : trk.
Lemma t_print : forall n W a b l, open W = true -> pt W a b -> tracks same (HEval.hprint n a l) (E.hprint n b l) W.
Proof. intros. unfold HEval.hprint, E.hprint. go. Qed.
Lemma t_swap : forall W a b a' b', pt W a a' -> pt W b b' -> tracks same (HEval.swap_values a b) (E.swap_values a' b') W.
Proof. intros. unfold HEval.swap_values, E.swap_values. go. Qed.
Hint Resolve t_print t_swap : trk.

Section Evaluator.
Variable allowed : event -> bool.
Hypothesis ST : strict = true -> allowed OddScope = true /\ allowed MarksCode = true.
Variable opened : N -> bool -> atom -> bool.
Variable pwd : atom.
Lemma t_setq : forall W a b, open W = true -> pt W a b -> tracks same (HEval.hsetq allowed a) (E.hsetq b) W.
Proof. intros. unfold HEval.hsetq, E.hsetq. go. Qed.
Hint Resolve t_setq : trk.
Lemma t_open_chan : forall W o v, open W = true -> tracks same (HEval.hopen opened o v) (E.hopen opened o v) W.
Proof.
  intros. unfold HEval.hopen, E.hopen. eapply t_bind; [apply t_get_aux; auto|]. intros W' r r' L F. lift L. rewrite (f_opens _ _ _ F).
  cbv zeta. go.
Qed.
Lemma t_push : forall W o k d, open W = true -> tracks same (HEval.hpush o k d) (E.hpush o k d) W.
Proof. intros W [] k d OP; unfold HEval.hpush, E.hpush; go. Qed.
Lemma t_pop : forall W o, open W = true -> tracks same (HEval.hpop o) (E.hpop o) W.
Proof. intros W [] OP; unfold HEval.hpop, E.hpop; go. Qed.
Hint Resolve t_open_chan t_push t_pop : trk.
Lemma t_pop_arg : forall W a b nm, pt W a b -> tracks two (HEval.pop_arg a nm) (E.pop_arg b nm) W.
Proof. intros. unfold HEval.pop_arg, E.pop_arg. go. Qed.
Hint Resolve t_pop_arg : trk.


Section Rec.
Variables ev : N -> N -> HM N.
Variables ev' : N -> N -> R.HM N.
Hypothesis EV : forall W c x c' x', open W = true -> pt W c c' -> pt W x x' -> tracks pt (ev c x) (ev' c' x') W.
Variable budget : nat.
Lemma t_eval_args : forall n W c acc args vals c' acc' args' vals', open W = true -> pt W c c' -> pt W acc acc' -> pt W args args' -> pt W vals vals' ->
  tracks pt (HEval.heval_args allowed ev n c acc args vals) (E.heval_args ev' n c' acc' args' vals') W.
Proof. induction n as [|n IH]; intros; cbn [HEval.heval_args E.heval_args]; go. Qed.
Lemma t_prog : forall n W c x r c' x' r', open W = true -> pt W c c' -> pt W x x' -> pt W r r' ->
  tracks pt (HEval.hprog ev n c x r) (E.hprog ev' n c' x' r') W.
Proof. induction n as [|n IH]; intros; cbn [HEval.hprog E.hprog]; go. Qed.
Hint Resolve t_eval_args t_prog : trk.
Lemma t_tail_loop : forall n W c s b l c' s' b' l', open W = true -> pt W c c' -> pt W s s' -> pt W b b' -> pt W l l' ->
  tracks two (HEval.htail_loop allowed ev n c s b l) (E.htail_loop ev' n c' s' b' l') W.
Proof. induction n as [|n IH]; intros; cbn [HEval.htail_loop E.htail_loop]; go. Qed.
Lemma t_cond : forall n W c x m c' x' m', open W = true -> pt W c c' -> pt W x x' -> pt W m m' ->
  tracks pt (HEval.hcond ev n c x m) (E.hcond ev' n c' x' m') W.
Proof. induction n as [|n IH]; intros; cbn [HEval.hcond E.hcond]; go. Qed.
Lemma t_match_loop : forall n W c x m c' x' m', open W = true -> pt W c c' -> pt W x x' -> pt W m m' ->
  tracks pt (HEval.hmatch_loop ev n c x m) (E.hmatch_loop ev' n c' x' m') W.
Proof. induction n as [|n IH]; intros; cbn [HEval.hmatch_loop E.hmatch_loop]; go. Qed.
Lemma t_list : forall n W c x c' x', open W = true -> pt W c c' -> pt W x x' ->
  tracks pt (HEval.hlist ev n c x) (E.hlist ev' n c' x') W.
Proof. induction n as [|n IH]; intros; cbn [HEval.hlist E.hlist]; go. Qed.
Lemma t_let_bind : forall n W c e x c' e' x', open W = true -> pt W c c' -> pt W e e' -> pt W x x' ->
  tracks pt (HEval.hlet_bind allowed ev n c e x) (E.hlet_bind ev' n c' e' x') W.
Proof. induction n as [|n IH]; intros; cbn [HEval.hlet_bind E.hlet_bind]; go. Qed.
Hint Resolve t_tail_loop t_cond t_match_loop t_list t_let_bind : trk.
Lemma t_let : forall W c x c' x', open W = true -> pt W c c' -> pt W x x' -> tracks pt (HEval.hlet allowed ev budget c x) (E.hlet ev' budget c' x') W.
Proof. intros. unfold HEval.hlet, E.hlet. go. Qed.
Lemma t_stream : forall n W c e x c' e' x', open W = true -> pt W c c' -> pt W e e' -> pt W x x' ->
  tracks pt (HEval.hstream ev n c e x) (E.hstream ev' n c' e' x') W.
Proof. induction n as [|n IH]; intros; cbn [HEval.hstream E.hstream]; go. Qed.
Lemma t_while : forall n W c e x r c' e' x' r', open W = true -> pt W c c' -> pt W e e' -> pt W x x' -> pt W r r' ->
  tracks pt (HEval.hwhile ev n c e x r) (E.hwhile ev' n c' e' x' r') W.
Proof. induction n as [|n IH]; intros; cbn [HEval.hwhile E.hwhile]; go. Qed.
Lemma t_prin_all : forall n W l c e x c' e' x', open W = true -> pt W c c' -> pt W e e' -> pt W x x' ->
  tracks pt (HEval.hprin_all ev n l c e x) (E.hprin_all ev' n l c' e' x') W.
Proof. induction n as [|n IH]; intros; cbn [HEval.hprin_all E.hprin_all]; go. Qed.
Hint Resolve t_let t_stream t_while t_prin_all : trk.
Lemma t_with_chan : forall o W c x y c' x' y', open W = true -> pt W c c' -> pt W x x' -> pt W y y' ->
  tracks pt (HEval.hwith_chan opened pwd ev budget o c x y) (E.hwith_chan opened pwd ev' budget o c' x' y') W.
Proof. intros [] W c x y c' x' y' H P Q Q'; unfold HEval.hwith_chan, E.hwith_chan; go. Qed.
Lemma t_def : forall W f a b, open W = true -> pt W a b -> tracks pt (HEval.hdef allowed budget f a) (E.hdef budget b) W.
Proof. intros. unfold HEval.hdef, E.hdef. go. Qed.
Lemma t_run_setq : forall W c x c' x', open W = true -> pt W c c' -> pt W x x' -> tracks pt (HEval.hrun_setq allowed ev c x) (E.hrun_setq ev' c' x') W.
Proof. intros. unfold HEval.hrun_setq, E.hrun_setq. go. Qed.
Lemma t_run_set : forall W c x c' x', open W = true -> pt W c c' -> pt W x x' -> tracks pt (HEval.hrun_set allowed ev budget c x) (E.hrun_set ev' budget c' x') W.
Proof. intros. unfold HEval.hrun_set, E.hrun_set. go. Qed.
Lemma t_run_or : forall W c x c' x', open W = true -> pt W c c' -> pt W x x' -> tracks pt (HEval.hrun_or ev c x) (E.hrun_or ev' c' x') W.
Proof. intros. unfold HEval.hrun_or, E.hrun_or. go. Qed.
Hint Resolve t_with_chan t_def t_run_setq t_run_set t_run_or : trk.
Lemma t_prim1 : forall p W f c x f' c' x', open W = true -> pt W f f' -> pt W c c' -> pt W x x' ->
  tracks pt (HEval.hprim1 allowed ev budget p f c x) (E.hprim1 ev' budget p f' c' x') W.
Proof. intros p W f c x f' c' x' O F C P. destruct p; cbn [HEval.hprim1 E.hprim1]; go. Qed.
Lemma t_prim2 : forall p W c x y c' x' y', open W = true -> pt W c c' -> pt W x x' -> pt W y y' ->
  tracks pt (HEval.hprim2 opened pwd ev budget p c x y) (E.hprim2 opened pwd ev' budget p c' x' y') W.
Proof. intros p W c x y c' x' y' O C P Q. destruct p; cbn [HEval.hprim2 E.hprim2]; go. Qed.
Hint Resolve t_prim1 t_prim2 : trk.
Lemma t_run_prim : forall p W f c f', open W = true -> pt W f f' ->
  tracks pt (HEval.hrun_prim allowed opened pwd ev budget p f c) (E.hrun_prim opened pwd ev' budget p f') W.
Proof.
  intros. unfold HEval.hrun_prim, E.hrun_prim. destruct (Eval.pops_two p).
  - step. step. match goal with |- context [N.eqb ?a ?b] => destruct (N.eqb_spec a b); [subst|] end; go.
  - step. match goal with |- context [N.eqb ?a ?b] => destruct (N.eqb_spec a b); [subst|] end; go.
Qed.
Hint Resolve t_run_prim : trk.
Lemma t_eval_func : forall W c s f v c' s' f' v', open W = true -> pt W c c' -> pt W s s' -> pt W f f' -> pt W v v' ->
  tracks pt (HEval.heval_func allowed opened pwd ev budget c s f v) (E.heval_func opened pwd ev' budget c' s' f' v') W.
Proof. intros. unfold HEval.heval_func, E.heval_func. go. Qed.
Hint Resolve t_eval_func : trk.
Lemma t_eval_pair : forall W c x c' x', open W = true -> pt W c c' -> pt W x x' ->
  tracks pt (HEval.heval_pair allowed opened pwd ev budget c x) (E.heval_pair opened pwd ev' budget c' x') W.
Proof. intros. unfold HEval.heval_pair, E.heval_pair. go. Qed.
End Rec.
Lemma t_eval : forall n W c x c' x', open W = true -> pt W c c' -> pt W x x' ->
  tracks pt (HEval.heval allowed opened pwd n c x) (E.heval opened pwd n c' x') W.
Proof.
  induction n as [|n IH]; intros; cbn [HEval.heval E.heval]; [go|]. pose proof (t_eval_pair _ _ IH n). go.
Qed.
Hint Resolve t_eval : trk.
Lemma t_run : forall n l W r r', open W = true -> pt W r r' -> tracks pt (HEval.hrun allowed opened pwd n l r) (E.hrun opened pwd n l r') W.
Proof. intros n. induction l as [|x l IH]; intros; cbn [HEval.hrun E.hrun]; go. Qed.
Lemma t_load : forall l W, open W = true -> tracks same (HEval.hload allowed l) (E.hload l) W.
Proof. induction l as [|[s f] l IH]; intros; cbn [HEval.hload E.hload]; go. Qed.
Hint Resolve t_run t_load : trk.
Lemma t_start : forall W i i' o o', pt W i i' -> pt W o o' ->
  tracks (fun W' _ _ => open W' = true) (HEval.set_aux (fun r => with_ochan (with_ichan r i) o)) (E.set_aux (fun r => with_ochan (with_ichan r i') o')) W.
Proof.
  intros W i i' o o' P P' W0 h r L M. lift L. unfold HEval.set_aux, E.set_aux. exists (mkw (place W0) (lim W0) true).
  assert (L0 : wle W0 (mkw (place W0) (lim W0) true)) by (split; [cbn; lia|split; auto]).
  split; auto. split; [|reflexivity]. lift L0.
  destruct M as [M1 M2 M3 M4 M5 M6 M7 M8 MS M9 M10 MO [B I C O X]]. constructor; cbn; auto.
  - intros a c H. destruct (M3 a c H) as [LA [c' [E' Z]]]. split; auto. exists c'. split; auto. eapply crel_le; eauto.
  - constructor; cbn; auto.
Qed.
Lemma t_boot : forall W, tracks (fun W' _ _ => open W' = true) (HEval.hboot allowed pwd) (E.hboot pwd) W.
Proof.
  intro W. unfold HEval.hboot, E.hboot. step. step. eapply t_bind; [apply t_start; eauto|].
  intros W2 [] [] L O. clear Q Q0. step. step. step.
  match goal with |- tracks _ _ _ ?V => intros V1 h r L5 M; destruct (t_set_open V 2 V1 h r L5 M) as [V2 [L6 [M6 _]]] end.
  exists V2. split; auto. split; auto. eapply open_le; [|eassumption]. eapply wle_trans; eauto.
Qed.
Lemma t_session : forall n l W, tracks pt (HEvalBoot.session allowed opened pwd n l) (E.session opened pwd n l) W.
Proof.
  intros n l W. unfold HEvalBoot.session, E.session. eapply t_bind; [apply t_boot|]. intros W' [] [] L O. go.
Qed.
End Evaluator.
End Strict.

(** ** Program start, and what is read *)
Definition nowhere : world := mkw (fun a => a) 0 false.
Lemma mirrors_empty : mirrors nowhere empty E.empty.
Proof.
  assert (C : R.count 16 = 2048) by reflexivity.
  constructor; cbn [cells nxt aux empty R.served R.cells R.free R.pages R.aux E.empty]; auto; try discriminate; try (intros; congruence).
  - apply range_nodup.
  - intro b. unfold R.fresh_free. rewrite range_in, C. rewrite N2Nat.id. split; [intro; left; lia|]. intros [H|H]; [lia|congruence].
  - exists 0. reflexivity.
  - intros a e [].
  - constructor; cbn; auto; try discriminate.
Qed.
