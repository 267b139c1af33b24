(** * HSimPure: computations that only read, on cells that stand for values. *)
From Verif Require Import Value Tails Print Heap HeapSpec HeapProofs HeapOps HEval HEvalSpec HEvalBase HEvalProofs ValueProofs HSimSpec HSimBase HSimOps.
From Verif Require Eval.
Open Scope nat_scope.
Open Scope heap_scope.

(** [m] changes nothing and its result satisfies [P]. *)
Definition gives {A} (m : HM A) (h : heap) (P : A -> Prop) : Prop := wpv m (fun r h' => h' = h /\ P r) h.

Lemma gives_bind : forall {A C} (m : HM A) (k : A -> HM C) h P Q,
  gives m h P -> (forall r, P r -> gives (k r) h Q) -> gives (hbind_ m k) h Q.
Proof. intros A C m k h P Q G K. unfold gives in *. apply wpv_bind. eapply wpv_mono; [exact G|]. intros r h' [-> Pr]. auto. Qed.
Lemma gives_wpv : forall {A C} (m : HM A) (k : A -> HM C) h P Q,
  gives m h P -> (forall r, P r -> wpv (k r) Q h) -> wpv (hbind_ m k) Q h.
Proof. intros A C m k h P Q G K. apply wpv_bind. eapply wpv_mono; [exact G|]. intros r h' [-> Pr]. auto. Qed.
Lemma gives_sim : forall {A C D} (m : HM A) (k : A -> HM C) (M : Eval.M D) h w P Q,
  gives m h P -> (forall r, P r -> sim (k r) M Q h w) -> sim (hbind_ m k) M Q h w.
Proof. intros A C D m k M h w P Q G K. eapply sim_heap; [exact G|]. intros r h' [-> Pr]. auto. Qed.
Lemma gives_done : forall {A} (a : A) h (P : A -> Prop), P a -> gives (done a) h P.
Proof. intros. split; auto. Qed.
Lemma gives_mono : forall {A} (m : HM A) h (P Q : A -> Prop), gives m h P -> (forall r, P r -> Q r) -> gives m h Q.
Proof. intros A m h P Q G I. eapply wpv_mono; [exact G|]. intros r h' [-> Pr]. auto. Qed.

Section At.
Variable h : heap.

Lemma g_rd : forall a v, reads h a v -> gives (rd a) h (fun c => cells h a = Some c /\ shows h c v).
Proof. intros a v R. eapply wpv_mono; [apply (wpv_rd _ _ _ R)|]. intros c h1 H1. exact H1. Qed.
Lemma g_test : forall a v f g, reads h a v -> (forall c, shows h c v -> f c = g) -> gives (test f a) h (fun b => b = g).
Proof. intros a v f g R S. apply (wpv_test _ _ _ _ _ R S). Qed.
Lemma g_CAR : forall a v, reads h a v -> gives (CAR a) h (fun p => exists t x y, v = Pair t x y /\ reads h p x).
Proof.
  intros a v R. eapply gives_bind; [apply (g_rd _ _ R)|]. intros c [E S].
  destruct v as [| | | | | |t x y]; cbn in S; try (rewrite S; exact I); [destruct S as [-> _]; exact I|].
  destruct S as [p [q [-> [_ [Rp Rq]]]]]. apply gives_done. exists t, x, y. auto.
Qed.
Lemma g_CDR : forall a v, reads h a v -> gives (CDR a) h (fun p => exists t x y, v = Pair t x y /\ reads h p y).
Proof.
  intros a v R. eapply gives_bind; [apply (g_rd _ _ R)|]. intros c [E S].
  destruct v as [| | | | | |t x y]; cbn in S; try (rewrite S; exact I); [destruct S as [-> _]; exact I|].
  destruct S as [p [q [-> [_ [Rp Rq]]]]]. apply gives_done. exists t, x, y. auto.
Qed.
Lemma g_symbol : forall a v, reads h a v -> gives (symbol_of a) h (fun s => exists t, v = Sym t s).
Proof.
  intros a v R. eapply gives_bind; [apply (g_rd _ _ R)|]. intros c [E S].
  destruct v as [| | | | |t s|t x y]; cbn in S; try (rewrite S; exact I).
  - destruct S as [-> <-]. apply gives_done. eauto.
  - destruct S as [p [q [-> _]]]. exact I.
Qed.
Lemma shows_leaf : forall c v, shows h c v -> is_pair v = false -> leaf c = v.
Proof.
  intros c v S NP. unfold leaf. destruct v as [| | | | |t s|t x y]; cbn in S; try (rewrite S; reflexivity); [|discriminate].
  destruct S as [-> ->]. auto.
Qed.
Lemma shows_field : forall c v, shows h c v -> num_field (leaf c) = num_field v /\ str_of (leaf c) = str_of v.
Proof.
  intros c v S. destruct (is_pair v) eqn:P; [|rewrite (shows_leaf _ _ S P); auto].
  destruct v; try discriminate. cbn in S. destruct S as [p [q [E _]]]. unfold leaf. rewrite E. split; reflexivity.
Qed.
Lemma g_number : forall a v, reads h a v -> gives (number_of a) h (fun z => num_field v = Some z).
Proof.
  intros a v R. eapply gives_bind; [apply (g_rd _ _ R)|]. intros c [E S].
  rewrite (proj1 (shows_field _ _ S)). destruct (num_field v) as [z|]; [|exact I]. apply gives_done. auto.
Qed.
Lemma g_value : forall n a v, reads h a v -> gives (value_at n a) h (fun r => r = v).
Proof.
  induction n as [|n IH]; intros a v R; [exact I|]. cbn [value_at]. eapply gives_bind; [apply (g_rd _ _ R)|]. intros c [E S].
  destruct (is_pair v) eqn:P.
  - destruct v as [| | | | | |t x y]; try discriminate. destruct S as [p [q [-> [Tc [Rp Rq]]]]].
    eapply gives_bind; [apply (IH _ _ Rp)|]. intros r ->. eapply gives_bind; [apply (IH _ _ Rq)|]. intros r ->.
    apply gives_done. congruence.
  - pose proof (shows_leaf _ _ S P) as LF. destruct (body c) eqn:Bc; try (apply gives_done; auto).
    unfold leaf in LF. rewrite Bc in LF. rewrite <- LF in P. discriminate.
Qed.

(** The bodies of the cells of two values. *)
Lemma shows_body : forall c v, shows h c v -> is_pair v = false -> forall x y, body c <> KPair x y.
Proof. intros c v S NP x y E. pose proof (shows_leaf _ _ S NP) as LF. unfold leaf in LF. rewrite E in LF. rewrite <- LF in NP. discriminate. Qed.
Ltac two c d Bc Bd := destruct (body c) eqn:Bc; destruct (body d) eqn:Bd.

Lemma g_equ : forall n a b v w, reads h a v -> reads h b w -> gives (hequ n a b) h (fun r => r = equ v w).
Proof.
  induction n as [|n IH]; intros a b v w R R'; [exact I|]. cbn [hequ].
  eapply gives_bind; [apply (g_rd _ _ R)|]. intros c [_ S]. eapply gives_bind; [apply (g_rd _ _ R')|]. intros d [_ S'].
  destruct v as [| | | | |t s|t x y]; cbn in S; destruct w as [| | | | |t' s'|t' x' y']; cbn in S';
    repeat match goal with H : _ /\ _ |- _ => destruct H as [? ?] | H : exists _, _ |- _ => destruct H as [? H] end;
    unfold leaf; repeat match goal with H : body _ = _ |- _ => rewrite H; clear H end; try (apply gives_done; reflexivity).
  eapply gives_bind; [eapply IH; eauto|]. intros r ->. cbn [equ]. destruct (equ x x'); cbn [andb]; [|apply gives_done; auto]. eapply IH; eauto.
Qed.
Lemma g_neq : forall n a b v w, reads h a v -> reads h b w -> gives (hneq n a b) h (fun r => r = neq v w).
Proof.
  induction n as [|n IH]; intros a b v w R R'; [exact I|]. cbn [hneq].
  eapply gives_bind; [apply (g_rd _ _ R)|]. intros c [_ S]. eapply gives_bind; [apply (g_rd _ _ R')|]. intros d [_ S'].
  destruct v as [| | | | |t s|t x y]; cbn in S; destruct w as [| | | | |t' s'|t' x' y']; cbn in S';
    repeat match goal with H : _ /\ _ |- _ => destruct H as [? ?] | H : exists _, _ |- _ => destruct H as [? H] end;
    unfold leaf; repeat match goal with H : body _ = _ |- _ => rewrite H; clear H end; try (apply gives_done; reflexivity).
  eapply gives_bind; [eapply IH; eauto|]. intros r ->.
  replace (neq (Pair t x y) (Pair t' x' y')) with (neq x x' || neq y y') by reflexivity.
  destruct (neq x x'); cbn [orb]; [apply gives_done; auto|]. eapply IH; eauto.
Qed.
Lemma g_match : forall n a b v w, reads h a v -> reads h b w -> gives (hmatch n a b) h (fun r => r = atom_match v w).
Proof.
  induction n as [|n IH]; intros a b v w R R'; [exact I|]. cbn [hmatch].
  eapply gives_bind; [apply (g_rd _ _ R)|]. intros c [_ S]. rewrite (shows_wild _ _ _ S).
  destruct v as [| | | | |t s|t x y]; try (apply gives_done; reflexivity);
    (eapply gives_bind; [apply (g_rd _ _ R')|]; intros d [_ S']); cbn in S; destruct w as [| | | | |t' s'|t' x' y']; cbn in S';
    repeat match goal with H : _ /\ _ |- _ => destruct H as [? ?] | H : exists _, _ |- _ => destruct H as [? H] end;
    unfold leaf; repeat match goal with H : body _ = _ |- _ => rewrite H; clear H end; try (apply gives_done; reflexivity).
  eapply gives_bind; [eapply IH; eauto|]. intros r ->. cbn [atom_match]. destruct (atom_match x x'); cbn [andb]; [|apply gives_done; auto]. eapply IH; eauto.
Qed.
Lemma g_may_apply : forall n a b v w, reads h a v -> reads h b w -> gives (hmay_apply n a b) h (fun r => r = may_apply v w).
Proof.
  induction n as [|n IH]; intros a b v w R R'; [exact I|]. cbn [hmay_apply].
  eapply gives_bind; [apply (g_rd _ _ R)|]. intros c [_ S]. eapply gives_bind; [apply (g_rd _ _ R')|]. intros d [_ S'].
  rewrite (shows_nil _ _ _ S), (shows_nil _ _ _ S'), (shows_sym _ _ _ S), (shows_pair _ _ _ S), (shows_pair _ _ _ S').
  destruct v as [| | | | |t s|t x y]; destruct w as [| | | | |t' s'|t' x' y']; try (apply gives_done; reflexivity).
  cbn. eapply gives_bind; [apply (g_CDR _ _ R)|]. intros p [? [? [? [Q Rp]]]]. injection Q as <- <- <-.
  eapply gives_bind; [apply (g_CDR _ _ R')|]. intros q [? [? [? [Q Rq]]]]. injection Q as <- <- <-. eapply IH; eauto.
Qed.
Lemma g_len : forall n a v, reads h a v -> gives (hlen n a) h (fun r => r = Z.of_nat (pairs_len v)).
Proof.
  induction n as [|n IH]; intros a v R; [exact I|]. cbn [hlen].
  eapply gives_bind; [apply (g_CDR _ _ R)|]. intros p [t [x [y [-> Rp]]]].
  eapply gives_bind; [apply (g_test _ _ _ (is_pair y) Rp); intros; eapply shows_pair; eauto|]. intros r ->.
  destruct (is_pair y) eqn:P.
  - eapply gives_bind; [apply (IH _ _ Rp)|]. intros r ->. apply gives_done. cbn [pairs_len]. lia.
  - apply gives_done. destruct y; try reflexivity. discriminate.
Qed.
Lemma g_func : forall a v, reads h a v -> gives (his_func a) h (fun r => r = is_func v).
Proof.
  intros a v R. unfold his_func. eapply gives_bind; [apply (g_rd _ _ R)|]. intros c [_ S].
  destruct v as [| | | | |t s|t x y]; cbn in S; try (rewrite S; apply gives_done; reflexivity); [destruct S as [-> _]; apply gives_done; reflexivity|].
  destruct S as [p [q [-> [_ [Rp Rq]]]]].
  eapply gives_bind; [apply (g_rd _ _ Rp)|]. intros cx [_ Sx].
  assert (Hx : is_list_c cx || is_sym_c cx = is_args (Pair t x y)).
  { unfold is_list_c. rewrite (shows_nil _ _ _ Sx), (shows_pair _ _ _ Sx), (shows_sym _ _ _ Sx). destruct x; reflexivity. }
  rewrite Hx. unfold is_func. destruct (is_args (Pair t x y)); cbn [andb]; [|apply gives_done; auto].
  eapply gives_bind; [apply (g_rd _ _ Rq)|]. intros cy [_ Sy]. cbn [cdr].
  destruct y as [| | | | |t1 s1|t1 u u2]; cbn in Sy; try (rewrite Sy; apply gives_done; reflexivity); [destruct Sy as [-> _]; apply gives_done; reflexivity|].
  destruct Sy as [p1 [q1 [-> [_ [Ru Ru2]]]]].
  eapply gives_bind; [apply (g_rd _ _ Ru)|]. intros cu [_ Su]. unfold is_list_c. rewrite (shows_nil _ _ _ Su), (shows_pair _ _ _ Su).
  destruct (is_null u || is_pair u) eqn:Q.
  - eapply gives_bind; [apply (g_rd _ _ Ru2)|]. intros cv [_ Sv]. apply gives_done. rewrite (shows_pair _ _ _ Sv), (shows_num _ _ _ Sv).
    destruct u; try discriminate; destruct u2; reflexivity.
  - apply gives_done. destruct u; try discriminate; reflexivity.
Qed.
Lemma g_key_is : forall a v s, reads h a v -> gives (key_is a s) h (fun r => r = match v with Sym _ s' => sym_match s' s | _ => false end).
Proof.
  intros a v s R. eapply gives_bind; [apply (g_rd _ _ R)|]. intros c [_ S]. apply gives_done.
  destruct v; cbn in S; try (rewrite S; reflexivity); [destruct S as [-> _]|destruct S as [? [? [-> _]]]]; reflexivity.
Qed.
Lemma g_same_key : forall a b v w, reads h a v -> reads h b w ->
  gives (same_key a b) h (fun r => r = match v, w with Sym _ s, Sym _ s' => sym_match s s' | _, _ => false end).
Proof.
  intros a b v w R R'. eapply gives_bind; [apply (g_rd _ _ R)|]. intros c [_ S]. eapply gives_bind; [apply (g_rd _ _ R')|]. intros d [_ S'].
  apply gives_done. destruct v; destruct w; cbn in S, S';
    repeat match goal with H : _ /\ _ |- _ => destruct H as [? ?] | H : exists _, _ |- _ => destruct H as [? H] end;
    repeat match goal with H : body _ = _ |- _ => rewrite H; clear H end; reflexivity.
Qed.

(** ** Scopes *)
Lemma g_scan : forall n c e s, reads h c (atom_of_env e) ->
  gives (scan n c s) h (fun r => match r with
    | Some kv => exists v, env_get e s = Some v /\ reads h kv (Cons (Symb s) v) /\ (strong h -> reach h [c] kv)
    | None => env_get e s = None end).
Proof.
  induction n as [|n IH]; intros c e s R; [exact I|]. cbn [scan].
  assert (G1 : gives (CAR c) h (fun kv => exists k v r, e = (k, v) :: r /\ reads h kv (Cons (Symb k) v) /\ (strong h -> reach h [c] kv))).
  { eapply gives_bind; [apply (g_rd _ _ R)|]. intros cc [E S].
    destruct e as [|[k v] r]; cbn in S; [rewrite S; exact I|]. destruct S as [p [q [Bc [_ [Rp Rq]]]]]. rewrite Bc. apply gives_done.
    exists k, v, r. split; auto. split; auto. intro St. eapply reach_step; [apply reach_root; cbn; auto|]. eapply field_car; eauto. }
  eapply gives_bind; [exact G1|]. intros kv [k [v [r [-> [Rk RK]]]]].
  eapply gives_bind; [apply (g_CAR _ _ Rk)|]. intros p [? [? [? [Q Rp]]]]. injection Q as <- <- <-.
  eapply gives_bind; [apply (g_key_is _ _ s Rp)|]. intros b ->. cbn [env_get]. destruct (sym_match k s) eqn:SM.
  - apply gives_done. exists v. apply sym_match_eq in SM. subst k. auto.
  - assert (G2 : gives (CDR c) h (fun y => reads h y (atom_of_env r) /\ (strong h -> reach h [c] y))).
    { eapply gives_bind; [apply (g_rd _ _ R)|]. intros cc [E S]. cbn in S. destruct S as [p1 [q1 [Bc [_ [Rp1 Rq1]]]]]. rewrite Bc. apply gives_done.
      split; auto. intro St. eapply reach_step; [apply reach_root; cbn; auto|]. eapply field_cdr; eauto. }
    eapply gives_bind; [exact G2|]. intros y [Ry RY].
    eapply gives_bind; [apply (g_test _ _ _ (is_pair (atom_of_env r)) Ry); intros; eapply shows_pair; eauto|]. intros b ->.
    destruct r as [|[k1 v1] r]; [apply gives_done; reflexivity|]. cbn [atom_of_env is_pair].
    eapply gives_mono; [apply (IH _ _ s Ry)|]. intros [kv1|]; auto. intros [v2 [G [R2 W]]]. exists v2. split; auto. split; auto.
    intro St. eapply reach_incl; [|apply (W St)]. intros z [<-|[]]. auto.
Qed.
Lemma g_find : forall n c e s, reads h c (atom_of_env e) ->
  gives (find_local n c s) h (fun r => match r with
    | Some kv => exists v, env_get e s = Some v /\ reads h kv (Cons (Symb s) v) /\ (strong h -> reach h [c] kv)
    | None => env_get e s = None end).
Proof.
  intros n c e s R. unfold find_local.
  eapply gives_bind; [apply (g_test _ _ _ (is_null (atom_of_env e)) R); intros; eapply shows_nil; eauto|]. intros b ->.
  destruct e as [|[k v] r]; [apply gives_done; reflexivity|]. apply g_scan. auto.
Qed.

(** ** The ghost checks *)
Lemma g_watch : forall allowed e n a v ok, allowed e = false -> reads h a v -> gives (watch allowed e n a ok) h (fun _ => ok v = true).
Proof.
  intros allowed e n a v ok AL R. unfold watch. rewrite AL. eapply gives_bind; [apply (g_value n _ _ R)|]. intros r ->.
  destruct (ok v); [apply gives_done; auto|exact I].
Qed.
Lemma g_watch_marks : forall allowed ow n s a b sv av bv, allowed MarksCode = false -> reads h s sv -> reads h a av -> reads h b bv ->
  gives (watch_marks allowed ow n s a b) h (fun _ => exists t k, sv = Sym t k /\
    (mark_body k av bv = None \/ mark_body k av bv = Some bv \/ (ow h = true /\ exists b', mark_body k av bv = Some b'))).
Proof.
  intros allowed ow n s a b sv av bv AL Rs Ra Rb. unfold watch_marks. rewrite AL.
  eapply gives_bind; [apply (g_symbol _ _ Rs)|]. intros k [t ->].
  eapply gives_bind; [apply (g_value n _ _ Ra)|]. intros r ->. eapply gives_bind; [apply (g_value n _ _ Rb)|]. intros r ->.
  destruct (mark_body k av bv) as [b'|] eqn:M.
  - destruct (atom_dec bv b') as [<-|]; [apply gives_done; eauto 8|]. unfold gives, wpv. destruct (ow h) eqn:OW; auto. split; eauto 10.
  - apply gives_done. eauto 8.
Qed.
End At.

Lemma plain_scope_env : forall v, plain_scope v = true -> exists e, v = atom_of_env e.
Proof.
  induction v as [| | | | | |t x _ y IH]; intro H; try discriminate; [exists []; reflexivity|].
  cbn in H. destruct t; [discriminate|]. destruct x as [| | | | | |t1 k1 v1]; try discriminate. destruct t1; [discriminate|].
  destruct k1 as [| | | | |t2 k|]; try discriminate. destruct t2; [discriminate|].
  destruct (IH H) as [e ->]. exists ((k, v1) :: e). reflexivity.
Qed.
