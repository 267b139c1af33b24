(** * Cases: helpers for the concrete cases shown beside the theorems. *)
From Verif Require Import Value ValueSpec ValueProofs Tails Eval Sexp EvalSpec EvalProofs Sem1 Sem2 Sem3 Sem4 Sem5.
Open Scope nat_scope.

(** An outside world where every channel opens. *)
Definition yes : oracle := fun _ _ _ => true.

Lemma runs_eval : forall O n c x w o, eval O n c x w = o -> o <> NoFuel -> runs O c x w o.
Proof. intros O n c x w o E N. split; auto. exists n; auto. Qed.
Lemma eval_det : forall O n c x w o o', runs O c x w o -> eval O n c x w = o' -> o' <> NoFuel -> o = o'.
Proof. intros O n c x w o o' R E N. eapply runs_unique; eauto using runs_eval. Qed.
Lemma body_eval : forall O n c l r w o, prog (eval O n) c (mk_list l) r w = o -> o <> NoFuel -> runs_body O c l r w o.
Proof. intros O n c l r w o E N. apply Rprog_list. split; auto. exists n; auto. Qed.
Lemma body_det : forall O n c l r w o o', runs_body O c l r w o ->
  prog (eval O n) c (mk_list l) r w = o' -> o' <> NoFuel -> o = o'.
Proof.
  intros O n c l r w o o' R E N. apply Rprog_list in R.
  apply (conv_unique (fun n => prog (eval O n) c (mk_list l) r w)); auto.
  - apply prog_monof.
  - split; auto. exists n; auto.
Qed.
Fixpoint list_eval (O : oracle) (n : nat) (c : env) (l : list atom) (w : world) : out (list atom) :=
  match l with
  | [] => Ret [] w
  | x :: l' =>
      match eval O n c x w with
      | Ret v w1 =>
          match list_eval O n c l' w1 with
          | Ret vs w2 => Ret (v :: vs) w2
          | Stop e => Stop e
          | NoFuel => NoFuel
          end
      | Stop e => Stop e
      | NoFuel => NoFuel
      end
  end.
Lemma runs_list_eval : forall O n c l w o, list_eval O n c l w = o -> o <> NoFuel -> runs_list O c l w o.
Proof.
  intros O n c. induction l as [|x l IH]; intros w o E N; cbn [list_eval] in E.
  - subst o. constructor.
  - destruct (eval O n c x w) as [v w1|e|] eqn:E1.
    + assert (R1 : runs O c x w (Ret v w1)) by (eapply runs_eval; eauto; discriminate).
      destruct (list_eval O n c l w1) as [vs w2|e|] eqn:E2; subst o.
      * eapply list_step; eauto. apply IH; auto; discriminate.
      * eapply list_stop2; eauto.
      * congruence.
    + subst o. apply list_stop1. eapply runs_eval; eauto. discriminate.
    + congruence.
Qed.
Lemma list_det : forall O n c l w o o', runs_list O c l w o -> list_eval O n c l w = o' -> o' <> NoFuel -> o = o'.
Proof. intros. eapply runs_list_unique; eauto using runs_list_eval. Qed.

Lemma means_eval : forall c w k v, lookup c k w = Ret v w -> means c w k v.
Proof. intros. apply means_lookup; auto. Qed.
Lemma shows_get : forall e k r, env_get e k = r -> shows e k r.
Proof. intros. apply env_get_shows; auto. Qed.

(** The scope made of layers, computed. *)
Fixpoint flat (ls : list env) : env :=
  match ls with [] => [] | e :: r => merge (flat r) (rev e) end.
Lemma flat_scope : forall ls, scope ls (flat ls).
Proof.
  induction ls as [|e ls IH]; apply scope_iff; cbn [flat].
  - split; [constructor|auto].
  - apply scope_iff in IH. destruct IH as [I H]. split; [apply merge_increasing; auto|].
    intro k. cbn [lget]. rewrite merge_get, rev_involutive, H; auto.
Qed.
(** The layers of named parameters. *)
Lemma names_layers : forall ks vs, length vs = length ks ->
  layers (names ks) vs (map (fun p => [p]) (combine ks vs)).
Proof.
  induction ks as [|k ks IH]; intros [|v vs] L; cbn in *; try discriminate; constructor; auto.
  apply (layer_bind (Symb k) v). apply linear_sym.
Qed.

Lemma layers_get : forall ps vs ls ls', layers ps vs ls -> layers ps vs ls' -> forall k, lget ls k = lget ls' k.
Proof.
  intros ps vs ls ls' H. revert ls'. induction H as [|p ps v vs b ls L H IH]; intros ls' H' k; inversion H'; subst; auto.
  cbn [lget]. match goal with X : layer p v ?b' |- _ => rewrite (layer_get p v b b' L X k) end.
  rewrite (IH ls0); auto.
Qed.
(** The scope of a call with named parameters, computed. *)
Lemma names_scope : forall ks vs ls r S, length vs = length ks -> layers (names ks) vs ls -> scope (ls ++ r) S ->
  S = flat (map (fun p => [p]) (combine ks vs) ++ r).
Proof.
  intros ks vs ls r S E L SC. eapply scope_unique; [|apply flat_scope].
  apply scope_iff in SC. apply scope_iff. destruct SC as [I G]. split; auto. intro k.
  rewrite G, !lget_app. rewrite (layers_get _ _ _ _ L (names_layers ks vs E)). auto.
Qed.

Lemma names_occurs : forall ks p k, occurs (mk_list (names ks)) p k ->
  exists i, nth_error ks i = Some k /\ p = (repeat true i ++ [false])%list.
Proof.
  induction ks as [|k0 ks IH]; intros p k H; cbn in H.
  - destruct p; cbn in H; [destruct H; discriminate|tauto].
  - destruct p as [|[|] p]; cbn in H; [destruct H; discriminate| |].
    + apply IH in H. destruct H as [i [E ->]]. exists (S i). auto.
    + destruct p; cbn in H; [|tauto]. destruct H as [t H]. inversion H. exists 0. auto.
Qed.
Lemma names_linear : forall ks, NoDup ks -> linear (mk_list (names ks)).
Proof.
  intros ks N k p q Hp Hq. apply names_occurs in Hp. apply names_occurs in Hq.
  destruct Hp as [i [Ei ->]], Hq as [j [Ej ->]].
  assert (i = j); [|congruence].
  rewrite NoDup_nth_error in N. apply N; [|congruence].
  apply nth_error_Some. congruence.
Qed.

(** The state after the expressions of a text, from program start. *)
Fixpoint after (l : atom) (w : world) : world :=
  match l with
  | Pair _ x r => match eval yes 200 [] x w with Ret _ w' => after r w' | _ => w end
  | _ => w
  end.
Definition state (s : string) : world := after (rds s) world0.
(** The value of a text in that state. *)
Definition value (s : string) (w : world) : option atom :=
  match eval yes 200 [] (rd s) w with Ret v _ => Some v | _ => None end.
Lemma value_runs : forall s w v, value s w = Some v -> exists w', runs yes [] (rd s) w (Ret v w').
Proof.
  intros s w v H. unfold value in H. destruct (eval yes 200 [] (rd s) w) as [r w'|e|] eqn:E; try discriminate.
  inversion H; subst. exists w'. eapply runs_eval; eauto. discriminate.
Qed.

Ltac computed := first [eapply runs_eval with (n := 200) | eapply body_eval with (n := 200)
  | eapply runs_list_eval with (n := 200)]; [vm_compute; reflexivity|discriminate].
(** An outcome is the computed one. *)
Ltac same H := first [apply (list_det yes 200 _ _ _ _ _ H) | apply (body_det yes 200 _ _ _ _ _ _ H)
  | apply (eval_det yes 200 _ _ _ _ _ H)]; [vm_compute; reflexivity|discriminate].

(** [plain_match] of an [if] and of a leaf. *)
Lemma plain_if : forall t u t1 c t2 th t3 el, plain_match th -> plain_match el ->
  plain_match (Pair t (Sym u (sy "if")) (Pair t1 c (Pair t2 th (Pair t3 el Nil)))).
Proof.
  intros t u t1 c t2 th t3 el H1 H2 p t' u' t1' e cl T E.
  inversion T; subst; cbn [part] in E; try discriminate E; eauto;
    match goal with H : sy ?k = sy "if", K : In ?k _ |- _ =>
      exfalso; repeat (destruct K as [<-|K]; [vm_compute in H; discriminate H|]); destruct K end.
Qed.
Lemma plain_leaf : forall x, (forall t u k d, In k keywords -> x <> Pair t (Sym u (sy k)) d) -> plain_match x.
Proof.
  intros x H p t' u' t1' e cl T E.
  inversion T; subst; try (exfalso; eapply H; [|reflexivity]; cbn in *; tauto).
  cbn [part] in E. exfalso. eapply H; [|exact E]. cbn; tauto.
Qed.
