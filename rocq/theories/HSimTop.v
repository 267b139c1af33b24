(** * HSimTop: evaluation and whole sessions on the heap, against the evaluator over
    values. *)
From Verif Require Import Value Tails Print Heap HeapSpec HeapProofs HeapOps HEval HEvalSpec HEvalBase HEvalProofs HEvalBoot ValueProofs TailsProofs Sem2 Sem5 HSimSpec HSimBase HSimOps HSimList HSimMix HSimPure HSimLisp HSimState HSimChan HSimMark HSimCall HSimLoop HSimPrim HSimEval.
From Verif Require Eval EvalProofs.
From Verif Require Import EvalSpec.
Open Scope nat_scope.
Open Scope heap_scope.

Lemma stands_vat : forall h w L, stands h w L -> vat h [] [] (heads L) h w L [].
Proof.
  intros h w L [H R LI]. constructor; auto.
  - unfold heads. cbn. rewrite !app_nil_r. exact H.
  - apply Forall_forall. intros [a v] I. apply R. exact I.
  - intros a Ra. exfalso. induction Ra; auto.
  - cbn. rewrite !app_nil_r. apply sep_refl.
  - intros P1 a v P2 E. destruct P1; discriminate.
  - lia.
Qed.
Lemma vat_stands : forall h0 V0 h w L, vat h0 [] [] V0 h w L [] -> stands h w L.
Proof.
  intros h0 V0 h w L H. constructor; [| |apply H].
  - pose proof (v_holds _ _ _ _ _ _ _ _ H) as HH. cbn in HH. rewrite !app_nil_r in HH. exact HH.
  - pose proof (v_L _ _ _ _ _ _ _ _ H) as FL. rewrite Forall_forall in FL. intros a v I. apply (FL (a, v) I).
Qed.

Lemma lisp_globals : forall h w g, lisp h w -> (forall s, env_get g s = env_get (Eval.globals w) s) ->
  lisp h (Eval.mkw g (Eval.outs w) (Eval.ichan w) (Eval.ochan w) (Eval.opens w)).
Proof.
  intros h w g [A1 A2 A3 A4 A5 A6 A7 A8] E. constructor; auto; cbn; intros s; rewrite E; auto.
Qed.

(** Expressions evaluated in the empty scope one after the other, the last value
    kept (bin/mnml.c:345-360). *)
Fixpoint in_turn (O : N -> bool -> atom -> bool) (n : nat) (l : list atom) (res : atom) : Eval.M atom :=
  match l with
  | [] => Eval.ret res
  | x :: r => Eval.mbind (Eval.eval O n [] x) (in_turn O n r)
  end.
Lemma in_turn_body : forall O n l res w o, in_turn O n l res w = o -> o <> Eval.NoFuel -> runs_body O [] l res w o.
Proof.
  intros O n. induction l as [|x l IH]; intros res w o E NF; cbn [in_turn] in E.
  { subst o. constructor. }
  unfold Eval.mbind in E. destruct (Eval.eval O n [] x w) as [v w1|e|] eqn:EV; [..|congruence].
  - eapply body_step; [split; [|exists n; exact EV]; discriminate|]. apply IH; auto.
  - subst o. apply body_stop. split; [discriminate|]. exists n. exact EV.
Qed.
Lemma body_unique : forall O c l r w o1 o2, runs_body O c l r w o1 -> runs_body O c l r w o2 -> o1 = o2.
Proof.
  intros O c l r w o1 o2 H. revert o2. induction H as [r w|x l r w v w1 o R1 R2 IH|x l r w e R1]; intros o2 J; inversion J; subst; auto.
  - match goal with K : EvalSpec.runs _ _ _ _ (Eval.Ret _ _) |- _ => pose proof (EvalProofs.runs_unique _ _ _ _ _ _ R1 K) as E end.
    injection E as <- <-. auto.
  - match goal with K : EvalSpec.runs _ _ _ _ (Eval.Stop _) |- _ => pose proof (EvalProofs.runs_unique _ _ _ _ _ _ R1 K) as E end. discriminate.
  - match goal with K : EvalSpec.runs _ _ _ _ (Eval.Ret _ _) |- _ => pose proof (EvalProofs.runs_unique _ _ _ _ _ _ R1 K) as E end. discriminate.
  - match goal with K : EvalSpec.runs _ _ _ _ (Eval.Stop _) |- _ => pose proof (EvalProofs.runs_unique _ _ _ _ _ _ R1 K) as E end. congruence.
Qed.
Lemma wpv_out : forall {A} (m : HM A) Q h a h', wpv m Q h -> m h = Done a h' -> Q a h'.
Proof. intros A m Q h a h' W E. unfold wpv in W. rewrite E in W. exact W. Qed.
Lemma sim_wpv : forall {A C} (m : HM A) (M : Eval.M C) Q h w v w', sim m M Q h w -> M w = Eval.Ret v w' -> wpv m (fun a h' => Q a v h' w') h.
Proof. intros A C m M Q h w v w' S E. unfold sim in S. unfold wpv. rewrite E in S. exact S. Qed.
Lemma sim_out : forall {A C} (m : HM A) (M : Eval.M C) Q h w r h', sim m M Q h w -> m h = Done r h' ->
  M w <> Eval.NoFuel /\ match M w with Eval.Ret v w' => Q r v h' w' | Eval.Stop Eval.Shared => True | _ => False end.
Proof. intros A C m M Q h w r h' S E. unfold sim in S. rewrite E in S. destruct (M w) as [v w'|e|]; [| |destruct S]; split; auto; discriminate. Qed.

(** ** The table of builtins, read from either end *)
Fixpoint distinct (l : list symbol) : bool :=
  match l with [] => true | s :: r => negb (existsb (sym_match s) r) && distinct r end.
Lemma env_get_app : forall l r s, env_get (l ++ r) s = match env_get l s with Some v => Some v | None => env_get r s end.
Proof. induction l as [|[k v] l IH]; intros r s; cbn; auto. destruct (sym_match k s); auto. Qed.
Lemma env_get_none : forall l s, existsb (sym_match s) (map fst l) = false -> env_get l s = None.
Proof.
  induction l as [|[k v] l IH]; intros s E; cbn in *; auto. apply orb_false_iff in E. destruct E as [E1 E2].
  rewrite sym_match_sym, E1. auto.
Qed.
Lemma env_get_rev : forall l s, distinct (map fst l) = true -> env_get (rev l) s = env_get l s.
Proof.
  induction l as [|[k v] l IH]; intros s D; cbn in *; auto. apply andb_prop in D. destruct D as [D1 D2].
  apply negb_true_iff in D1. rewrite env_get_app, (IH s D2). cbn. destruct (sym_match k s) eqn:E.
  - apply sym_match_eq in E. subst k. rewrite (env_get_none _ _ D1). auto.
  - destruct (env_get l s); auto.
Qed.

Section Top.
Variable allowed : event -> bool.
Hypothesis NoAny : allowed AssignsAny = false.
Variable pwd : atom.

(** include/mnml/module.h:111-130 *)
Fixpoint loaded (l : list (symbol * atom)) (w : Eval.world) : Eval.world :=
  match l with [] => w | (s, f) :: r => loaded r (assigned s f w) end.
Lemma o_load : forall l h0 F B V0 h w L P, vat h0 F B V0 h w L P ->
  wpv (hload allowed l) (fun _ h' => vat h0 F B V0 h' (loaded l w) L P) h.
Proof.
  induction l as [|[s f] l IH]; intros h0 F B V0 h w L P H; cbn [hload loaded]; [exact H|].
  op ltac:(eapply o_sym; exact H). clear H. intros sym h1 H.
  op ltac:(eapply o_plant; exact H). clear H. intros val h2 H.
  focus sym H. xup H. focus val H. focus sym H. op ltac:(eapply o_cons; exact H). clear H. intros cns h4 [-> [G H]].
  op ltac:(eapply (o_setq allowed NoAny _ _ _ _ _ _ _ _ _ (Symb s) f); [exact H|apply (t_new _ _ _ _ G)]). clear H. intros u h5 H.
  cbv beta iota in H. xX H sym. apply IH. exact H.
Qed.

Hypothesis NoOdd : allowed OddScope = false.
Hypothesis NoMarks : allowed MarksCode = false.
Variable opened : N -> bool -> atom -> bool.

Lemma s_eval : forall n c ce x xv h w L, opens (aux h) <> 0%N -> stands h w ((x, xv) :: L) -> In (c, atom_of_env ce) L ->
  sim (heval allowed opened pwd n c x) (Eval.eval opened n ce xv)
    (fun r v h' w' => stands h' w' ((r, v) :: L) /\ (opens (aux h) <= opens (aux h'))%N) h w.
Proof.
  intros n c ce x xv h w L OP H I. apply stands_vat in H.
  eapply sim_mono; [eapply (s_call _ _ _ _ _ _ one [(x, xv)] [(c, atom_of_env ce)] _ _ L [] (r_eval allowed NoAny NoOdd NoMarks opened pwd n c ce x xv) OP H)|].
  - intros p [<-|[]]. eapply (avail_in _ _ _ _ _ _ [(x, xv)]); [exact H|]. rewrite app_nil_r. exact I.
  - intros r v h' w' [l' [-> H']]. split; [eapply vat_stands; exact H'|apply H'].
Qed.

Lemma s_run : forall n l res rv h w, opens (aux h) <> 0%N -> stands h w [(res, rv)] ->
  sim (hrun allowed opened pwd n l res) (in_turn opened n l rv) (fun r v h' w' => stands h' w' [(r, v)]) h w.
Proof.
  intros n. induction l as [|x l IH]; intros res rv h w OP H; cbn [hrun in_turn]; [exact H|].
  apply stands_vat in H.
  op ltac:(apply (o_plant _ _ _ _ x _ _ _ _ H)). clear H. intros c h1 H.
  xX H res. xnil H z.
  match type of H with vat _ _ _ _ ?h3 _ _ _ => assert (O3 : opens (aux h3) <> 0%N) by (pose proof (v_open _ _ _ _ _ _ _ _ H); lia) end.
  focus c H. apply vat_stands in H.
  eapply sim_bind; [apply (s_eval n z [] c x _ _ [(z, Nil)] O3 H); cbn; auto|].
  cbv beta. intros r v h4 w4 [H4 O4]. apply stands_vat in H4. xX H4 z. apply IH.
  - pose proof (v_open _ _ _ _ _ _ _ _ H4). lia.
  - eapply vat_stands. exact H4.
Qed.

(** lib/core/lisp.c:14-28, include/mnml/module.h:111-130, bin/mnml.c:333-334 *)
Lemma s_boot : wpv (hboot allowed pwd) (fun _ h => stands h Eval.world0 [] /\ opens (aux h) = 2%N) empty.
Proof.
  clear NoOdd NoMarks. eapply wpv_mono; [eapply wpv_and; [|apply wp_wpv; apply (boot_ok allowed NoAny opened pwd)]|].
  2:{ intros u h [LI [HH [O _]]]. split; [|exact O]. constructor; [exact HH|intros a v []|exact LI]. }
  unfold hboot. apply wpv_bind. apply wp_wpv. apply (wp_alloc KNil _ _ [] own_empty). intros i h1 O1 G1.
  apply wpv_bind. apply wp_wpv. apply (wp_alloc KNil _ _ _ O1). intros o h2 O2 G2.
  assert (EA : aux h2 = no_rest).
  { rewrite (g_aux _ _ _ _ G2), (g_aux _ _ _ _ G1). reflexivity. }
  apply wpv_bind. unfold wpv at 1, set_aux. cbv beta. rewrite EA. cbv iota.
  set (h3 := mkheap (cells h2) (nxt h2) (with_ochan (with_ichan no_rest i) o)).
  match goal with |- wpv _ _ ?h => change h with h3 end.
  assert (H3 : stands h3 (Eval.mkw [] [] [] [] 0) []).
  { constructor; [|intros a v []|].
    - constructor.
      + cbn. destruct O2 as [[C1 C2 C3] S2]. constructor; auto.
        * intros a c E. destruct (C2 a c E) as [A B]. split; auto. rewrite A. cbn [cnt]. change (edges h3) with (edges h2). lia.
        * intros a A. apply C3. cbn [cnt] in *. change (edges h3) with (edges h2) in A. lia.
      + apply O2.
      + cbn. intros s kv [].
      + cbn. intros a e [].
      + cbn. congruence.
    - constructor; cbn; try discriminate; auto.
      + intros s kv [].
      + apply (chans_nil _ _ (mkcell 1 false false KNil)); auto. cbn. rewrite (g_old _ _ _ _ G2); [apply (g_new _ _ _ _ G1)|].
        pose proof (g_addr _ _ _ _ G1). pose proof (g_addr _ _ _ _ G2). pose proof (g_nxt _ _ _ _ G1). lia.
      + apply (chans_nil _ _ (mkcell 1 false false KNil)); auto. apply (g_new _ _ _ _ G2). }
  apply stands_vat in H3.
  op ltac:(eapply o_load; exact H3). clear H3. intros u4 h4 H.
  op ltac:(eapply (o_push allowed NoAny); exact H). clear H. intros u5 h5 H.
  op ltac:(eapply (o_push allowed NoAny); exact H). clear H. intros u6 h6 H.
  unfold wpv, set_aux. pose proof (v_lisp _ _ _ _ _ _ _ _ H) as LI.
  set (w6 := with_wchan true _ _) in LI.
  assert (E6 : Eval.mkw (rev Eval.builtins) [] [0%N] [1%N] 0 = w6).
  { unfold w6. assert (E : loaded Eval.builtins (Eval.mkw [] [] [] [] 0) = Eval.mkw (rev Eval.builtins) [] [] [] 0) by reflexivity.
    rewrite E. reflexivity. }
  rewrite <- E6 in LI. clear E6 w6 H.
  apply (lisp_globals _ _ Eval.builtins) in LI; [|intro s; symmetry; cbn [Eval.globals]; apply env_get_rev; vm_compute; reflexivity].
  eapply (lisp_aux h6); [exact LI|..]; try reflexivity; try (apply LI).
Qed.


Lemma s_session : forall n l, 
  sim (session allowed opened pwd n l) (in_turn opened n l Nil) (fun r v h' w' => stands h' w' [(r, v)]) empty Eval.world0.
Proof.
  intros n l. unfold session. eapply sim_heap; [apply s_boot|]. cbv beta. intros _ h [H O].
  apply stands_vat in H. xnil H z. apply s_run; [pose proof (v_open _ _ _ _ _ _ _ _ H); lia|eapply vat_stands; exact H].
Qed.

Lemma eval_answers : forall n c ce x xv h w L r h', Eval.opens w <> 0%N -> stands h w ((x, xv) :: L) -> In (c, atom_of_env ce) L ->
  heval allowed opened pwd n c x h = Done r h' ->
  (exists o, EvalSpec.runs opened ce xv w o) /\ forall o, EvalSpec.runs opened ce xv w o -> answers o r h' L.
Proof.
  intros n c ce x xv h w L r h' OP H I E. rewrite <- (g_opens _ _ (s_lisp _ _ _ H)) in OP.
  destruct (sim_out _ _ _ _ _ _ _ (s_eval n c ce x xv h w L OP H I) E) as [NF A].
  assert (R : EvalSpec.runs opened ce xv w (Eval.eval opened n ce xv w)) by (split; [exact NF|eauto]).
  split; [eauto|]. intros o RO. rewrite (EvalProofs.runs_unique _ _ _ _ _ _ RO R). unfold answers.
  destruct (Eval.eval opened n ce xv w) as [v w'|e|]; auto. apply A.
Qed.
Lemma session_answers : forall n l r h', session allowed opened pwd n l empty = Done r h' ->
  (exists o, runs_body opened [] l Nil Eval.world0 o) /\ forall o, runs_body opened [] l Nil Eval.world0 o -> answers o r h' [].
Proof.
  intros n l r h' E. destruct (sim_out _ _ _ _ _ _ _ (s_session n l) E) as [NF A].
  pose proof (in_turn_body _ _ _ _ _ _ eq_refl NF) as R.
  split; [eauto|]. intros o RO. rewrite (body_unique _ _ _ _ _ _ _ RO R). exact A.
Qed.
End Top.
