(** * HReadSim: what the reader leaves in memory are the values the reader of
    [Parser.v] gives, when nothing is spliced. *)
From Verif Require Import Value Tails Heap HeapSpec HeapProofs HeapOps HEval HEvalSpec HEvalBase HEvalProofs ValueProofs HSimSpec HSimBase HSimOps HSimList HSimPure HSimLisp HSimMark HSimCall HSimLoop HSimEval HSimTop.
From Verif Require Eval HostMain.
From Verif Require Import Lexer LexerSpec LexerProofs Parser ReadSpec ParserProofs HRead HReadProofs.
Open Scope nat_scope.
Open Scope heap_scope.

Lemma conc_joined : forall a b, conc a b = joined a b.
Proof. induction a; intro b; cbn; auto. rewrite <- IHa2. destruct a2; reflexivity. Qed.

(** A token that splices. *)
Definition splices (t : kind * bytes) : bool :=
  match fst t with KPOpen Tilde | KPSymbol Tilde | KPNumber Tilde => true | _ => false end.

(** The parser's stack on the heap and the stack of values: lists under way are
    private ([P]), complete expressions are held ([L]). *)
Inductive srel : list slot -> list entry -> list (N * atom) -> list (N * atom) -> Prop :=
| sr_nil : srel [] [] [] []
| sr_open : forall st vs L P, srel st vs L P -> srel (HOpen :: st) (SOpen :: vs) L P
| sr_dot : forall st vs L P, srel st vs L P -> srel (HDot :: st) (SDot :: vs) L P
| sr_quote : forall st vs L P, srel st vs L P -> srel (HQuote :: st) (SQuote :: vs) L P
| sr_back : forall st vs L P, srel st vs L P -> srel (HBack :: st) (SBack :: vs) L P
| sr_items : forall st vs L P a v, srel st vs L P -> srel (HItems a :: st) (SItems v :: vs) L ((a, v) :: P)
| sr_prefix : forall st vs L P a v, srel st vs L P -> srel (HPrefix a :: st) (SPrefix v :: vs) ((a, v) :: L) P.
Lemma srel_refs : forall st vs L P, srel st vs L P -> forall b, cnt b (stack_refs st) = cnt b (heads L ++ heads P).
Proof.
  intros st vs L P H b. induction H; auto; rewrite ?stack_refs_cons; cbn [slot_refs app heads map fst].
  - cbn [cnt]. rewrite IHsrel. unfold heads. rewrite !cnt_app. cbn [cnt map fst]. lia.
  - cbn [cnt]. rewrite IHsrel. unfold heads. rewrite !cnt_app. lia.
Qed.
Lemma srel_item_here : forall st vs L P, srel st vs L P -> hitem_here st = item_here vs /\ hprefix_here st = prefix_here vs.
Proof. intros st vs L P H. destruct H; auto. Qed.

Section Sim.
Variable allowed : event -> bool.
Hypothesis NoAny : allowed AssignsAny = false.
Hypothesis NoOdd : allowed OddScope = false.
Hypothesis NoMarks : allowed MarksCode = false.
Variable opened : N -> bool -> atom -> bool.
Variable pwd : atom.
Variable n : nat.
Variables (h0 : heap) (F : list N) (B : list (N * atom)) (V0 : list N).
Hypothesis OP : opens (aux h0) <> 0%N.
Notation at_ := (vat h0 F B V0).

(** Read-time evaluation over values. *)
Definition ev_at (a : atom) (w : Eval.world) : option (atom * Eval.world) :=
  match Eval.eval opened n [] a w with Eval.Ret v w' => Some (v, w') | _ => None end.

Lemma append_sim : forall a va b vb h w L P, at_ h w ((b, vb) :: L) ((a, va) :: P) ->
  wpv (happend n a b) (fun r h' => at_ h' w L ((r, append va vb) :: P)) h.
Proof.
  intros a va b vb h w L P H. unfold happend. xnil H z.
  apply (vat_leaf _ _ _ _ _ _ _ _ Nil) in H; [|reflexivity].
  op ltac:(eapply o_pcons; exact H). clear H. intros k h2 H.
  apply vat_swap in H. eapply wpv_mono; [eapply o_pconc; exact H|]. clear H. intros r h3 H. unfold append. rewrite conc_joined. exact H.
Qed.
Lemma chars_sim : forall l h w L P, at_ h w L P ->
  wpv (hchars l) (fun r h' => at_ h' w L ((r, mk_chars l) :: P)) h.
Proof.
  induction l as [|z l IH]; intros h w L P H; cbn [hchars].
  - eapply wpv_mono; [eapply o_nil; exact H|]. clear H. intros z h1 H. apply (vat_leaf _ _ _ _ _ _ _ _ Nil) in H; [|reflexivity]. exact H.
  - apply wpv_bind. eapply wpv_mono; [apply IH; exact H|]. clear H. intros res h1 H. cbv beta in *.
    op ltac:(eapply (o_chr _ _ _ _ z); exact H). clear H. intros c h2 H.
    eapply wpv_mono; [eapply o_pcons; exact H|]. clear H. intros r h3 H. exact H.
Qed.
Lemma chars_app : forall l z, append (mk_chars l) (Chr z) = mk_chars (l ++ [z]).
Proof. intros l z. unfold mk_chars. rewrite append_list, map_app. reflexivity. Qed.
Lemma escapes_sim : forall k l cell esc res acc h w L P, at_ h w ((cell, mk_chars l) :: L) ((res, mk_chars acc) :: P) ->
  wpv (hescapes n k cell esc res) (fun r h' => at_ h' w L ((r, mk_chars (process_escapes l esc acc)) :: P)) h.
Proof.
  induction k as [|k IH]; intros l cell esc res acc h w L P H; [exact I|]. cbn [hescapes].
  apply wpv_bind. eapply wpv_mono; [apply (wpv_test _ cell (mk_chars l) is_nil_c (is_null (mk_chars l)))|].
  { eapply (reads_in _ _ _ _ _ _ _ _ _ _ H). apply in_or_app. left. apply in_eq. }
  { intros c S. apply (shows_nil _ _ _ S). }
  intros t h1 [-> ->]. destruct l as [|c l].
  - change (is_null (mk_chars [])) with true. cbv iota beta. xX H cell. exact H.
  - change (is_null (mk_chars (c :: l))) with false. cbv iota beta. xcar H ca. xcdr H cd. xX H cell.
    change (cdr (mk_chars (c :: l))) with (mk_chars l) in H. change (car (mk_chars (c :: l))) with (Chr c) in H.
    eapply gives_wpv; [apply (g_number _ ca (Chr c)); eapply (reads_in _ _ _ _ _ _ _ _ _ _ H); apply in_or_app; left; apply in_cons; apply in_eq|].
    intros z Q. injection Q as <-.
    assert (AP : forall e h4 c' z, at_ h4 w ((c', Chr z) :: (cd, mk_chars l) :: L) ((res, mk_chars acc) :: P) ->
      wpv (nxt <- happend n res c' ;; hescapes n k cd e nxt) (fun r h' => at_ h' w L ((r, mk_chars (process_escapes l e (acc ++ [z]))) :: P)) h4).
    { intros e h4 c' z H4. apply wpv_bind. eapply wpv_mono; [apply append_sim; exact H4|]. clear H4. intros r h5 H5.
      rewrite chars_app in H5. cbv beta. apply IH. exact H5. }
    cbn [process_escapes]. focus ca H. match type of H with vat _ _ _ _ ?hh _ _ _ => rename hh into h9 end. destruct esc.
    + assert (AL : forall z, wpv (X ca ;;; alloc (Heap.KChar z)) (fun c' h' => at_ h' w ((c', Chr z) :: (cd, mk_chars l) :: L) ((res, mk_chars acc) :: P)) h9).
      { intro z. xX H ca. eapply wpv_mono; [eapply (o_chr _ _ _ _ z); exact H|]. intros c' h6 H6. exact H6. }
      apply wpv_bind. destruct (Z.eqb c (chz "n")); [|destruct (Z.eqb c (chz "t"))].
      * eapply wpv_mono; [apply AL|]. intros c' h6 H6. apply AP. exact H6.
      * eapply wpv_mono; [apply AL|]. intros c' h6 H6. apply AP. exact H6.
      * apply AP. exact H.
    + destruct (Z.eqb c 92).
      * xX H ca. apply IH. exact H.
      * apply AP. exact H.
Qed.
Lemma string_sim : forall s h w L P, at_ h w L P ->
  wpv (hmake_string n s) (fun r h' => at_ h' w ((r, make_string s) :: L) P) h.
Proof.
  intros s h w L P H. unfold hmake_string. apply wpv_bind. eapply wpv_mono; [apply chars_sim; exact H|]. clear H.
  intros l h1 H. cbv beta in *. apply vat_demote in H. xnil H z. apply (vat_leaf _ _ _ _ _ _ _ _ Nil) in H; [|reflexivity].
  eapply wpv_mono; [apply (escapes_sim n (map schar s) l false z []); exact H|]. clear H. intros r h3 H. apply vat_demote in H. exact H.
Qed.
Lemma item_of_sim : forall t m h w L P, hitem_of n t = Some m -> at_ h w L P ->
  exists v, item_of t = Some v /\ wpv m (fun r h' => at_ h' w ((r, v) :: L) P) h.
Proof.
  intros t m h w L P E H. destruct t; try discriminate E; injection E as <-; eexists; (split; [reflexivity|]).
  - apply o_num. exact H.
  - apply o_chr. exact H.
  - apply string_sim. exact H.
  - apply o_sym. exact H.
  - apply o_nil. exact H.
  - apply o_true. exact H.
  - apply o_alloc; auto. intros h' c E Bc T. eapply reads_wild; eauto.
Qed.
Lemma item_of_none : forall t, hitem_of n t = None -> item_of t = None.
Proof. intros t E. destruct t; try discriminate E; reflexivity. Qed.

Lemma ev_sim : forall {A} (k : N -> N -> HM A) (Q : A -> atom -> Eval.world -> heap -> Prop) a va h w L P,
  at_ h w ((a, va) :: L) P ->
  (forall r v z h' w', ev_at va w = Some (v, w') -> at_ h' w' ((r, v) :: (z, Nil) :: L) P -> wpv (k r z) (fun o h'' => Q o v w' h'') h') ->
  wpv (z <- make_nil ;; r <- heval allowed opened pwd n z a ;; k r z)
    (fun o h' => match ev_at va w with Some (v, w') => Q o v w' h' | None => True end) h.
Proof.
  intros A k Q a va h w L P H K. xnil H z. focus a H.
  assert (AV : avail h1 ((z, Nil) :: L) B z Nil) by (eapply (avail_in _ _ _ _ _ _ [(a, va)]); [exact H|apply in_or_app; left; apply in_eq]).
  pose proof (s_call _ _ _ _ _ _ HSimLoop.one [(a, va)] [(z, atom_of_env [])] _ _ ((z, Nil) :: L) P (r_eval allowed NoAny NoOdd NoMarks opened pwd n z [] a va) OP H) as S.
  assert (S' : sim (heval allowed opened pwd n z a) (Eval.eval opened n [] va)
    (fun r v h' w' => exists l', HSimLoop.one r v l' /\ at_ h' w' (l' ++ (z, Nil) :: L) P) h1 w).
  { apply S. intros p [<-|[]]. exact AV. }
  clear S. unfold sim in S'. unfold wpv, hbind_. unfold ev_at in *. destruct (heval allowed opened pwd n z a h1) as [r h2| | | | |]; auto.
  destruct (Eval.eval opened n [] va w) as [v w'|e|]; [|destruct e; try destruct S'|destruct S'].
  - destruct S' as [l' [-> H']]. specialize (K r v z h2 w' eq_refl H'). unfold wpv in K. exact K.
  - destruct (k r z h2); auto.
Qed.

(** ** Rules *)
Definition fits (L : list (N * atom)) (o : option (list entry * Eval.world)) (st' : list slot) (h' : heap) : Prop :=
  match o with
  | Some (vs', w') => exists Ls P, srel st' vs' Ls P /\ at_ h' w' (Ls ++ L) P
  | None => True
  end.
Lemma prefix_done_sim : forall a va st vs Ls P h w L, srel st vs Ls P -> at_ h w ((a, va) :: Ls ++ L) P ->
  wpv (hprefix_done allowed opened pwd n a st) (fits L (prefix_done _ ev_at va vs w)) h.
Proof.
  intros a va st vs Ls P h w L SR H.
  assert (DF : forall st' vs', st' = HPrefix a :: st -> vs' = SPrefix va :: vs -> wpv (done st') (fits L (Some (vs', w))) h).
  { intros st' vs' -> ->. exists ((a, va) :: Ls), P. split; [constructor; auto|exact H]. }
  destruct SR; try (apply DF; reflexivity); cbn [hprefix_done prefix_done].
  - xnil H z. apply (vat_leaf _ _ _ _ _ _ _ _ Nil) in H; [|reflexivity].
    op ltac:(eapply o_pcons; exact H). clear H. intros l h2 H. eexists _, _. split; [constructor; constructor; exact SR|exact H].
  - apply wpv_bind. eapply wpv_mono; [apply append_sim; exact H|]. clear H. intros l h2 H. eexists _, _. split; [constructor; exact SR|exact H].
Qed.
Lemma item_done_sim : forall a va st vs Ls P h w L, srel st vs Ls P -> at_ h w ((a, va) :: Ls ++ L) P ->
  wpv (hitem_done allowed opened pwd n a st) (fits L (item_done _ ev_at va vs w)) h.
Proof.
  intros a va st vs Ls P h w L SR H.
  assert (DF : wpv (hprefix_done allowed opened pwd n a st) (fits L (prefix_done _ ev_at va vs w)) h) by (eapply prefix_done_sim; eauto).
  destruct SR; try exact DF; cbn [hitem_done item_done].
  - op ltac:(eapply o_sym; exact H). clear H. intros q h1 H. op ltac:(eapply o_cons; exact H). clear H. intros c h2 [_ [_ H]].
    eapply prefix_done_sim; [exact SR|exact H].
  - eapply wpv_mono; [apply (ev_sim (fun v z => X z ;;; hprefix_done allowed opened pwd n v st)
      (fun o v w' h' => fits L (prefix_done _ ev_at v vs w') o h') _ _ _ _ _ _ H)|].
    + intros r v z h' w' _ H'. xX H' z. eapply prefix_done_sim; [exact SR|exact H'].
    + intros o h' HO. destruct (ev_at va w) as [[v w']|]; [exact HO|exact I].
Qed.
Lemma feed_sim : forall t st vs Ls P h w L, t <> TILDE -> srel st vs Ls P -> at_ h w (Ls ++ L) P ->
  wpv (hfeed allowed opened pwd n t st) (fits L (feed _ ev_at t vs w)) h.
Proof.
  intros t st vs Ls P h w L NT SR H. unfold hfeed, feed.
  assert (DF : wpv (done st) (fits L (Some (vs, w))) h) by (exists Ls, P; auto).
  destruct (srel_item_here _ _ _ _ SR) as [HI HP].
  destruct (hitem_of n t) as [m|] eqn:E.
  - destruct (item_of_sim _ _ _ _ _ _ E H) as [v [-> M]]. rewrite HI. destruct (item_here vs); [|exact DF].
    apply wpv_bind. eapply wpv_mono; [exact M|]. intros a h1 H1. eapply item_done_sim; eauto.
  - rewrite (item_of_none _ E). destruct t; try discriminate E; try congruence.
    + rewrite HI. destruct (item_here vs); [|exact DF]. exists Ls, P. split; [constructor|]; auto.
    + destruct SR; try exact DF.
      * xnil H z. eapply item_done_sim; eauto.
      * destruct SR; try exact DF. apply vat_demote in H. eapply item_done_sim; eauto.
      * destruct SR; try exact DF. destruct SR; try exact DF. destruct SR; try exact DF.
        op ltac:(eapply o_conc; exact H). clear H. intros l' h1 H. rewrite conc_joined. eapply item_done_sim; eauto.
    + destruct SR; try exact DF. eexists _, _. split; [constructor; constructor; exact SR|exact H].
    + rewrite HP. destruct (prefix_here vs); [|exact DF]. exists Ls, P. split; [constructor|]; auto.
    + rewrite HP. destruct (prefix_here vs); [|exact DF]. exists Ls, P. split; [constructor|]; auto.
Qed.

(** ** The lexer *)
Record lrel (l : hlexer) (v : lstate Eval.world) (h : heap) (L : list (N * atom)) : Prop := mklrel {
  lr_depth : hdepth l = depth v;
  lr_at : exists Ls P G S, srel (hstack l) (Parser.stack v) Ls P /\ got l = heads G /\ Parser.got v = map snd G /\
    (forall b, cnt b (spilt l) = cnt b (heads S)) /\ at_ h (env_w v) (Ls ++ G ++ S ++ L) P
}.
Lemma demote_all : forall P L h w, at_ h w L P -> at_ h w (rev P ++ L) [].
Proof.
  induction P as [|e P IH]; intros L h w H; [exact H|]. apply vat_demote in H. apply IH in H. cbn [rev]. rewrite <- app_assoc. exact H.
Qed.
Lemma cnt_heads_perm : forall b l l', Permutation.Permutation l l' -> cnt b (heads l) = cnt b (heads l').
Proof. intros b l l' PE. unfold heads. induction PE; cbn [map cnt]; [reflexivity|rewrite IHPE; reflexivity|lia|congruence]. Qed.
Lemma vat_perm : forall h w L L' P, Permutation.Permutation L L' -> at_ h w L P -> at_ h w L' P.
Proof.
  intros h w L L' P PE H. destruct H as [A0 A1 A2 A3 A4 A5 A6 A7 A8].
  assert (I : incl (heads L') (heads L)).
  { intros x Ix. apply in_map_iff in Ix. destruct Ix as [p [<- Ip]]. apply in_map. eapply Permutation.Permutation_in; [apply Permutation.Permutation_sym; exact PE|exact Ip]. }
  assert (C : forall b, cnt b (heads L) = cnt b (heads L')).
  { intro b. apply cnt_heads_perm. exact PE. }
  constructor; auto.
  - eapply holds_perm; [exact A0|]. intro b. rewrite !cnt_app, C. reflexivity.
  - rewrite Forall_forall in *. intros p Ip. apply A1. eapply Permutation.Permutation_in; [apply Permutation.Permutation_sym; exact PE|exact Ip].
  - destruct A5 as [N1 C1]. split; auto. intros S C0. eapply clear_sub; [|apply C1; exact C0].
    intros a Ia. apply reach_root. apply in_app_or in Ia. apply in_or_app. destruct Ia; auto.
  - intros P1 a v P2 EP. destruct (A6 _ _ _ _ EP) as [S [C0 R]]. exists S. split; auto.
    eapply clear_sub; [|exact C0]. intros x Ix. apply reach_root. apply in_app_or in Ix. apply in_or_app. destruct Ix; auto.
Qed.
Lemma consume_sim : forall l v h L, lrel l v h L -> lrel (hconsume l) (consume v) h L.
Proof.
  intros [d st g s] [d' vs vg w] h L [E [Ls [P [G [S [SR [EG [EV [ES H]]]]]]]]]. cbn [hdepth hstack got spilt depth Parser.stack Parser.got env_w] in *. subst d'.
  unfold hconsume, consume. cbn [hdepth hstack got spilt depth Parser.stack Parser.got env_w].
  destruct d as [|d]; [|constructor; [reflexivity|exists Ls, P, G, S; auto]].
  assert (DF : feed_end vs = None -> lrel (mkh 0 [] g (s ++ stack_refs st))
    (mkl 0 [] (vg ++ match feed_end vs with Some a => [a] | None => [] end) w) h L).
  { intro FE. rewrite FE, app_nil_r. constructor; [reflexivity|].
    exists [], [], G, (S ++ rev P ++ Ls). cbn [hstack got spilt Parser.stack Parser.got env_w]. split; [constructor|]. split; [exact EG|]. split; [exact EV|]. split.
    - intro b. rewrite cnt_app, ES, (srel_refs _ _ _ _ SR b), !heads_app, !cnt_app.
      rewrite (cnt_heads_perm b (rev P) P) by (apply Permutation.Permutation_sym, Permutation.Permutation_rev). lia.
    - apply demote_all in H. eapply vat_perm; [|exact H].
      cbn [app]. rewrite !app_assoc. apply Permutation.Permutation_app_tail.
      rewrite <- !app_assoc.
      eapply Permutation.Permutation_trans; [apply Permutation.Permutation_app_comm|].
      rewrite <- !app_assoc.
      eapply Permutation.Permutation_trans; [apply Permutation.Permutation_app_comm|]. rewrite <- !app_assoc. apply Permutation.Permutation_refl. }
  destruct SR as [|? ? ? ? SR|? ? ? ? SR|? ? ? ? SR|? ? ? ? SR|? ? ? ? ? ? SR|? ? ? ? a v SR]; try (apply DF; reflexivity).
  destruct SR; try (apply DF; reflexivity).
  constructor; [reflexivity|]. exists [], [], (G ++ [(a, v)]), S. cbn [hstack got spilt Parser.stack Parser.got env_w feed_end].
  split; [constructor|]. split; [rewrite heads_app, EG; reflexivity|]. split; [rewrite map_app, EV; reflexivity|]. split; [exact ES|].
  eapply vat_perm; [|exact H]. cbn [app]. rewrite <- app_assoc. apply Permutation.Permutation_middle.
Qed.
Definition lfits (L : list (N * atom)) (o : option (lstate Eval.world)) (l' : hlexer) (h' : heap) : Prop :=
  match o with Some v' => lrel l' v' h' L | None => True end.
Lemma push_sim : forall t l v h L, t <> TILDE -> lrel l v h L ->
  wpv (hpush_tok allowed opened pwd n t l) (lfits L (push_tok _ ev_at t v)) h.
Proof.
  intros t [d st g s] [d' vs vg w] h L NT [E [Ls [P [G [S [SR [EG [EV [ES H]]]]]]]]]. cbn [hdepth hstack got spilt depth Parser.stack Parser.got env_w] in *.
  unfold hpush_tok, push_tok. cbn [hdepth hstack got spilt depth Parser.stack Parser.got env_w].
  apply wpv_bind. eapply wpv_mono; [apply (feed_sim t _ _ _ _ _ _ _ NT SR H)|]. intros st' h' FI. unfold fits in FI. unfold wpv, done.
  destruct (feed _ ev_at t vs w) as [[vs' w']|]; [|exact I]. destruct FI as [Ls' [P' [SR' H']]].
  constructor; [exact E|]. exists Ls', P', G, S. auto.
Qed.
Lemma value_sim : forall t l v h L, t <> TILDE -> lrel l v h L ->
  wpv (hvalue_tok allowed opened pwd n t l) (lfits L (value_tok _ ev_at t v)) h.
Proof.
  intros t l v h L NT R. unfold hvalue_tok, value_tok. apply wpv_bind. eapply wpv_mono; [apply (push_sim t l v h L NT R)|].
  intros l' h' FI. unfold wpv, done. destruct (push_tok _ ev_at t v) as [v'|]; [|exact I]. apply consume_sim. exact FI.
Qed.
Lemma open_sim : forall l v h L, lrel l v h L ->
  wpv (hopen_tok allowed opened pwd n l) (lfits L (open_tok _ ev_at v)) h.
Proof.
  intros l v h L R. unfold hopen_tok, open_tok. apply wpv_bind. eapply wpv_mono; [apply (push_sim POPEN l v h L ltac:(discriminate) R)|].
  intros l' h' FI. unfold wpv, done. destruct (push_tok _ ev_at POPEN v) as [v'|]; [|exact I]. destruct FI as [E FI].
  constructor; [cbn; congruence|exact FI].
Qed.
Definition afits (L : list (N * atom)) (o : option (option (lstate Eval.world))) (o' : option hlexer) (h' : heap) : Prop :=
  match o with
  | Some (Some v') => exists l', o' = Some l' /\ lrel l' v' h' L
  | Some None => o' = None
  | None => True
  end.
Lemma act_sim : forall k s l v h L, splices (k, s) = false -> lrel l v h L ->
  wpv (hact allowed opened pwd n k s l) (fun o h' => afits L (act _ ev_at k s v) o h' /\ (o = None -> h' = h)) h.
Proof.
  intros k s l v h L NS R.
  assert (SO : forall m o, wpv m (lfits L o) h ->
    wpv (l' <- m ;; done (Some l')) (fun o' h' => afits L (option_map Some o) o' h' /\ (o' = None -> h' = h)) h).
  { intros m o M. apply wpv_bind. eapply wpv_mono; [exact M|]. intros l' h' FI. unfold wpv, done. split; [|discriminate].
    destruct o as [v'|]; [|exact I]. exists l'. auto. }
  assert (AF : forall t f f', t <> TILDE -> (forall l1 v1 h1, lrel l1 v1 h1 L -> wpv (f l1) (lfits L (f' v1)) h1) ->
    wpv (l' <- hpush_tok allowed opened pwd n t l ;; l'' <- f l' ;; done (Some l''))
      (fun o' h' => afits L (match push_tok _ ev_at t v with Some v' => option_map Some (f' v') | None => None end) o' h' /\ (o' = None -> h' = h)) h).
  { intros t f f' NT FF. apply wpv_bind. eapply wpv_mono; [apply (push_sim t l v h L NT R)|]. intros l' h' FI. cbv beta.
    destruct (push_tok _ ev_at t v) as [v'|].
    - apply wpv_bind. eapply wpv_mono; [apply FF; exact FI|]. intros l2 h2 FI2. unfold wpv, done. split; [|discriminate].
      destruct (f' v') as [v2|]; [|exact I]. exists l2. auto.
    - unfold wpv, hbind_, done. destruct (f l' h'); auto. split; [exact I|discriminate]. }
  destruct k; cbn [hact act]; try (apply SO; first [apply value_sim; [discriminate|exact R] | apply open_sim; exact R | apply push_sim; [discriminate|exact R]]);
    try (destruct p; try discriminate NS; apply AF; [discriminate| |discriminate|]; intros l1 v1 h1 R1; first [apply open_sim; exact R1 | apply value_sim; [discriminate|exact R1]]);
    try (split; [exists l; auto|discriminate]).
  pose proof (lr_depth _ _ _ _ R) as ED. rewrite ED. destruct (depth v) as [|d]; [split; [reflexivity|auto]|].
  apply wpv_bind. eapply wpv_mono; [apply (push_sim PCLOSE l v h L ltac:(discriminate) R)|]. intros l' h' FI. unfold wpv, done. split; [|discriminate].
  destruct (push_tok _ ev_at PCLOSE v) as [v'|]; [|exact I]. eexists. split; [reflexivity|]. apply consume_sim. destruct FI as [_ FI]. constructor; [reflexivity|exact FI].
Qed.
Lemma lex_sim : forall f s l v h L, Forall (fun t => splices t = false) (fst (split_tokens f s)) -> lrel l v h L ->
  wpv (hlex allowed opened pwd n f s l)
    (fun o h' => match lex _ ev_at f s v with Some (v', e) => snd o = e /\ lrel (fst o) v' h' L | None => True end) h.
Proof.
  induction f as [|f IH]; intros s l v h L NS R; destruct s as [|c s]; try (split; [reflexivity|exact R]); [exact I|].
  cbn [hlex lex]. cbn [split_tokens] in NS. destruct (scan_token (c :: s)) as [k j| |]; try (split; [reflexivity|exact R]).
  destruct (split_tokens f (skipn j (c :: s))) as [tl e] eqn:ST. cbn [fst] in NS. inversion NS as [|? ? NS1 NS2]; subst.
  apply wpv_bind. eapply wpv_mono; [apply (act_sim k (firstn j (c :: s)) l v h L NS1 R)|]. intros o h' [FI SH].
  destruct (act _ ev_at k (firstn j (c :: s)) v) as [[v'|]|].
  - destruct FI as [l' [-> R']]. apply IH; [rewrite ST; exact NS2|exact R'].
  - rewrite FI in *. rewrite (SH eq_refl). split; [reflexivity|exact R].
  - unfold wpv. destruct o as [l'|]; [|exact I]. destruct (hlex allowed opened pwd n f (skipn j (c :: s)) l' h'); exact I.
Qed.
Lemma parse_sim : forall s l v h L toks e, splits s toks e -> Forall (fun t => splices t = false) toks -> lrel l v h L ->
  wpv (hlexer_parse allowed opened pwd n s l)
    (fun o h' => match lexer_parse _ ev_at s v with Some (v', e) => snd o = e /\ lrel (fst o) v' h' L | None => True end) h.
Proof.
  intros s l v h L toks e SP NS R. apply tokens_splits in SP. apply lex_sim; [|exact R]. change (split_tokens (length s) s) with (tokens s). rewrite SP. exact NS.
Qed.
End Sim.

(** ** Nothing is spilt when every expression reaches the consumer *)

(** How many expressions end in the tokens, from their kinds alone. *)
Definition top (d : nat) : nat := match d with O => 1 | _ => 0 end.
Fixpoint ends (d : nat) (l : list (kind * bytes)) : nat :=
  match l with
  | [] => 0
  | (k, _) :: r =>
      match k with
      | KOpen | KPOpen _ => ends (S d) r
      | KClose => match d with O => 0 | S d' => top d' + ends d' r end
      | KDot | KSpace | KComment => ends d r
      | _ => top d + ends d r
      end
  end.
Lemma ends_fillers : forall f d r, Forall filler f -> ends d (f ++ r) = ends d r.
Proof.
  induction f as [|[k t] f IH]; intros d r H; [reflexivity|]. inversion H as [|? ? [K|K] H']; subst; cbn in K; subst k; cbn; apply IH; auto.
Qed.
Lemma form_ends : forall W runs,
  (forall w l v w', form W runs w l v w' -> forall d r, ends d (l ++ r) = top d + ends d r) /\
  (forall b w l v w', body W runs b w l v w' -> forall d r, ends (S d) (l ++ r) = top d + ends d r).
Proof.
  intros W runs. apply form_body_ind.
  - intros w k t v P d r. destruct P; reflexivity.
  - intros w l v w' _ IH d r. apply IH.
  - intros w l v w' _ IH d r. apply IH.
  - reflexivity.
  - reflexivity.
  - intros w l a w1 v w2 _ IH _ d r. apply IH.
  - reflexivity.
  - reflexivity.
  - reflexivity.
  - intros b w [k t] l v w' [K|K] _ IH d r; cbn in K; subst k; apply IH.
  - intros b w l1 x w1 l2 dd w2 _ IH1 _ IH2 d r. rewrite <- app_assoc, IH1. apply IH2.
  - intros w f1 l x f2 w' F1 _ IH F2 d r. cbn [app ends]. rewrite <- !app_assoc, ends_fillers by exact F1.
    rewrite IH. cbn [top plus]. rewrite ends_fillers by exact F2. reflexivity.
  - intros w l1 a w1 ys w2 l2 dd w3 _ IH1 _ _ IH2 d r. cbn [app ends]. rewrite <- app_assoc, IH1. apply IH2.
Qed.
Lemma program_ends : forall W runs w l vs w', program W runs w l vs w' -> ends 0 l = length vs.
Proof.
  intros W runs w l vs w' H. induction H as [w|w [k t] l vs w' [K|K] H IH|w l1 v w1 l2 vs w2 H1 H2 IH]; auto.
  - cbn in K. subst k. exact IH.
  - cbn in K. subst k. exact IH.
  - rewrite (proj1 (form_ends W runs) _ _ _ _ H1). cbn. auto.
Qed.

Section Count.
Variable allowed : event -> bool.
Variable opened : N -> bool -> atom -> bool.
Variable pwd : atom.
Variable n : nat.

(** At most [e] expressions more; with [e] of them nothing is spilt. *)
Definition counted (e : nat) (l l' : hlexer) : Prop :=
  length (got l') <= length (got l) + e /\ (length (got l') = length (got l) + e -> spilt l' = spilt l).
Lemma counted_consume : forall l, counted (top (hdepth l)) l (hconsume l).
Proof.
  intros [d st g s]. unfold counted, hconsume. cbn [hdepth hstack got spilt]. destruct d; cbn [top got spilt]; [|split; auto; lia].
  destruct st as [|[| | | | |a|a] [|e r]]; cbn [got spilt]; rewrite ?app_length; cbn [length]; split; try lia; reflexivity.
Qed.
Lemma counted_trans : forall e1 e2 l1 l2 l3, counted e1 l1 l2 -> counted e2 l2 l3 -> counted (e1 + e2) l1 l3.
Proof. intros e1 e2 l1 l2 l3 [A1 B1] [A2 B2]. split; [lia|]. intro E. rewrite B2, B1; auto; lia. Qed.
Lemma push_count : forall t l h, wpv (hpush_tok allowed opened pwd n t l)
  (fun l' _ => hdepth l' = hdepth l /\ got l' = got l /\ spilt l' = spilt l) h.
Proof.
  intros t l h. unfold hpush_tok, wpv, hbind_, done. destruct (hfeed allowed opened pwd n t (hstack l) h); auto.
Qed.
Lemma value_count : forall t l h, wpv (hvalue_tok allowed opened pwd n t l)
  (fun l' _ => hdepth l' = hdepth l /\ counted (top (hdepth l)) l l') h.
Proof.
  intros t l h. unfold hvalue_tok. apply wpv_bind. eapply wpv_mono; [apply push_count|]. intros l1 h1 [D [G S]].
  unfold wpv, done. pose proof (counted_consume l1) as C. rewrite D in C. unfold counted in *. rewrite G, S in C. split; [|exact C].
  rewrite <- D. unfold hconsume. destruct l1 as [d st g s]. cbn. destruct d; [|reflexivity]. destruct st as [|[| | | | |a|a] [|e r]]; reflexivity.
Qed.
Lemma open_count : forall l h, wpv (hopen_tok allowed opened pwd n l)
  (fun l' _ => hdepth l' = S (hdepth l) /\ got l' = got l /\ spilt l' = spilt l) h.
Proof.
  intros l h. unfold hopen_tok. apply wpv_bind. eapply wpv_mono; [apply push_count|]. intros l1 h1 [D [G S]].
  unfold wpv, done. cbn. auto.
Qed.
Lemma depth_consume : forall l, hdepth (hconsume l) = hdepth l.
Proof. intros [d st g s]. unfold hconsume. cbn. destruct d; [|reflexivity]. destruct st as [|[| | | | |a|a] [|e r]]; reflexivity. Qed.
Lemma act_count : forall k t l h r, wpv (hact allowed opened pwd n k t l)
  (fun o _ => match o with
              | Some l' => exists e, ends (hdepth l) ((k, t) :: r) = e + ends (hdepth l') r /\ counted e l l'
              | None => True
              end) h.
Proof.
  intros k t l h r.
  assert (SV : forall tm, ends (hdepth l) ((k, t) :: r) = top (hdepth l) + ends (hdepth l) r ->
    wpv (l' <- hvalue_tok allowed opened pwd n tm l ;; done (Some l')) (fun o _ => match o with
              | Some l' => exists e, ends (hdepth l) ((k, t) :: r) = e + ends (hdepth l') r /\ counted e l l'
              | None => True end) h).
  { intros tm E. apply wpv_bind. eapply wpv_mono; [apply value_count|]. intros l' h' [D C]. exists (top (hdepth l)). rewrite D. auto. }
  assert (ZE : forall l', hdepth l' = hdepth l -> got l' = got l -> spilt l' = spilt l -> ends (hdepth l) ((k, t) :: r) = ends (hdepth l) r ->
    exists e, ends (hdepth l) ((k, t) :: r) = e + ends (hdepth l') r /\ counted e l l').
  { intros l' D G S E. exists 0. rewrite D, E. split; [reflexivity|]. unfold counted. rewrite G, S. split; auto. lia. }
  assert (AV : forall tm tm', ends (hdepth l) ((k, t) :: r) = top (hdepth l) + ends (hdepth l) r ->
    wpv (l' <- hpush_tok allowed opened pwd n tm l ;; l'' <- hvalue_tok allowed opened pwd n tm' l' ;; done (Some l'')) (fun o _ => match o with
              | Some l' => exists e, ends (hdepth l) ((k, t) :: r) = e + ends (hdepth l') r /\ counted e l l'
              | None => True end) h).
  { intros tm tm' E. apply wpv_bind. eapply wpv_mono; [apply push_count|]. intros l1 h1 [D [G S]]. cbv beta.
    apply wpv_bind. eapply wpv_mono; [apply value_count|]. intros l' h' [D' C]. exists (top (hdepth l)). rewrite D', D.
    split; [exact E|]. unfold counted in *. rewrite G, S, D in C. exact C. }
  destruct k; cbn [hact]; try (apply SV; reflexivity); try (apply AV; reflexivity); try (apply ZE; reflexivity).
  - apply wpv_bind. eapply wpv_mono; [apply open_count|]. intros l' h' [D [G S]]. exists 0. rewrite D. split; [reflexivity|].
    unfold counted. rewrite G, S. split; auto. lia.
  - destruct (hdepth l) as [|d] eqn:ED; [exact I|]. apply wpv_bind. eapply wpv_mono; [apply push_count|]. intros l1 h1 [D [G S]].
    unfold wpv, done. exists (top d). rewrite depth_consume. cbn [hdepth ends]. split; [reflexivity|].
    pose proof (counted_consume (mkh d (hstack l1) (got l1) (spilt l1))) as C. unfold counted in *. cbn [hdepth got spilt] in C. rewrite <- G, <- S. exact C.
  - apply wpv_bind. eapply wpv_mono; [apply push_count|]. intros l1 h1 [D1 [G1 S1]]. cbv beta.
    apply wpv_bind. eapply wpv_mono; [apply open_count|]. intros l' h' [D [G S]]. exists 0. rewrite D, D1. split; [reflexivity|].
    unfold counted. rewrite G, S, G1, S1. split; auto. lia.
Qed.
Lemma lex_count : forall f s l h, wpv (hlex allowed opened pwd n f s l)
  (fun o _ => snd o = LDone -> counted (ends (hdepth l) (fst (split_tokens f s))) l (fst o)) h.
Proof.
  assert (Z : forall l, counted 0 l l) by (intro l; split; auto; lia).
  induction f as [|f IH]; intros s l h; destruct s as [|c s]; try (intros _; apply Z); [exact I|].
  cbn [hlex split_tokens]. destruct (scan_token (c :: s)) as [k j| |]; try (intro E; discriminate E).
  destruct (split_tokens f (skipn j (c :: s))) as [tl e] eqn:ST. cbn [fst].
  apply wpv_bind. eapply wpv_mono; [apply (act_count k (firstn j (c :: s)) l h tl)|]. intros [l'|] h' A; cbv beta; [|intro E; discriminate E].
  destruct A as [e' [E C]]. eapply wpv_mono; [apply IH|]. intros o h'' K LD.
  specialize (K LD). rewrite ST in K. pose proof (counted_trans _ _ _ _ _ C K) as CT. cbn [fst] in CT. rewrite <- E in CT. exact CT.
Qed.
End Count.

(** ** Whole texts *)
Section Whole.
Variable allowed : event -> bool.
Hypothesis NoAny : allowed AssignsAny = false.
Hypothesis NoOdd : allowed OddScope = false.
Hypothesis NoMarks : allowed MarksCode = false.
Variable opened : N -> bool -> atom -> bool.
Variable pwd : atom.
Variable n : nat.

Lemma no_cnt : forall l, (forall b, cnt b (heads l) = 0) -> l = [].
Proof. intros [|[a v] l] H; auto. specialize (H a). cbn in H. unfold is in H. rewrite N.eqb_refl in H. discriminate. Qed.
Lemma wpv_and : forall {A} (m : HM A) P Q h, wpv m P h -> wpv m Q h -> wpv m (fun a h' => P a h' /\ Q a h') h.
Proof. intros A m P Q h. unfold wpv. destruct (m h); auto. Qed.
Lemma program_sim : forall s toks vs w w' h L, splits s toks Lexer.Done ->
  program Eval.world (fun a w v w' => Eval.eval opened n [] a w = Eval.Ret v w') w toks vs w' ->
  Forall (fun t => splices t = false) toks -> opens (aux h) <> 0%N -> stands h w L ->
  wpv (hlexer_parse allowed opened pwd n s (mkh 0 [] [] []))
    (fun o h' => exists G, fst o = mkh 0 [] (heads G) [] /\ snd o = LDone /\ map snd G = vs /\ stands h' w' (G ++ L)) h.
Proof.
  intros s toks vs w w' h L SP PR NS OP ST.
  assert (RP : lexer_parse _ (ev_at opened n) s (mkl 0 [] [] w) = Some (mkl 0 [] vs w', LDone)).
  { eapply reads_program; [exact SP|]. clear - PR. 
    assert (E : forall a w v w', Eval.eval opened n [] a w = Eval.Ret v w' -> ParserProofs.runs (ev_at opened n) a w v w').
    { intros a w0 v w1 E. unfold ParserProofs.runs, ev_at. rewrite E. reflexivity. }
    apply (HostMain.program_mono _ _ E). exact PR. }
  pose proof (stands_vat _ _ _ ST) as V.
  assert (R0 : lrel h [] [] (heads L) (mkh 0 [] [] []) (mkl 0 [] [] w) h L).
  { constructor; [reflexivity|]. exists [], [], [], []. split; [constructor|]. split; [reflexivity|]. split; [reflexivity|]. split; [reflexivity|]. exact V. }
  pose proof (parse_sim allowed NoAny NoOdd NoMarks opened pwd n h [] [] (heads L) OP s _ _ h L toks _ SP NS R0) as PS.
  pose proof (lex_count allowed opened pwd n (length s) s (mkh 0 [] [] []) h) as LC.
  eapply wpv_mono; [apply (wpv_and _ _ _ _ PS LC)|]. clear PS LC. intros [l' e] h' [A C]. rewrite RP in A. cbn [fst snd] in *. destruct A as [-> [ED [Ls [P [G [S [SR [EG [EV [ES H]]]]]]]]]].
  specialize (C eq_refl). cbn [depth Parser.stack Parser.got env_w] in *. inversion SR; subst.
  change (split_tokens (length s) s) with (tokens s) in C. apply tokens_splits in SP. rewrite SP in C. cbn [fst hdepth] in C.
  rewrite (program_ends _ _ _ _ _ _ PR) in C. unfold counted in C. cbn [got spilt length plus] in C. destruct C as [_ C].
  assert (SE : spilt l' = []). { apply C. rewrite EG. unfold heads. rewrite !map_length. reflexivity. }
  assert (S0 : S = []). { apply no_cnt. intro b. rewrite <- ES, SE. reflexivity. }
  subst S. exists G. destruct l' as [d st g sp]. cbn [hdepth hstack got spilt] in *. subst. split; [reflexivity|]. split; [reflexivity|]. split; [reflexivity|].
  eapply vat_stands. exact H.
Qed.
End Whole.
