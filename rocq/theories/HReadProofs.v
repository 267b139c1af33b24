(** * HReadProofs: the reader uses only cells that are alive, and accounts for every
    reference. *)
From Verif Require Import Value Tails Heap HeapSpec HeapProofs HeapOps HEval HEvalSpec HEvalBase HEvalProofs HEvalRun Lexer Parser HRead.
Open Scope nat_scope.
Open Scope heap_scope.

Lemma stack_refs_cons : forall s st, stack_refs (s :: st) = slot_refs s ++ stack_refs st.
Proof. reflexivity. Qed.

Section Safe.
Variable allowed : event -> bool.
Hypothesis NoAny : allowed AssignsAny = false.
Variable opened : N -> bool -> atom -> bool.
Variable pwd : atom.
Variable n : nat.
Notation at_ := (at_ allowed).

Lemma append_ok : forall a b h0 h L, at_ h0 h (a :: b :: L) ->
  wp (happend n a b) (fun r h' => at_ h0 h' (r :: L)) h.
Proof.
  intros a b h0 h L H. unfold happend.
  eapply (r_alloc _ NoAny _ _ _ H Heap.KNil); [reflexivity|]. clear H. intros z h1 H _.
  eapply (r_cons _ NoAny _ _ _ H b z _ _ (a :: L)); [perm|]. clear H. intros k h2 H _.
  apply wp_tail. eapply (r_conc _ NoAny _ _ _ H n a k _ _ L); [perm|]. clear H. intros r h3 H. exact H.
Qed.
Lemma chars_ok : forall l h0 h L, at_ h0 h L -> wp (hchars l) (fun r h' => at_ h0 h' (r :: L)) h.
Proof.
  induction l as [|z l IH]; intros h0 h L H; cbn [hchars].
  - apply wp_tail. eapply (r_alloc _ NoAny _ _ _ H Heap.KNil); [reflexivity|]. clear H. intros z h1 H _. exact H.
  - apply wp_bind. eapply wp_mono; [apply IH; exact H|]. clear H. intros res h1 H. cbv beta in H.
    eapply (r_alloc _ NoAny _ _ _ H (Heap.KChar z)); [reflexivity|]. clear H. intros c h2 H _.
    apply wp_tail. eapply (r_cons _ NoAny _ _ _ H c res _ _ L); [perm|]. clear H. intros r h3 H _. exact H.
Qed.
Lemma escapes_ok : forall k cell esc res h0 h L, at_ h0 h (cell :: res :: L) ->
  wp (hescapes n k cell esc res) (fun r h' => at_ h0 h' (r :: L)) h.
Proof.
  induction k as [|k IH]; intros cell esc res h0 h L H; [apply wp_dry|]. cbn [hescapes].
  apply hs_test; [apply (at_alive _ _ _ _ _ H); inR|]. intros c _. destruct (is_nil_c c).
  - eapply (r_X _ NoAny _ _ _ H cell _ _ (res :: L)); [perm|]. clear H. intros h1 H. exact H.
  - eapply (r_car _ NoAny _ _ _ H cell); [apply (at_alive _ _ _ _ _ H); inR|]. clear H. intros ca h1 H _.
    eapply (r_cdr _ NoAny _ _ _ H cell); [apply (at_alive _ _ _ _ _ H); inR|]. clear H. intros cd h2 H _.
    eapply (r_X _ NoAny _ _ _ H cell _ _ (cd :: ca :: res :: L)); [perm|]. clear H. intros h3 H.
    apply hs_pure; [apply pure_number; apply (at_alive _ _ _ _ _ H); inR|]. intro z.
    assert (AP : forall e h4 c', at_ h0 h4 (c' :: cd :: res :: L) ->
      wp (nxt <- happend n res c' ;; hescapes n k cd e nxt) (fun r h' => at_ h0 h' (r :: L)) h4).
    { intros e h4 c' H4. apply wp_bind. eapply wp_mono.
      - apply (append_ok res c' h0 h4 (cd :: L)). eapply at_perm; [exact H4|perm].
      - intros r h5 H5. cbv beta in H5. apply IH. eapply at_perm; [exact H5|perm]. }
    destruct esc.
    + assert (AL : forall b, kids b = [] -> wp (X ca ;;; alloc b) (fun c' h' => at_ h0 h' (c' :: cd :: res :: L)) h3).
      { intros b KB. eapply (r_X _ NoAny _ _ _ H ca _ _ (cd :: res :: L)); [perm|]. intros h4 H4.
        apply wp_tail. eapply (r_alloc _ NoAny _ _ _ H4 b); [exact KB|]. intros c' h5 H5 _. exact H5. }
      apply wp_bind. destruct (Z.eqb z (chz "n")); [|destruct (Z.eqb z (chz "t"))].
      * eapply wp_mono; [apply AL; reflexivity|]. intros c' h4 H4. apply AP. exact H4.
      * eapply wp_mono; [apply AL; reflexivity|]. intros c' h4 H4. apply AP. exact H4.
      * apply wp_done. apply AP. eapply at_perm; [exact H|perm].
    + destruct (Z.eqb z 92).
      * eapply (r_X _ NoAny _ _ _ H ca _ _ (cd :: res :: L)); [perm|]. intros h4 H4. apply IH. exact H4.
      * apply AP. eapply at_perm; [exact H|perm].
Qed.
Lemma string_ok : forall s h0 h L, at_ h0 h L -> wp (hmake_string n s) (fun r h' => at_ h0 h' (r :: L)) h.
Proof.
  intros s h0 h L H. unfold hmake_string. apply wp_bind. eapply wp_mono; [apply chars_ok; exact H|]. clear H.
  intros l h1 H. cbv beta in H. eapply (r_alloc _ NoAny _ _ _ H Heap.KNil); [reflexivity|]. clear H. intros z h2 H _.
  apply escapes_ok. eapply at_perm; [exact H|perm].
Qed.
Lemma item_of_ok : forall t m h0 h L, hitem_of n t = Some m -> at_ h0 h L -> wp m (fun r h' => at_ h0 h' (r :: L)) h.
Proof.
  intros t m h0 h L E H.
  assert (AL : forall b, kids b = [] -> wp (alloc b) (fun r h' => at_ h0 h' (r :: L)) h).
  { intros b KB. apply wp_tail. eapply (r_alloc _ NoAny _ _ _ H b); [exact KB|]. intros r h' H' _. exact H'. }
  destruct t; try discriminate E; injection E as <-; try (apply AL; reflexivity).
  apply string_ok. exact H.
Qed.

(** Read-time evaluation in an empty scope. *)
Lemma ev_ok : forall (k : N -> N -> HM (list slot)) Q a h0 h L, at_ h0 h (a :: L) ->
  (forall v z h', at_ h0 h' (v :: z :: L) -> wp (k v z) Q h') ->
  wp (z <- make_nil ;; v <- heval allowed opened pwd n z a ;; k v z) Q h.
Proof.
  intros k Q a h0 h L H K. eapply (r_alloc _ NoAny _ _ _ H Heap.KNil); [reflexivity|]. clear H. intros z h1 H _.
  eapply (r_spec _ _ _ _ H _ [a] z _ _ (z :: L) (heval_ok allowed NoAny opened pwd n z a)); [perm|apply in_eq|].
  clear H. intros v h2 H. apply K. exact H.
Qed.
Lemma prefix_done_ok : forall a st h0 h L, at_ h0 h (a :: stack_refs st ++ L) ->
  wp (hprefix_done allowed opened pwd n a st) (fun st' h' => at_ h0 h' (stack_refs st' ++ L)) h.
Proof.
  intros a st h0 h L H.
  assert (DF : wp (done (HPrefix a :: st)) (fun st' h' => at_ h0 h' (stack_refs st' ++ L)) h) by (apply wp_done; exact H).
  destruct st as [|[| | | | |l|l] r]; try exact DF; cbn [hprefix_done]; rewrite ?stack_refs_cons in H; cbn [slot_refs app] in H.
  - eapply (r_alloc _ NoAny _ _ _ H Heap.KNil); [reflexivity|]. clear H. intros z h1 H _.
    eapply (r_cons _ NoAny _ _ _ H a z _ _ (stack_refs r ++ L)); [perm|]. clear H. intros l h2 H _. apply wp_done. exact H.
  - destruct r as [|[| | | | |l|l] r]; try exact DF. rewrite stack_refs_cons in H. cbn [slot_refs app] in H.
    apply (ev_ok (fun v z => l' <- hconc n l v ;; X z ;;; done (HItems l' :: r)) _ a h0 h (l :: stack_refs r ++ L) H).
    clear H. intros v z h1 H.
    eapply (r_conc _ NoAny _ _ _ H n l v _ _ (z :: stack_refs r ++ L)); [perm|]. clear H. intros l' h2 H.
    eapply (r_X _ NoAny _ _ _ H z _ _ (l' :: stack_refs r ++ L)); [perm|]. clear H. intros h3 H. exact H.
  - apply wp_bind. eapply wp_mono; [apply (append_ok l a h0 h (stack_refs r ++ L)); eapply at_perm; [exact H|perm]|].
    intros l' h1 H1. exact H1.
Qed.
Lemma item_done_ok : forall a st h0 h L, at_ h0 h (a :: stack_refs st ++ L) ->
  wp (hitem_done allowed opened pwd n a st) (fun st' h' => at_ h0 h' (stack_refs st' ++ L)) h.
Proof.
  intros a st h0 h L H.
  destruct st as [|[| | | | |l|l] r]; try (apply prefix_done_ok; exact H); cbn [hitem_done]; rewrite ?stack_refs_cons in H; cbn [slot_refs app] in H.
  - eapply (r_alloc _ NoAny _ _ _ H (KSym (sy "quote"))); [reflexivity|]. clear H. intros q h1 H _.
    eapply (r_cons _ NoAny _ _ _ H q a _ _ (stack_refs r ++ L)); [perm|]. clear H. intros c h2 H _. apply prefix_done_ok. exact H.
  - apply (ev_ok (fun v z => X z ;;; hprefix_done allowed opened pwd n v r) _ a h0 h (stack_refs r ++ L) H).
    clear H. intros v z h1 H.
    eapply (r_X _ NoAny _ _ _ H z _ _ (v :: stack_refs r ++ L)); [perm|]. clear H. intros h2 H. apply prefix_done_ok. exact H.
Qed.
Lemma feed_ok : forall t st h0 h L, at_ h0 h (stack_refs st ++ L) ->
  wp (hfeed allowed opened pwd n t st) (fun st' h' => at_ h0 h' (stack_refs st' ++ L)) h.
Proof.
  intros t st h0 h L H. unfold hfeed. destruct (hitem_of n t) as [m|] eqn:E.
  - destruct (hitem_here st); [|apply wp_done; exact H].
    apply wp_bind. eapply wp_mono; [apply (item_of_ok _ _ _ _ _ E H)|]. intros a h1 H1. apply item_done_ok. exact H1.
  - assert (DF : wp (done st) (fun st' h' => at_ h0 h' (stack_refs st' ++ L)) h) by (apply wp_done; exact H).
    destruct t; try discriminate E; try (apply wp_done; destruct (hitem_here st); exact H); try (apply wp_done; destruct (hprefix_here st); exact H);
      try (apply wp_done; destruct st as [|[| | | | | |] ?]; exact H).
    destruct st as [|[| | | | |l|l] st]; try exact DF.
    + eapply (r_alloc _ NoAny _ _ _ H Heap.KNil); [reflexivity|]. clear H DF. intros z h1 H _. apply item_done_ok. exact H.
    + destruct st as [|[| | | | | |] st]; try exact DF. apply item_done_ok. exact H.
    + destruct st as [|[| | | | | |] st]; try exact DF. destruct st as [|[| | | | |m|] st]; try exact DF.
      destruct st as [|[| | | | | |] st]; try exact DF.
      rewrite !stack_refs_cons in H. cbn [slot_refs app] in H.
      eapply (r_conc _ NoAny _ _ _ H n m l _ _ (stack_refs st ++ L)); [perm|]. clear H DF. intros l' h1 H. apply item_done_ok. exact H.
Qed.

(** ** The lexer *)
Definition lexer_refs (l : hlexer) : list N := stack_refs (hstack l) ++ got l ++ spilt l.
Lemma consume_refs : forall l b, cnt b (lexer_refs (hconsume l)) = cnt b (lexer_refs l).
Proof.
  intros [d st g s] b. unfold hconsume, lexer_refs. cbn [hdepth hstack got spilt]. destruct d; [|reflexivity].
  assert (DF : cnt b (stack_refs [] ++ g ++ s ++ stack_refs st) = cnt b (stack_refs st ++ g ++ s)) by (rewrite !cnt_app; cbn; lia).
  destruct st as [|[| | | | |l|l] [|e r]]; try exact DF.
  cbn [hstack got spilt stack_refs flat_map slot_refs app]. rewrite !cnt_app. cbn [cnt]. rewrite !cnt_app. cbn [cnt]. lia.
Qed.
Lemma push_ok : forall t l h0 h L, at_ h0 h (lexer_refs l ++ L) ->
  wp (hpush_tok allowed opened pwd n t l) (fun l' h' => at_ h0 h' (lexer_refs l' ++ L) /\ hdepth l' = hdepth l) h.
Proof.
  intros t l h0 h L H. unfold hpush_tok, lexer_refs in *. apply wp_bind. rewrite <- app_assoc in H.
  eapply wp_mono; [apply feed_ok; exact H|]. intros st h1 H1. apply wp_done. cbn [hstack got spilt hdepth]. rewrite <- app_assoc. auto.
Qed.
Lemma value_ok : forall t l h0 h L, at_ h0 h (lexer_refs l ++ L) ->
  wp (hvalue_tok allowed opened pwd n t l) (fun l' h' => at_ h0 h' (lexer_refs l' ++ L)) h.
Proof.
  intros t l h0 h L H. apply wp_bind. eapply wp_mono; [apply push_ok; exact H|]. intros l' h1 [H1 _]. apply wp_done.
  eapply at_perm; [exact H1|]. intro b. rewrite !cnt_app, consume_refs. reflexivity.
Qed.
Lemma open_ok : forall l h0 h L, at_ h0 h (lexer_refs l ++ L) ->
  wp (hopen_tok allowed opened pwd n l) (fun l' h' => at_ h0 h' (lexer_refs l' ++ L)) h.
Proof.
  intros l h0 h L H. apply wp_bind. eapply wp_mono; [apply push_ok; exact H|]. intros l' h1 [H1 _]. apply wp_done. exact H1.
Qed.
Definition reads_on (l : hlexer) (h0 : heap) (L : list N) (o : option hlexer) (h' : heap) : Prop :=
  at_ h0 h' (lexer_refs (match o with Some l' => l' | None => l end) ++ L).
Lemma act_ok : forall k s l h0 h L, at_ h0 h (lexer_refs l ++ L) ->
  wp (hact allowed opened pwd n k s l) (reads_on l h0 L) h.
Proof.
  intros k s l h0 h L H.
  assert (SV : forall t, wp (l' <- hvalue_tok allowed opened pwd n t l ;; done (Some l')) (reads_on l h0 L) h).
  { intro t. apply wp_bind. eapply wp_mono; [apply value_ok; exact H|]. intros l' h1 H1. exact H1. }
  assert (AF : forall t f, (forall l1 h1, at_ h0 h1 (lexer_refs l1 ++ L) -> wp (f l1) (fun l' h' => at_ h0 h' (lexer_refs l' ++ L)) h1) ->
    wp (l' <- hpush_tok allowed opened pwd n t l ;; l'' <- f l' ;; done (Some l'')) (reads_on l h0 L) h).
  { intros t f F. apply wp_bind. eapply wp_mono; [apply push_ok; exact H|]. intros l1 h1 [H1 _]. cbv beta.
    apply wp_bind. eapply wp_mono; [apply F; exact H1|]. intros l2 h2 H2. exact H2. }
  destruct k; cbn [hact]; try (apply SV); try (apply AF; intros l1 h1 H1; first [apply open_ok; exact H1 | apply value_ok; exact H1]);
    try (apply wp_done; exact H).
  - apply wp_bind. eapply wp_mono; [apply open_ok; exact H|]. intros l' h1 H1. exact H1.
  - destruct (hdepth l); [apply wp_done; exact H|]. apply wp_bind. eapply wp_mono; [apply push_ok; exact H|]. intros l' h1 [H1 _].
    apply wp_done. unfold reads_on. eapply at_perm; [exact H1|]. intro b. rewrite !cnt_app, consume_refs. reflexivity.
  - apply wp_bind. eapply wp_mono; [apply push_ok; exact H|]. intros l' h1 [H1 _]. exact H1.
Qed.
Lemma lex_ok : forall f s l h0 h L, at_ h0 h (lexer_refs l ++ L) ->
  wp (hlex allowed opened pwd n f s l) (fun o h' => at_ h0 h' (lexer_refs (fst o) ++ L)) h.
Proof.
  induction f as [|f IH]; intros s l h0 h L H; destruct s as [|c s]; cbn [hlex]; try (apply wp_done; exact H); [apply wp_dry|].
  destruct (scan_token (c :: s)) as [k j| |]; try (apply wp_done; exact H).
  apply wp_bind. eapply wp_mono; [apply act_ok; exact H|]. intros [l'|] h1 H1; cbv beta; unfold reads_on in H1.
  - apply IH. exact H1.
  - apply wp_done. exact H1.
Qed.
Lemma parse_ok : forall s l h0 h L, at_ h0 h (lexer_refs l ++ L) ->
  wp (hlexer_parse allowed opened pwd n s l) (fun o h' => at_ h0 h' (lexer_refs (fst o) ++ L)) h.
Proof. intros s. apply lex_ok. Qed.
End Safe.
