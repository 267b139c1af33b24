(** * Lib3Assert: printing in library code, assert:equal and assert:predicate. *)
From Verif Require Import Base Value ValueSpec ValueProofs Tails PrintSpec Print Eval EvalSpec EvalProofs
  Sem1 Sem2 Sem3 Sem4 Sem5 TailsProofs TailsSem BuiltinSpec Sem6 Cases Lib LibSpec LibBase LibProofs LibDerived LibMore LibAssoc
  LibCases LibSort Lib2Proofs Lib3 Lib3Spec Lib3Term.
Open Scope nat_scope.

(** ** The definitions, as stored *)
Notation complain l1 x1 l2 x2 :=
  (Cons (sym "prog") (mk_list
    [Cons (sym "prinl") (mk_list [(| sym "term:red"; mk_list (text "> FAILED ") |)]);
     Cons (sym "prin") (mk_list [mk_list (text "! "); (| sym "term:underlined"; mk_list (text l1) |); mk_list (text ": ")]);
     Cons (sym "printl") (mk_list [x1]);
     Cons (sym "prin") (mk_list [mk_list (text "! "); (| sym "term:underlined"; mk_list (text l2) |); mk_list (text ": ")]);
     Cons (sym "printl") (mk_list [x2]); Nil])).
Notation assert_let rest x :=
  (Cons (sym "let") (Cons (bindings (map (fun p => (sym (fst p), snd p))
     [("OP"%string, (| sym "car"; rest |)); ("EVAL"%string, (| sym "eval"; sym "OP" |))])) (mk_list [x]))).
Notation equal_in := (| sym "if"; (| sym "="; sym "EXPECT"; sym "EVAL" |); Tru; complain "Expect" (sym "EXPECT") "Actual" (sym "EVAL") |).
Lemma lib4_equal : lib4 "assert:equal" = lam (arg_list [sym "EXPECT"] (sym "ACTUAL")) [] [assert_let (sym "ACTUAL") equal_in].
Proof. vm_compute. reflexivity. Qed.
Notation predicate_in := (| sym "if"; (| sym "PREDICATE"; sym "EVAL" |); Tru; complain "Predicate" (sym "PREDICATE") "Value" (sym "EVAL") |).
Lemma lib4_predicate : lib4 "assert:predicate" = lam (arg_list [sym "PREDICATE"] (sym "VALUE")) [] [assert_let (sym "VALUE") predicate_in].
Proof. vm_compute. reflexivity. Qed.

(** ** Output *)
Lemma sent_exists : forall t w h, hd_error (ochan w) = Some h ->
  exists w', sent t w w' /\ globals w' = globals w /\ ochan w' = ochan w.
Proof.
  intros t w h H. exists (mkw (globals w) ((h, t) :: outs w) (ichan w) (ochan w) (opens w)).
  split; auto. exists h. repeat split; auto.
Qed.
Lemma says_exists : forall l w h, hd_error (ochan w) = Some h ->
  exists w', says l w w' /\ globals w' = globals w /\ ochan w' = ochan w.
Proof.
  induction l as [|t l IH]; intros w h H; [exists w; split; [constructor|auto]|].
  destruct (sent_exists t w h H) as (w1 & S1 & G1 & C1).
  destruct (IH w1 h) as (w2 & S2 & G2 & C2); [congruence|].
  exists w2. split; [econstructor; eauto|]. split; congruence.
Qed.
Lemma says_keeps : forall l w w', says l w w' -> globals w' = globals w /\ ochan w' = ochan w.
Proof.
  intros l w w' H. induction H as [|t l w w1 w2 [h S] H [IH1 IH2]]; auto. split; [rewrite IH1|rewrite IH2]; apply S.
Qed.
Lemma says_app : forall a b w w', says (a ++ b) w w' <-> exists w1, says a w w1 /\ says b w1 w'.
Proof.
  induction a as [|t a IH]; intros b w w'; cbn [app].
  - split; [exists w; split; [constructor|auto]|intros [w1 [A B]]; inversion A; subst; auto].
  - split.
    + intro H. inversion H; subst. apply IH in H5. destruct H5 as [w2 [A B]]. exists w2. split; auto. econstructor; eauto.
    + intros [w1 [A B]]. inversion A; subst. econstructor; [eauto|]. apply IH. eauto.
Qed.
Lemma means_world : forall c w w' k v, globals w' = globals w -> means c w k v -> means c w' k v.
Proof.
  intros c w w' k v E H. apply means_lookup. apply means_lookup in H. unfold lookup in *. rewrite E. injection H as ->. reflexivity.
Qed.
Lemma ready_world : forall c w w', globals w' = globals w -> ready c w -> ready c w'.
Proof. intros c w w' E R s I. exact (means_world c w w' _ _ E (R s I)). Qed.
Lemma ready3_world : forall c w w', globals w' = globals w -> ready3 c w -> ready3 c w'.
Proof. intros c w w' E [R G]. split; [eapply ready_world; eauto|]. intros s I. exact (means_world c w w' _ _ E (G s I)). Qed.
Lemma ready3_says : forall c l w w', says l w w' -> ready3 c w -> ready3 c w'.
Proof. intros c l w w' H. apply ready3_world. apply says_keeps in H. tauto. Qed.

(** What a string is written as. *)
Definition is_bytes (t : bytes) : Prop := Forall (fun b => (b < 256)%N) t.
Lemma chars_leaf : forall t, is_bytes t -> leaf_text (mk_list (chars t)) t.
Proof.
  intros t H. unfold leaf_text. induction H as [|b t H _ (IH1 & IH2 & IH3)].
  - repeat split; constructor.
  - assert (B : (-128 <= schar b < 128)%Z) by (unfold schar; destruct (Z.ltb_spec (Z.of_N b) 128); lia).
    split; [|split].
    + cbn [chars map mk_list c_value]. auto.
    + cbn [chars map mk_list]. cbn [no_nil_element]. repeat split; auto; discriminate.
    + cbn [chars map mk_list]. change (b :: t) with ([b] ++ t). constructor; [|exact IH3].
      replace [b] with [Z.to_N (schar b mod 256)]; [constructor|]. f_equal. unfold schar.
      destruct (Z.ltb_spec (Z.of_N b) 128).
      * rewrite Z.mod_small by lia. lia.
      * replace (Z.of_N b - 256)%Z with (Z.of_N b + (-1) * 256)%Z by lia. rewrite Z.mod_add by lia. rewrite Z.mod_small by lia. lia.
Qed.
Lemma chars_app : forall a b, chars (a ++ b) = chars a ++ chars b.
Proof. intros. apply map_app. Qed.
Lemma chars_esc : forall code t, chars (escaped code t) = esc (text code) (chars t).
Proof. intros code t. unfold escaped, esc. rewrite !chars_app. reflexivity. Qed.
Lemma escaped_bytes : forall code t, is_bytes (bs code) -> is_bytes t -> is_bytes (escaped code t).
Proof.
  intros code t A B. unfold escaped, is_bytes. repeat (apply Forall_app; split); auto; repeat constructor; lia.
Qed.
Definition bytesb (t : bytes) : bool := forallb (fun b => (b <? 256)%N) t.
Lemma bytesb_ok : forall t, bytesb t = true -> is_bytes t.
Proof. intros t H. apply Forall_forall. intros b I. unfold bytesb in H. rewrite forallb_forall in H. apply N.ltb_lt; auto. Qed.
Ltac plain := apply bytesb_ok; vm_compute; reflexivity.

Section Assert.
Variable O : oracle.
Notation Runs := (runs O).

(** A piece of a message: the expression gives a string. *)
Lemma writes_one : forall c sep x r w t w' (T : atom -> bytes -> Prop) v, Runs c x w (Ret v w) -> T v t -> sent t w w' ->
  writes O c T sep [x] r w v w'.
Proof. intros. eapply writes_last; eauto. Qed.
Inductive pieces (c : env) : list atom -> world -> list bytes -> world -> Prop :=
| pieces_one : forall x w t w1, Runs c x w (Ret (mk_list (chars t)) w) -> is_bytes t -> sent t w w1 ->
    pieces c [x] w [t] w1
| pieces_more : forall x y l w t ts w1 w2, Runs c x w (Ret (mk_list (chars t)) w) -> is_bytes t -> sent t w w1 ->
    pieces c (y :: l) w1 ts w2 -> pieces c (x :: y :: l) w (t :: ts) w2.
Lemma pieces_write : forall c es w ts w', pieces c es w ts w' -> forall r, exists v, writes O c leaf_text None es r w v w'.
Proof.
  intros c es w ts w' H. induction H as [x w t w1 E B S|x y l w t ts w1 w2 E B S H IH]; intros r.
  - eexists. eapply writes_last; eauto using chars_leaf.
  - destruct (IH (mk_list (chars t))) as [v W]. exists v. eapply writes_next; eauto using chars_leaf.
Qed.
Lemma f_prin : forall c t es w ts w', ready3 c w -> pieces c es w ts w' ->
  exists v, Runs c (Pair t (sym "prin") (mk_list es)) w (Ret v w').
Proof.
  intros c t es w ts w' R H. destruct (pieces_write _ _ _ _ _ H Nil) as [v W]. exists v.
  eapply print_runs; [apply pr_prin|known3|exact W|reflexivity].
Qed.
Lemma f_prinl : forall c t es w ts w1 w', ready3 c w -> pieces c es w ts w1 -> sent [10%N] w1 w' ->
  exists v, Runs c (Pair t (sym "prinl") (mk_list es)) w (Ret v w').
Proof.
  intros c t es w ts w1 w' R H N. destruct (pieces_write _ _ _ _ _ H Nil) as [v W]. exists v.
  eapply print_runs; [apply pr_prinl|known3|exact W|exact N].
Qed.
Lemma f_printl : forall c t x w v b w1 w', ready3 c w -> Runs c x w (Ret v w) -> literal_text v b -> sent b w w1 -> sent [10%N] w1 w' ->
  exists v', Runs c (Pair t (sym "printl") (mk_list [x])) w (Ret v' w').
Proof.
  intros c t x w v b w1 w' R E L S1 S2. eexists.
  eapply print_runs; [apply pr_printl|known3|eapply writes_last; eauto|exact S2].
Qed.
Lemma f_style : forall s code S t x b w, In (s, code) styles -> In ("term:" ++ s)%string given3 -> increasing S -> ready3 S w ->
  Runs S x w (Ret (mk_list (chars b)) w) ->
  Runs S (Pair t (sym ("term:" ++ s)) (mk_list [x])) w (Ret (mk_list (chars (escaped code b))) w).
Proof.
  intros s code S t x b w J G I R E. rewrite chars_esc.
  apply (style_ok O s code S (chars b) w J I R (sy ("term:" ++ s)) t [x] w); [apply ready3_means; auto|apply list1; auto].
Qed.
Lemma f_word : forall S s w, s <> EmptyString -> Runs S (mk_list (text s)) w (Ret (mk_list (chars (bs s))) w).
Proof. intros. apply text_runs. auto. Qed.

Lemma complain_runs : forall S w w' l1 x1 v1 t1 l2 x2 v2 t2, increasing S -> ready3 S w ->
  l1 <> EmptyString -> l2 <> EmptyString -> is_bytes (bs l1) -> is_bytes (bs l2) ->
  (forall w1, globals w1 = globals w -> Runs S x1 w1 (Ret v1 w1)) -> literal_text v1 t1 ->
  (forall w1, globals w1 = globals w -> Runs S x2 w1 (Ret v2 w1)) -> literal_text v2 t2 ->
  says (complaint l1 l2 t1 t2) w w' ->
  Runs S (complain l1 x1 l2 x2) w (Ret Nil w').
Proof.
  intros S w w' l1 x1 v1 t1 l2 x2 v2 t2 I R N1 N2 B1 B2 E1 L1 E2 L2 SA.
  assert (RD : forall l wa, says l w wa -> ready3 S wa /\ globals wa = globals w).
  { intros l wa H. split; [eapply ready3_says; eauto|apply says_keeps in H; tauto]. }
  unfold complaint in SA.
  change [escaped "0;31" (bs "> FAILED "); [10%N]; bs "! "; escaped "4" (bs l1); bs ": "; t1; [10%N];
    bs "! "; escaped "4" (bs l2); bs ": "; t2; [10%N]]
    with ([escaped "0;31" (bs "> FAILED "); [10%N]] ++ [bs "! "; escaped "4" (bs l1); bs ": "] ++ [t1; [10%N]] ++
    [bs "! "; escaped "4" (bs l2); bs ": "] ++ [t2; [10%N]]) in SA.
  apply says_app in SA. destruct SA as [wa [SA SB]]. apply says_app in SB. destruct SB as [wb [SB SC]].
  apply says_app in SC. destruct SC as [wc [SC SD]]. apply says_app in SD. destruct SD as [wd [SD SE]].
  destruct (RD _ _ SA) as [Ra Ga].
  assert (Gb : globals wb = globals w) by (rewrite <- Ga; apply says_keeps in SB; tauto).
  assert (Gc : globals wc = globals w) by (rewrite <- Gb; apply says_keeps in SC; tauto).
  assert (Gd : globals wd = globals w) by (rewrite <- Gc; apply says_keeps in SD; tauto).
  assert (Rb : ready3 S wb) by (eapply ready3_world; eauto). assert (Rc : ready3 S wc) by (eapply ready3_world; eauto).
  assert (Rd : ready3 S wd) by (eapply ready3_world; eauto).
  assert (PR : forall l wx wy, globals wx = globals w -> ready3 S wx -> l <> EmptyString -> is_bytes (bs l) ->
     says [bs "! "; escaped "4" (bs l); bs ": "] wx wy ->
     exists v, Runs S (Cons (sym "prin") (mk_list [mk_list (text "! "); (| sym "term:underlined"; mk_list (text l) |); mk_list (text ": ")])) wx (Ret v wy)).
  { clear - I. intros l wx wy Gx Rx Nl Bl SY. inversion SY as [|? ? ? w1 ? S1 SY1]; subst. inversion SY1 as [|? ? ? w2 ? S2 SY2]; subst.
    inversion SY2 as [|? ? ? w3 ? S3 SY3]; subst. inversion SY3; subst.
    assert (R1 : ready3 S w1) by (eapply ready3_says; [econstructor; [exact S1|constructor]|auto]).
    eapply f_prin; [auto|]. eapply pieces_more; [apply f_word; discriminate|plain|exact S1|].
    eapply pieces_more with (t := escaped "4" (bs l)); [|apply escaped_bytes; [plain|exact Bl]|exact S2|].
    - apply (f_style "underlined" "4" S false); [cbn; tauto|cbn; tauto|auto|auto|apply f_word; auto].
    - eapply pieces_one; [apply f_word; discriminate|plain|exact S3]. }
  assert (PL : forall x v t wx wy, ready3 S wx -> Runs S x wx (Ret v wx) -> literal_text v t -> says [t; [10%N]] wx wy ->
     exists v', Runs S (Cons (sym "printl") (mk_list [x])) wx (Ret v' wy)).
  { clear. intros x v t wx wy Rx E L SY. inversion SY as [|? ? ? w1 ? S1 SY1]; subst. inversion SY1 as [|? ? ? w2 ? S2 SY2]; subst.
    inversion SY2; subst. eapply f_printl; eauto. }
  apply prog_runs; [known3|].
  assert (P1 : exists v, Runs S (Cons (sym "prinl") (mk_list [(| sym "term:red"; mk_list (text "> FAILED ") |)])) w (Ret v wa)).
  { inversion SA as [|? ? ? w1 ? S1 SY1]; subst. inversion SY1 as [|? ? ? w2 ? S2 SY2]; subst. inversion SY2; subst.
    eapply f_prinl; [auto| |exact S2]. eapply pieces_one with (t := escaped "0;31" (bs "> FAILED ")); [|apply escaped_bytes; plain|exact S1].
    apply (f_style "red" "0;31" S false); [cbn; tauto|cbn; tauto|auto|auto|apply f_word; discriminate]. }
  destruct P1 as [u1 P1]. destruct (PR l1 wa wb Ga Ra N1 B1 SB) as [u2 P2].
  destruct (PL x1 v1 t1 wb wc Rb (E1 _ Gb) L1 SC) as [u3 P3].
  destruct (PR l2 wc wd Gc Rc N2 B2 SD) as [u4 P4].
  destruct (PL x2 v2 t2 wd w' Rd (E2 _ Gd) L2 SE) as [u5 P5].
  econstructor; [exact P1|]. econstructor; [exact P2|]. econstructor; [exact P3|]. econstructor; [exact P4|].
  econstructor; [exact P5|]. econstructor; [apply f_const; auto|]. constructor.
Qed.

(** The two bindings and the rest. *)
Lemma assert_runs : forall first rest (x : atom) S t h e ex v1 v w0 w1 w2 r w3,
  In (first, rest) [("EXPECT", "ACTUAL"); ("PREDICATE", "VALUE")]%string ->
  means S w0 h (lam (arg_list [sym first] (sym rest)) [] [assert_let (sym rest) x]) -> increasing S ->
  Runs S e w0 (Ret v1 w1) -> ready3 S w1 -> gives O S [first; rest; "OP"%string] ex w1 v w2 -> ready3 S w2 ->
  kept "OP" ex -> kept "EVAL" v -> is_tail_call r = false ->
  (forall S', increasing S' -> apart [first; rest; "OP"; "EVAL"]%string S S' -> ready3 S' w2 ->
     env_get S' (sy first) = Some v1 -> env_get S' (sy "EVAL") = Some v -> Runs S' x w2 (Ret r w3)) ->
  Runs S (Pair t (Symb h) (mk_list [e; ex])) w0 (Ret r w3).
Proof.
  intros first rest x S t h e ex v1 v w0 w1 w2 r w3 J M I E R1 EX R2 K1 K2 Q H.
  change (mk_list [e; ex]) with (arg_list [e] (mk_list [ex])).
  eapply (call_any O S t h [sym first] (sym rest) [] [assert_let (sym rest) x] [e] (mk_list [ex]) [v1] w0 w1);
    [exact M|auto|constructor|discriminate|repeat constructor; apply linear_sym|reflexivity|apply list1; exact E| | |exact Q|].
  { constructor; [apply layer_bind, linear_sym|constructor]. }
  { apply rest_some. }
  intros S1 I1 G1. apply body_one. cbn [bind app lget env_get] in G1.
  assert (D : sym_match (sy first) (sy rest) = false /\ sym_match (sy rest) (sy first) = false /\
    clear_of [first; rest; "OP"; "EVAL"]%string names3 = true /\ clear_of ["OP"; "EVAL"]%string [first; rest] = true).
  { cbn [In] in J. destruct J as [J|[J|[]]]; injection J as <- <-; repeat split; reflexivity. }
  destruct D as [D1 [D2 [D3 D4]]].
  assert (IN1 : inside [first; rest] [v1; mk_list [ex]] [] S S1).
  { split; auto. intro k. rewrite G1. cbn [map combine lget env_get].
    destruct (sym_match (sy first) k); auto. }
  assert (AP1 := inside_apart _ _ _ _ IN1).
  assert (AT : forall ks vs S2, incl ks ["OP"; "EVAL"]%string -> inside ks vs [] S1 S2 -> apart [first; rest; "OP"; "EVAL"]%string S S2).
  { intros ks vs S2 IK IN2. eapply apart_trans; [eapply apart_incl; [|exact AP1]|eapply apart_incl; [|apply (inside_apart _ _ _ _ IN2)]].
    - intros s K. cbn in K |- *. tauto.
    - intros s K. apply IK in K. cbn in K |- *. tauto. }
  assert (GR : env_get S1 (sy rest) = Some (mk_list [ex])).
  { rewrite G1. cbn [env_get]. rewrite D1, sym_match_refl. reflexivity. }
  assert (GF : env_get S1 (sy first) = Some v1) by (rewrite G1; cbn [env_get]; rewrite sym_match_refl; reflexivity).
  assert (C1 : clear_of [first; rest] names3 = true).
  { cbn [In] in J. destruct J as [J|[J|[]]]; injection J as <- <-; reflexivity. }
  assert (RS1 : ready3 S1 w1) by (eapply ready3_apart; [exact AP1|exact C1|auto]).
  assert (NO : forall ks, incl ks ["OP"; "EVAL"]%string -> forall s, In s ks -> sy first <> sy s /\ sy rest <> sy s).
  { intros ks IK s K. apply IK in K. split; apply (clear_not _ _ _ _ D4); auto; cbn; tauto. }
  apply (f_let O S1 false [("OP"%string, (| sym "car"; sym rest |)); ("EVAL"%string, (| sym "eval"; sym "OP" |))] [x] w1 [ex; v] w2);
    [auto|apply RS1| |].
  - eapply lets_cons with (v := ex) (w1 := w1); [intros S2 IN2|exact K1|eapply lets_cons with (v := v) (w1 := w2); [intros S2 IN2|exact K2|constructor]].
    + assert (RS2 : ready S2 w1) by (eapply ready3_apart; [eapply (AT [] []); [intros s []|exact IN2]|exact D3|auto]).
      change ex with (val1 "car" (mk_list [ex])). one "car"%string. apply f_sym, means_get.
      assert (A2 := inside_apart _ _ _ _ IN2). rewrite apart_get in A2. rewrite A2; auto.
    + assert (RS2 : ready S2 w1).
      { eapply ready3_apart; [eapply (AT _ _ S2); [|exact IN2]; intros s; cbn; tauto|exact D3|auto]. }
      apply eval_runs; [known|]. left. exists ex, w1. split.
      * apply f_sym, means_get. eapply inside_get; [exact IN2|reflexivity].
      * apply EX; [apply IN2|]. eapply apart_trans; [eapply apart_incl; [|exact AP1]|eapply apart_incl; [|apply (inside_apart _ _ _ _ IN2)]].
        -- intros s K. cbn in K |- *. tauto.
        -- intros s K. cbn in K |- *. tauto.
  - intros S2 IN2. apply body_one.
    assert (A2 : apart [first; rest; "OP"; "EVAL"]%string S S2) by (eapply (AT _ _ S2); [|exact IN2]; intros s; cbn; tauto).
    apply H; auto.
    + apply IN2.
    + eapply ready3_apart; [exact A2|exact D3|auto].
    + assert (A3 := inside_apart _ _ _ _ IN2). rewrite apart_get in A3. rewrite A3; auto.
      intros s K. apply (NO ["OP"; "EVAL"]%string (fun _ x => x) s). exact K.
    + eapply inside_get; [exact IN2|reflexivity].
Qed.

Lemma get_sym : forall S k v w, env_get S k = Some v -> Runs S (Symb k) w (Ret v w).
Proof. intros. apply f_sym, means_get. auto. Qed.

Lemma assert_equal_holds : forall S t e ex v1 v w0 w1 w2, means S w0 (sy "assert:equal") (lib4 "assert:equal") -> increasing S ->
  Runs S e w0 (Ret v1 w1) -> ready3 S w1 -> gives O S equal_hid ex w1 v w2 -> ready3 S w2 ->
  kept "OP" ex -> kept "EVAL" v -> same v1 v ->
  Runs S (Pair t (sym "assert:equal") (mk_list [e; ex])) w0 (Ret Tru w2).
Proof.
  intros S t e ex v1 v w0 w1 w2 M I E R1 EX R2 K1 K2 SM. rewrite lib4_equal in M.
  eapply (assert_runs "EXPECT" "ACTUAL" equal_in); eauto; [cbn; tauto|].
  intros S' I' AP R' G1 G2. assert (R0 : ready S' w2) by apply R'.
  eapply f_if; [auto|two "="%string; apply get_sym; eauto|].
  apply equ_same in SM. cbn [val2 String.eqb Ascii.eqb Bool.eqb]. rewrite SM. cbn [truth is_null car]. apply f_const; auto.
Qed.
Lemma assert_equal_fails : forall S t e ex v1 v t1 t2 w0 w1 w2 w3, means S w0 (sy "assert:equal") (lib4 "assert:equal") -> increasing S ->
  Runs S e w0 (Ret v1 w1) -> ready3 S w1 -> gives O S equal_hid ex w1 v w2 -> ready3 S w2 ->
  kept "OP" ex -> kept "EVAL" v -> ~ same v1 v -> literal_text v1 t1 -> literal_text v t2 ->
  says (complaint "Expect" "Actual" t1 t2) w2 w3 ->
  Runs S (Pair t (sym "assert:equal") (mk_list [e; ex])) w0 (Ret Nil w3).
Proof.
  intros S t e ex v1 v t1 t2 w0 w1 w2 w3 M I E R1 EX R2 K1 K2 SM L1 L2 SA. rewrite lib4_equal in M.
  eapply (assert_runs "EXPECT" "ACTUAL" equal_in); eauto; [cbn; tauto|].
  intros S' I' AP R' G1 G2. assert (R0 : ready S' w2) by apply R'.
  eapply f_if; [auto|two "="%string; apply get_sym; eauto|].
  cbn [val2 String.eqb Ascii.eqb Bool.eqb].
  destruct (equ v1 v) eqn:EQ; [apply equ_same in EQ; tauto|]. cbn [truth is_null car cdr].
  eapply (complain_runs S' w2 w3); [auto|auto|discriminate|discriminate|plain|plain|intros; apply get_sym; exact G1|exact L1|intros; apply get_sym; exact G2|exact L2|exact SA].
Qed.
Lemma assert_predicate_holds : forall S t e ex p v b w0 w1 w2 w3, means S w0 (sy "assert:predicate") (lib4 "assert:predicate") -> increasing S ->
  Runs S e w0 (Ret p w1) -> ready3 S w1 -> gives O S predicate_hid ex w1 v w2 -> ready3 S w2 ->
  kept "OP" ex -> kept "EVAL" v -> judges O S p v w2 b w3 -> b <> Nil ->
  Runs S (Pair t (sym "assert:predicate") (mk_list [e; ex])) w0 (Ret Tru w3).
Proof.
  intros S t e ex p v b w0 w1 w2 w3 M I E R1 EX R2 K1 K2 JU NB. rewrite lib4_predicate in M.
  eapply (assert_runs "PREDICATE" "VALUE" predicate_in); eauto; [cbn; tauto|].
  intros S' I' AP R' G1 G2. assert (R0 : ready S' w2) by apply R'.
  eapply f_if with (v := b) (w1 := w3); [auto| |].
  - apply (JU S' I' AP false [sym "EVAL"] w2); [apply means_get; auto|apply list1, get_sym; auto].
  - destruct b; try congruence; cbn [is_null car]; apply f_const; auto.
Qed.
Lemma assert_predicate_fails : forall S t e ex p v t1 t2 w0 w1 w2 w3 w4, means S w0 (sy "assert:predicate") (lib4 "assert:predicate") -> increasing S ->
  Runs S e w0 (Ret p w1) -> ready3 S w1 -> gives O S predicate_hid ex w1 v w2 -> ready3 S w2 -> ready3 S w3 ->
  kept "OP" ex -> kept "EVAL" v -> judges O S p v w2 Nil w3 -> literal_text p t1 -> literal_text v t2 ->
  says (complaint "Predicate" "Value" t1 t2) w3 w4 ->
  Runs S (Pair t (sym "assert:predicate") (mk_list [e; ex])) w0 (Ret Nil w4).
Proof.
  intros S t e ex p v t1 t2 w0 w1 w2 w3 w4 M I E R1 EX R2 R3 K1 K2 JU L1 L2 SA. rewrite lib4_predicate in M.
  eapply (assert_runs "PREDICATE" "VALUE" predicate_in); eauto; [cbn; tauto|].
  intros S' I' AP R' G1 G2. assert (R0 : ready S' w2) by apply R'.
  eapply f_if with (v := Nil) (w1 := w3); [auto| |].
  - apply (JU S' I' AP false [sym "EVAL"] w2); [apply means_get; auto|apply list1, get_sym; auto].
  - cbn [is_null car cdr].
    eapply (complain_runs S' w3 w4); [auto|eapply ready3_apart; [exact AP|reflexivity|auto]|discriminate|discriminate|plain|plain|intros; apply get_sym; exact G1|exact L1|intros; apply get_sym; exact G2|exact L2|exact SA].
Qed.
End Assert.
