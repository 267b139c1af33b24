(** * Properties16: command lines (C93).

    [ready2], [ready3]: the names used by args.l have the values they have once the files
    are loaded. *)
From Verif Require Import Base Value ValueSpec ValueProofs Tails Parser PrintSpec Print Eval Sexp EvalSpec EvalProofs
  Sem1 Sem2 Sem3 Sem4 Sem5 TailsProofs TailsSem BuiltinSpec Sem6 Cases Lib LibSpec LibBase LibProofs LibDerived LibMore LibAssoc
  LibCases LibSort Lib2 Lib2Spec Lib2Proofs Properties12 Lib3 Lib3Spec Lib3Term Lib3Assert Lib3Run Lib3Args Properties15.
Open Scope nat_scope.
Open Scope list_scope.

Lemma skip_values4 : map (fun s => env_get (globals library4) (sy s)) given2 = map (fun s => Some (lib2 s)) given2.
Proof. vm_compute. reflexivity. Qed.
Lemma ready2_scope4 : forall c w, globals w = globals library4 -> avoids c (used ++ given) = true -> avoids c given2 = true -> ready2 c w.
Proof.
  intros c w E H1 H2. split; intros s I.
  - apply (avoids_means c w (used ++ given) s (lib s) H1 I). rewrite E. exact (in_maps _ _ _ _ _ s same_values4 I).
  - apply (avoids_means c w given2 s (lib2 s) H2 I). rewrite E. exact (in_maps _ _ _ _ _ s skip_values4 I).
Qed.

(** ** C93: args:parse *)
(** For handlers that end without a call of themselves in tail position (the condition
    [called] of [parses]): they are called in the order of the flags, each on as many
    arguments as it has parameters; the value is the list of the flags, the last one first,
    or NIL after a message at a flag that is unknown or has too few arguments. *)
Theorem C93_parse_partial : forall O c schema p l w r w', increasing c -> ready2 c w -> ready3 c w ->
  Forall (fun q : atom * atom => is_tail_call (fst q) = false /\ is_tail_call (snd q) = false) schema ->
  Forall is_bytes l -> int64 (Z.of_nat (length l)) -> means c w (sy "ARGV") (Cons p (mk_list (map txt l))) ->
  parses O c schema l [] w r w' ->
  applied O c (lib4 "args:parse") [alist schema] w (Ret r w').
Proof.
  intros O c schema p l w r w' I R2 R3 Q FB LB MA H.
  apply (args_parse_ok O c schema Q c p l w r w' I (apart_refl _ c) H FB LB R2 R3 MA).
Qed.
Print Assumptions C93_parse_partial.

(** A handler written as a function in the schema: it is enough that its body gives [b]
    with the arguments bound to the parameters. *)
Theorem C93_handler : forall O c hs body vs w b w1, body <> [] -> length vs = length hs -> is_tail_call b = false ->
  mark_body (sy "fun") (pars hs) (mk_list body) = Some (mk_list body) ->
  ready c w ->
  (forall S', increasing S' -> (forall k, (forall s, In s parser_hid -> k <> sy s) -> (forall s, In s hs -> k <> sy s) ->
       env_get S' k = env_get c k) ->
     (forall k v, env_get (combine (map sy hs) (map txt vs)) k = Some v -> env_get S' k = Some v) ->
     runs_body O S' body Nil w (Ret b w1)) ->
  forall S, increasing S -> apart parser_hid c S -> exists f,
    handler O c (Pair false (sym "\") (Cons (pars hs) (mk_list body))) (length vs) w f S /\
    forall S', increasing S' -> apart parser_hid c S' -> called O S' f (map txt vs) w (Ret b w1).
Proof.
  intros O c hs body vs w b w1 NB L Q MK R H S I AP. exists (lam (pars hs) S body). split.
  - assert (RS : ready S w) by (eapply ready_apart; [exact AP|reflexivity|exact R]).
    split; [apply f_lambda; exact RS|]. split.
    + right. exact MK.
    + exists (names (map sy hs)). eexists. split; [reflexivity|]. unfold names. rewrite !map_length. auto.
  - intros S2 I2 AP2 t h es w0 w2 Qh EH ES.
    eapply (head_fun O S2 t h hs S body es (map txt vs) w0 w2 w); [auto|apply increasing_NoDup; auto|auto|exact Qh| |exact Q|exact EH|exact ES|].
    + rewrite map_length. auto.
    + intros S' [I' G]. apply H; [exact I'| |].
      * intros k N1 N2. rewrite G. cbn [lget]. rewrite combine_none by auto.
        rewrite apart_get in AP, AP2. rewrite (AP k N1), (AP2 k N1). destruct (env_get c k); auto.
      * intros k v E. rewrite G. cbn [lget]. rewrite E. auto.
Qed.
Print Assumptions C93_handler.

(** The value is NIL for no arguments as for a wrong one; a handler that calls itself in
    tail position stops before its second turn; a handler sees the names of the parser. *)
Definition argv (l : list string) : env := [(sy "ARGV", mk_list (map (fun s => mk_list (text s)) l))].
Theorem C93_refuted :
  (exists w w', runs yes (argv ["p"]) (source "(args:parse '((""-v"" . (\ () T))))") library4 (Ret Nil w) /\
     runs yes (argv ["p"; "-v"; "-x"]) (source "(args:parse '((""-v"" . (\ () T))))") library4 (Ret Nil w') /\
     concat (rev (map snd (outs w'))) = bs "Unknown flag: -x" ++ [10%N]) /\
  (exists w', runs yes (argv ["p"; "-s"; "ab"])
       (source "(prog (def spell (x) (if (nil? x) (prin ""end"") (prog (prin (car x)) (spell (cdr x))))) (args:parse '((""-s"" . spell))))")
       library4 (Ret (source "(""-s"")") w') /\
     concat (rev (map snd (outs w'))) = bs "a") /\
  (exists w', runs yes (argv ["p"; "ab"])
       (source "(prog (def spell (x) (if (nil? x) (prin ""end"") (prog (prin (car x)) (spell (cdr x))))) (spell (car (cdr ARGV))))")
       library4 (Ret (source """end""") w') /\
     concat (rev (map snd (outs w'))) = bs "abend") /\
  (exists w', let c := argv ["p"; "-v"] ++ [(sy "RES", mk_list (text "mine"))] in
     runs yes c (source "(nil? RES)") library4 (Ret Nil library4) /\
     runs yes c (source "(args:parse '((""-v"" . (\ () (prin (nil? RES))))))") library4 (Ret (source "(""-v"")") w') /\
     concat (rev (map snd (outs w'))) = bs "T").
Proof.
  split; [|split; [|split]].
  - eexists. eexists. split; [computed|split; [computed|vm_compute; reflexivity]].
  - eexists. split; [computed|vm_compute; reflexivity].
  - eexists. split; [computed|vm_compute; reflexivity].
  - eexists. split; [computed|]. split; [computed|vm_compute; reflexivity].
Qed.
Print Assumptions C93_refuted.

(** -p text writes the text, -v writes "v". *)
Definition p_body : list atom := [Cons (sym "prin") (mk_list [sym "x"])].
Definition v_body : list atom := [Cons (sym "prin") (mk_list [mk_list (text "v")])].
Definition small_schema : list (atom * atom) :=
  [(txt (bs "-p"), Pair false (sym "\") (Cons (pars ["x"]%string) (mk_list p_body)));
   (txt (bs "-v"), Pair false (sym "\") (Cons (pars []) (mk_list v_body)))].
Definition small_argv : env := argv ["prog"; "-p"; "hi"; "-v"].
Lemma small_ready : forall w, globals w = globals library4 -> ready2 small_argv w /\ ready3 small_argv w.
Proof.
  intros w E. split; [apply ready2_scope4; [exact E|vm_compute; reflexivity|vm_compute; reflexivity]|].
  apply ready3_scope; [exact E|vm_compute; reflexivity|vm_compute; reflexivity].
Qed.
Lemma ready3_beside : forall S' hs w, (forall k, (forall s, In s parser_hid -> k <> sy s) -> (forall s, In s hs -> k <> sy s) ->
  env_get S' k = env_get small_argv k) -> clear_of (parser_hid ++ hs) names3 = true -> ready3 small_argv w -> ready3 S' w.
Proof.
  intros S' hs w G C R. eapply (ready3_apart (parser_hid ++ hs)); [|exact C|exact R]. apply apart_get.
  intros k N. apply G; intros s J; apply N; apply in_or_app; auto.
Qed.
Lemma prin_value : forall S x t w w1, ready3 S w -> runs yes S x w (Ret (txt t) w) -> is_bytes t -> sent t w w1 ->
  runs_body yes S [Cons (sym "prin") (mk_list [x])] Nil w (Ret (txt t) w1).
Proof.
  intros S x t w w1 R E B SA. apply body_one.
  eapply print_runs; [apply pr_prin|known3|eapply writes_last; [exact E|apply chars_leaf; exact B|exact SA]|reflexivity].
Qed.
Lemma small_parses : forall w, globals w = globals library4 -> hd_error (ochan w) = Some 1%N ->
  exists w1 w2, sent (bs "hi") w w1 /\ sent (bs "v") w1 w2 /\
    parses yes small_argv small_schema [bs "-p"; bs "hi"; bs "-v"] [] w (mk_list (map txt [bs "-v"; bs "-p"])) w2.
Proof.
  intros w E H. destruct (sent_exists (bs "hi") w _ H) as (w1 & S1 & G1 & C1).
  destruct (sent_exists (bs "v") w1 1%N) as (w2 & S2 & G2 & C2); [congruence|]. exists w1, w2. split; [exact S1|]. split; [exact S2|].
  apply (parses_flag yes small_argv small_schema (bs "-p") [bs "hi"] [bs "-v"] [] (snd (nth 0 small_schema (Nil, Nil))) w (txt (bs "hi")) w1).
  - apply finds_here. apply equ_same. reflexivity.
  - apply (C93_handler yes small_argv ["x"]%string p_body [bs "hi"] w (txt (bs "hi")) w1); try reflexivity; [discriminate|apply (small_ready w E)|].
    intros S' I' G V. apply prin_value; [eapply ready3_beside; [exact G|reflexivity|apply (small_ready w E)]| |plain|exact S1].
    apply get_sym. apply V. reflexivity.
  - apply small_ready; congruence.
  - apply small_ready; congruence.
  - apply (parses_flag yes small_argv small_schema (bs "-v") [] [] [bs "-p"] (snd (nth 1 small_schema (Nil, Nil))) w1 (txt (bs "v")) w2).
    + apply finds_later; [intro X; apply equ_same in X; discriminate X|]. apply finds_here. apply equ_same. reflexivity.
    + apply (C93_handler yes small_argv [] v_body [] w1 (txt (bs "v")) w2); try reflexivity; [discriminate|apply small_ready; congruence|].
      intros S' I' G V. apply prin_value; [eapply ready3_beside; [exact G|reflexivity|apply small_ready; congruence]| |plain|exact S2].
      apply (text_runs yes S' "v"). discriminate.
    + apply small_ready; congruence.
    + apply small_ready; congruence.
    + apply parses_end.
Qed.
Example C93_example :
  increasing small_argv /\ ready2 small_argv library4 /\ ready3 small_argv library4 /\
  Forall (fun q : atom * atom => is_tail_call (fst q) = false /\ is_tail_call (snd q) = false) small_schema /\
  Forall is_bytes [bs "-p"; bs "hi"; bs "-v"] /\
  means small_argv library4 (sy "ARGV") (Cons (txt (bs "prog")) (mk_list (map txt [bs "-p"; bs "hi"; bs "-v"]))) /\
  (exists w1 w2, sent (bs "hi") library4 w1 /\ sent (bs "v") w1 w2 /\
     parses yes small_argv small_schema [bs "-p"; bs "hi"; bs "-v"] [] library4 (mk_list (map txt [bs "-v"; bs "-p"])) w2) /\
  alist small_schema = source "((""-p"" . (\ (x) (prin x))) (""-v"" . (\ () (prin ""v""))))" /\
  (exists w, runs yes small_argv (source "(args:parse '((""-p"" . (\ (x) (prin x))) (""-v"" . (\ () (prin ""v"")))))") library4
      (Ret (source "(""-v"" ""-p"")") w) /\ concat (rev (map snd (outs w))) = bs "hiv") /\
  (exists w, runs yes (argv ["prog"; "-v"; "-p"]) (source "(args:parse '((""-p"" . (\ (x) (prin x))) (""-v"" . (\ () (prin ""v"")))))") library4
      (Ret Nil w) /\ concat (rev (map snd (outs w))) = bs "vNot enough values for flag: -p" ++ [10%N]).
Proof.
  split; [repeat constructor|]. destruct (small_ready library4 eq_refl) as [R2 R3]. split; [exact R2|]. split; [exact R3|].
  split; [repeat constructor|]. split; [repeat constructor; cbn; lia|]. split; [apply means_get; vm_compute; reflexivity|].
  split; [exact (small_parses library4 eq_refl library4_out)|]. split; [vm_compute; reflexivity|].
  split; eexists; (split; [computed|vm_compute; reflexivity]).
Qed.
