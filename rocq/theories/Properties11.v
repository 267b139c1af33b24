(** * Properties C77 to C84: lines, sockets, descriptors, processes, arguments. *)
From Verif Require Import Base Value ValueSpec ValueProofs Path Eval Args ArgsSpec ArgsProofs Unix UnixSpec UnixProofs.
Open Scope Z_scope.

(** Answers for the examples: a returned number, an error number, two stored numbers. *)
Definition ok (n : Z) : reply := mkreply n 0 0 0 [] [] [].
Definition ko (e : Z) : reply := mkreply (-1) e 0 0 [] [] [].
Definition two (n a b : Z) : reply := mkreply n 0 a b [] [] [].
(** Checking texts for the examples. *)
Ltac absent := let I := fresh in intro I; cbn in I; repeat destruct I as [I|I]; try discriminate I; auto.
Lemma c_plain_check : forall l, forallb (fun b => N.ltb b 256 && negb (N.eqb b 0)) l = true -> c_plain l.
Proof.
  intros l F. rewrite forallb_forall in F. split.
  - apply Forall_forall. intros x I. specialize (F x I). apply andb_true_iff in F. apply N.ltb_lt. tauto.
  - intro I. specialize (F _ I). discriminate F.
Qed.
Ltac plain := apply c_plain_check; vm_compute; reflexivity.
(** An evaluator for the examples: constants evaluate to themselves. *)
Definition ev0 (x : atom) : prog atom := Fin x.

Lemma path_room : (200 < PATH_MAX)%nat.
Proof. apply Nat.ltb_lt. vm_compute. reflexivity. Qed.

(** ** C77 *)
(** A text in which every line ends with a newline, without backslashes: each call of
    readline returns the next line, then all return the symbol EOF. *)
Theorem C77_lines_partial : forall ls n, Forall plain_line ls ->
  readlines (length ls + n) (text_of ls) = (map string_of ls ++ repeat (Symb (sy "EOF")) n, []).
Proof.
  intros ls n F. rewrite <- (app_nil_r (text_of ls)). rewrite readlines_text by auto. rewrite readlines_eof. reflexivity.
Qed.
Print Assumptions C77_lines_partial.
(** On any text: the symbol EOF means that nothing is left, and no byte is lost or
    read twice. *)
Theorem C77_end : forall s v r, readline s = (v, r) ->
  (v = Symb (sy "EOF") <-> s = []) /\
  (s <> [] -> exists l, s = l ++ r /\ l <> [] /\ (forall x y, l = x ++ 10%N :: y -> y = [])).
Proof.
  intros s v r E. split; [eapply readline_eof; eauto|]. intro N.
  unfold readline in E. destruct s as [|b s]; [congruence|]. cbn [getline] in E.
  destruct (take_line (b :: s)) as [l r'] eqn:T. injection E as <- <-. exists l.
  split; [apply take_line_app; auto|]. split.
  - intros ->. cbn [take_line] in T. destruct (N.eqb b 10); [discriminate|]. destruct (take_line s); discriminate.
  - intros x y. apply (take_line_one _ _ _ T).
Qed.
Print Assumptions C77_end.
(** The last line without a newline loses its last byte; a backslash is lost. *)
Theorem C77_refuted :
  (exists l, plain_line l /\ fst (readline l) <> string_of l) /\
  (exists l, line l /\ fst (readline (l ++ [10%N])) <> string_of l).
Proof.
  split; [exists (bs "ab")|exists (bs "a\b")].
  - split; [|vm_compute; discriminate]. unfold plain_line, line. ands; [absent|absent|repeat constructor].
  - split; [|vm_compute; discriminate]. unfold line. absent.
Qed.
Print Assumptions C77_refuted.
Example C77_lines_example :
  Forall plain_line [bs "GET / HTTP/1.1"; []; bs "x"] /\
  readlines 4 (text_of [bs "GET / HTTP/1.1"; []; bs "x"]) =
  ([string_of (bs "GET / HTTP/1.1"); Nil; string_of (bs "x"); Symb (sy "EOF")], []).
Proof.
  split; [|vm_compute; reflexivity].
  unfold plain_line, line. repeat constructor; absent.
Qed.
Example C77_end_example : readline (bs "no newline") = (string_of (bs "no newlin"), []).
Proof. vm_compute. reflexivity. Qed.

(** ** C78 *)
(** Whatever the system answers, connect on two texts that fit its buffers returns a
    descriptor if no call failed, the socket made, set up and connected to what the two
    texts resolve to, and NIL otherwise; the descriptors received and not returned have
    been closed, and the addresses freed. *)
Theorem C78_connect_partial : forall a p t e, c_plain a -> c_plain p ->
  (0 < length a < HOST_MAX)%nat -> (0 < length p < HOST_MAX)%nat ->
  plays (connect (string_of a) (string_of p)) t e ->
  (exists c, e = Waits c) \/
  exists v, e = Returns v /\ opened t = closed t ++ carried v /\ granted t = freed t /\
    ((Exists fails t /\ v = Nil) \/ (~ Exists fails t /\ exists fd, v = Num fd /\ connected a p t fd)).
Proof. exact connect_runs. Qed.
Print Assumptions C78_connect_partial.
(** The same for listen, on ports below 65535. *)
Theorem C78_listen_partial : forall p t e, 0 <= p < 65535 -> plays (listen (Num p)) t e ->
  (exists c, e = Waits c) \/
  exists v, e = Returns v /\ opened t = closed t ++ carried v /\
    ((Exists fails t /\ v = Nil) \/ (~ Exists fails t /\ exists fd, v = Num fd /\ listening p t fd)).
Proof. exact listen_runs. Qed.
Print Assumptions C78_listen_partial.
(** accept gives the new descriptor with the address and port of the peer, and NIL when
    there is none. *)
Theorem C78_accept : forall n t v, descriptor n -> plays (accept (Num n)) t (Returns v) ->
  exists r, t = [(Accept n, r)] /\ ((fails (Accept n, r) /\ v = Nil /\ opened t = []) \/
    (~ fails (Accept n, r) /\ opened t = carried (car v) /\
     (out1 r = 2 -> ~ In 92%N (txt r) -> Forall (fun b => (b < 256)%N) (txt r) ->
      v = Cons (Num (rv r)) (Cons (string_of (txt r)) (Num (out2 r)))))).
Proof.
  intros n t v D H. unfold accept in H.
  assert (B : ((n <? 0) || (n >=? 2 ^ 32 - 1))%bool = false).
  { destruct D. change (2 ^ 31) with 2147483648 in *. change (2 ^ 32) with 4294967296. apply orb_false_iff. split; [lia|]. lia. }
  rewrite B, to_int_small in H by auto. repeat step_run; nums; (eexists; split; [reflexivity|]).
  - left. unfold fails, opened. cbn [fst snd flat_map]. destruct (Z.leb_spec 0 (rv r)); [lia|]. auto.
  - right. unfold fails, opened. cbn [fst snd flat_map car carried]. destruct (Z.leb_spec 0 (rv r)); [|lia].
    split; [lia|]. split; [reflexivity|]. intros O P F. unfold peer. rewrite O. cbn [Z.eqb Pos.eqb negb].
    rewrite string_plain by auto. reflexivity.
Qed.
Print Assumptions C78_accept.
(** Port 65535 is refused without asking the system. *)
Theorem C78_port_refuted : forall t e, plays (listen (Num 65535)) t e -> t = [] /\ e = Returns Nil.
Proof. intros t e H. cbn in H. inversion H; subst. auto. Qed.
Print Assumptions C78_port_refuted.
(** An address of 1024 bytes or more is stored past the end of its buffer. *)
Theorem C78_long_refuted : forall a p, c_plain p -> (HOST_MAX <= length a)%nat ->
  plays (connect (string_of a) (string_of p)) [] Undefined.
Proof. exact connect_long. Qed.
Print Assumptions C78_long_refuted.
Example C78_connect_example :
  plays (connect (string_of (bs "localhost")) (string_of (bs "80")))
    [(Socket, ok 5); (NoDelay 5, ok 0); (Resolve (bs "localhost") (bs "80"), two 0 7 0); (Connect 5 7, ko 111);
     (FreeAddr 7, ok 0); (Close 5, ok 0)] (Returns Nil) /\
  plays (connect (string_of (bs "localhost")) (string_of (bs "80")))
    [(Socket, ok 5); (NoDelay 5, ok 0); (Resolve (bs "localhost") (bs "80"), two 0 7 0); (Connect 5 7, ok 0);
     (FreeAddr 7, ok 0)] (Returns (Num 5)).
Proof.
  assert (H : (9 < HOST_MAX)%nat) by (apply Nat.ltb_lt; vm_compute; reflexivity).
  unfold connect. rewrite !string_is. cbn [negb andb].
  rewrite (text_short (bs "localhost")), (text_short (bs "80")); try (plain); try (cbn; lia).
  cbn [need pbind fst snd length bs Nat.eqb].
  split; repeat constructor.
Qed.
Example C78_listen_example : plays (listen (Num 8080))
    [(Socket, ok 4); (NoDelay 4, ok 0); (ReusePort 4, ok 0); (Bind 4 8080, ko 98); (Close 4, ok 0)] (Returns Nil) /\
  plays (listen (Num 8080))
    [(Socket, ok 4); (NoDelay 4, ok 0); (ReusePort 4, ok 0); (Bind 4 8080, ok 0); (Listen 4 5, ok 0)] (Returns (Num 4)).
Proof. split; repeat constructor. Qed.
Example C78_accept_example : descriptor 4 /\ plays (accept (Num 4)) [(Accept 4, mkreply 6 0 2 5000 (bs "10.0.0.1") [] [])]
  (Returns (Cons (Num 6) (Cons (string_of (bs "10.0.0.1")) (Num 5000)))).
Proof. split; [unfold descriptor; change (2 ^ 31) with 2147483648; lia|]. repeat constructor. Qed.
Example C78_port_example : plays (listen (Num 65535)) [] (Returns Nil).
Proof. constructor. Qed.
Example C78_long_example : c_plain (bs "80") /\ (HOST_MAX <= length (repeat 97%N HOST_MAX))%nat.
Proof.
  split; [|rewrite repeat_length; auto]. plain.
Qed.

(** ** C79 *)
(** close evaluates its operands one after the other and closes the descriptor each one
    gives, whatever happened to the ones before; T when all could be closed, NIL
    otherwise.  The operands must give descriptors. *)
Theorem C79_close_partial : forall ev es t v, gives_descriptors ev es ->
  (plays (close ev (mk_list es)) t (Returns v) <->
   exists l, closing ev es t l /\ ((v = Tru /\ all_closed l) \/ (v = Nil /\ ~ all_closed l))).
Proof. exact close_run. Qed.
Print Assumptions C79_close_partial.
(** An operand that is NIL closes the standard input. *)
Theorem C79_nil_refuted : forall ev x r, ev x = Fin Nil -> rv r = 0 ->
  plays (close ev (mk_list [x])) [(Close 0, r)] (Returns Tru).
Proof.
  intros ev x r E R. unfold close. cbn [mk_list close_loop]. rewrite E. cbn. constructor. rewrite R. constructor.
Qed.
Print Assumptions C79_nil_refuted.
Example C79_close_example : gives_descriptors ev0 [Num 3; Num 4] /\
  plays (close ev0 (mk_list [Num 3; Num 4])) [(Close 3, ko 9); (Close 4, ok 0)] (Returns Nil) /\
  plays (close ev0 (mk_list [Num 3; Num 4])) [(Close 3, ok 0); (Close 4, ok 0)] (Returns Tru).
Proof.
  split; [|split; repeat constructor].
  intros e t v [<-|[<-|[]]] H; inversion H; subst; eexists; (split; [reflexivity|]); unfold descriptor;
    change (2 ^ 31) with 2147483648; lia.
Qed.
Example C79_nil_example : ev0 Nil = Fin Nil /\ plays (close ev0 (mk_list [Nil])) [(Close 0, ok 0)] (Returns Tru).
Proof. split; [reflexivity|]. apply C79_nil_refuted; reflexivity. Qed.

(** ** C80 *)
(** pipe, dup, fork and wait make one call each; when it succeeds they return what it
    gives. *)
Theorem C80_success_partial :
  (forall t v, plays pipe t (Returns v) -> exists r, t = [(MakePipe, r)] /\
     (rv r = 0 -> v = Cons (Num (out1 r)) (Num (out2 r))) /\ (rv r <> 0 -> v = Nil)) /\
  (forall t v, plays fork t (Returns v) -> exists r, t = [(Fork, r)] /\ (0 <= rv r -> v = Num (rv r))) /\
  (forall p t v, descriptor p -> plays (wait (Num p)) t (Returns v) -> exists r, t = [(WaitPid p, r)] /\
     (0 <= rv r -> (out1 r <> 0 -> v = Num (out2 r)) /\ (out1 r = 0 -> v = Nil))) /\
  (forall ev x d t v, ev x = Fin (Num d) -> ev Nil = Fin Nil -> descriptor d ->
     plays (dup ev (mk_list [x])) t (Returns v) -> exists r, t = [(Dup d, r)] /\ (0 <= rv r -> v = Num (rv r))) /\
  (forall ev x y d n t v, ev x = Fin (Num d) -> ev y = Fin (Num n) -> descriptor d -> descriptor n ->
     plays (dup ev (mk_list [x; y])) t (Returns v) -> exists r, t = [(Dup2 d n, r)] /\ (0 <= rv r -> v = Num (rv r))).
Proof.
  assert (L : forall (r : reply) (e : Z), 0 <= rv r -> (if rv r <? 0 then e else rv r) = rv r).
  { intros r e R. destruct (Z.ltb_spec (rv r) 0); auto; lia. }
  ands.
  - intros t v H. unfold pipe in H. repeat step_run; nums; (eexists; split; [reflexivity|]); split; intro; auto; lia.
  - intros t v H. unfold fork in H. repeat step_run. eexists. split; [reflexivity|]. intro. rewrite L; auto.
  - intros p t v D H. unfold wait in H. cbn [num_field need pbind] in H. rewrite to_int_small in H by auto.
    repeat step_run; nums; (eexists; split; [reflexivity|]); intro R; try lia; split; intro; auto; lia.
  - intros ev x d t v E N D H. unfold dup in H. cbn [mk_list car cdr] in H. rewrite E, N in H. cbn [pbind num_field need is_null] in H.
    rewrite to_int_small in H by auto. repeat step_run. eexists. split; [reflexivity|]. intro. rewrite L; auto.
  - intros ev x y d n t v E N D D' H. unfold dup in H. cbn [mk_list car cdr] in H. rewrite E, N in H. cbn [pbind num_field need is_null] in H.
    rewrite !to_int_small in H by auto. repeat step_run. eexists. split; [reflexivity|]. intro. rewrite L; auto.
Qed.
Print Assumptions C80_success_partial.
(** A failure returns the error number, which is also what a success returns. *)
Theorem C80_refuted :
  (exists r1 r2 v, rv r1 < 0 /\ 0 <= rv r2 /\ plays fork [(Fork, r1)] (Returns v) /\ plays fork [(Fork, r2)] (Returns v)) /\
  (exists p r1 r2 v, rv r1 < 0 /\ 0 <= rv r2 /\ plays (wait p) [(WaitPid 7, r1)] (Returns v) /\ plays (wait p) [(WaitPid 7, r2)] (Returns v)) /\
  (exists any r1 r2 v, rv r1 < 0 /\ 0 <= rv r2 /\ plays (dup ev0 any) [(Dup 9, r1)] (Returns v) /\ plays (dup ev0 any) [(Dup 9, r2)] (Returns v)).
Proof.
  ands.
  - exists (ko 11), (ok 11), (Num 11). ands; try (cbn; lia); repeat constructor.
  - exists (Num 7), (ko 10), (two 7 1 10), (Num 10). ands; try (cbn; lia); repeat constructor.
  - exists (mk_list [Num 9]), (ko 9), (ok 9), (Num 9). ands; try (cbn; lia); repeat constructor.
Qed.
Print Assumptions C80_refuted.
Example C80_success_example :
  plays pipe [(MakePipe, two 0 3 4)] (Returns (Cons (Num 3) (Num 4))) /\
  plays fork [(Fork, ok 0)] (Returns (Num 0)) /\ plays (wait (Num 7)) [(WaitPid 7, two 7 1 3)] (Returns (Num 3)) /\
  plays (wait (Num 7)) [(WaitPid 7, two 7 0 0)] (Returns Nil) /\
  plays (dup ev0 (mk_list [Num 4; Num 1])) [(Dup2 4 1, ok 1)] (Returns (Num 1)).
Proof. ands; repeat constructor. Qed.

(** ** C81 *)
(** exec never goes outside its arrays; up to 126 arguments and 128 variables, none
    longer than a path, reach the new program as they are, and the process ends if it
    cannot be started.  There must be a variable. *)
Theorem C81_exec_partial : forall p args envp t e,
  c_plain p -> Forall c_plain args -> Forall c_plain envp ->
  (length p <= PATH_MAX)%nat -> Forall (fun s => (length s <= PATH_MAX)%nat) args -> Forall (fun s => (length s <= PATH_MAX)%nat) envp ->
  (length args <= 126)%nat -> (1 <= length envp <= 128)%nat ->
  plays (exec (string_of p) (mk_list (map string_of args)) (mk_list (map string_of envp))) t e ->
  (t = [] /\ e = Waits (Exec p (p :: args) (Some envp))) \/
  exists r, t = [(Exec p (p :: args) (Some envp), r)] /\ e = Exits (er r).
Proof.
  intros p args envp t e P A V Lp La Lv Na Nv H. apply exec_run in H; auto. cbv zeta in H.
  rewrite (firstn_all2 p), (firstn_all2 args), (firstn_all2 envp), (firstn_short args), (firstn_short envp) in H by (auto; lia).
  destruct envp as [|x envp]; [cbn in Nv; lia|]. exact H.
Qed.
Print Assumptions C81_exec_partial.
(** More arguments or longer ones are cut, but nothing is stored out of place. *)
Theorem C81_safe : forall p args envp t,
  c_plain p -> Forall c_plain args -> Forall c_plain envp ->
  ~ plays (exec (string_of p) (mk_list (map string_of args)) (mk_list (map string_of envp))) t Undefined.
Proof.
  intros p args envp t P A V H. apply exec_run in H; auto. cbv zeta in H.
  destruct H as [[_ H]|(r & _ & H)]; discriminate H.
Qed.
Print Assumptions C81_safe.
(** From the 127th on, arguments are dropped silently; an empty environment gives the
    new program the environment of this one. *)
Theorem C81_refuted :
  (exists args, Forall c_plain args /\ length args = 127%nat /\
     forall t c, plays (exec (string_of (bs "/a")) (mk_list (map string_of args)) Nil) t (Waits c) ->
       exists l v, c = Exec (bs "/a") (bs "/a" :: l) v /\ length l = 126%nat) /\
  (forall p args t c, c_plain p -> Forall c_plain args ->
     plays (exec (string_of p) (mk_list (map string_of args)) Nil) t (Waits c) ->
     exists p' l, c = Exec p' l None).
Proof.
  split.
  - exists (repeat (bs "x") 127). split.
    + apply Forall_forall. intros x I. apply repeat_spec in I. subst x. plain.
    + split; [apply repeat_length|]. intros t c H.
      apply (exec_run (bs "/a") (repeat (bs "x") 127) []) in H; [| | |constructor].
      * cbv zeta in H. pose proof path_room. rewrite (firstn_all2 (bs "/a")) in H by (cbn; lia).
        destruct H as [[_ H]|(r & _ & H)]; [|discriminate]. injection H as ->. do 2 eexists. split; [reflexivity|]. reflexivity.
      * plain.
      * apply Forall_forall. intros x I. apply repeat_spec in I. subst x. plain.
  - intros p args t c P A H. apply (exec_run p args []) in H; auto. cbv zeta in H.
    destruct H as [[_ H]|(r & _ & H)]; [|discriminate]. injection H as ->. eauto.
Qed.
Print Assumptions C81_refuted.
Example C81_exec_example : plays (exec (string_of (bs "/bin/ls")) (mk_list (map string_of [bs "-l"; bs "/"])) (mk_list (map string_of [bs "A=1"])))
  [] (Waits (Exec (bs "/bin/ls") [bs "/bin/ls"; bs "-l"; bs "/"] (Some [bs "A=1"]))) /\
  c_plain (bs "/bin/ls") /\ (length (bs "/bin/ls") <= PATH_MAX)%nat.
Proof.
  pose proof path_room.
  split; [|split; [plain|cbn; lia]].
  unfold exec. cbn [map mk_list make_strings]. cbn [MAX_ARGS Nat.ltb Nat.leb Nat.eqb Nat.sub negb].
  rewrite !text_short; try (plain); try (cbn; lia).
  apply plays_wait.
Qed.
Example C81_safe_example : Forall c_plain (repeat (bs "x") 1000).
Proof.
  apply Forall_forall. intros x I. apply repeat_spec in I. subst x. plain.
Qed.

(** ** C82 *)
(** Once it has a list of descriptors, select waits for exactly these, and then serves
    those that are ready in order; the two results are what is left of the list after
    reading and after errors. *)
Theorem C82_select_partial : forall ev fds t v, small fds -> plays (select ev (mk_list (map Num fds))) t (Returns v) ->
  exists n r t', above fds n /\ t = (Select n fds fds, r) :: t' /\
    ((rv r < 0 /\ t' = [] /\ v = Nil) \/
     (0 <= rv r /\ exists t1 t2 k1 k2, t' = t1 ++ t2 /\
        serves ev (Symb (sy "ON_READ")) (rd r) fds t1 k1 /\ serves ev (Symb (sy "ON_ERROR")) (ex r) fds t2 k2 /\
        v = mk_list [mk_list (map Num k1); mk_list (map Num k2)])).
Proof. exact select_run. Qed.
Print Assumptions C82_select_partial.
(** But the list it takes is the last argument of the call: called with NIL for the last
    one it waits for nothing, whatever the descriptors. *)
Theorem C82_refuted : forall (ev : env -> atom -> prog atom) c w (fds on_read : atom) b w',
  eval_args (fun _ x w => Ret x w) c [] (declare ["FDS"; "ON_READ"; "ON_ERROR"; "NIL"]%string) (mk_list [fds; on_read; Nil]) w
    = Ret (b, Nil) w' ->
  forall t e, plays (select_builtin ev (b ++ c)) t e ->
    (t = [] /\ e = Waits (Select 0 [] [])) \/ (exists r t', t = (Select 0 [] [], r) :: t').
Proof.
  intros ev c w fds on_read b w' E t e H.
  assert (Q : eval_args (fun (_ : env) (x : atom) (w : world) => Ret x w) c [] (declare ["FDS"; "ON_READ"; "ON_ERROR"; "NIL"]%string) (mk_list [fds; on_read; Nil]) w
    = Ret ([(sy "ON_ERROR", Nil); (sy "ON_READ", on_read); (sy "FDS", fds)], Nil) w) by reflexivity.
  rewrite Q in E. injection E as <- _. cbn [app select_builtin] in H.
  unfold select in H. cbn [is_list is_pair is_null orb negb watch need pbind fst snd] in H. change (-1 + 1) with 0 in H.
  inversion H; subst; [left; auto|right; eauto].
Qed.
Print Assumptions C82_refuted.
(** With the callback as an evaluator that answers its descriptor. *)
Example C82_select_example :
  let ev := fun x => Fin (car (cdr x)) in
  small [3; 7] /\
  plays (select ev (mk_list (map Num [3; 7]))) [(Select 8 [3; 7] [3; 7], mkreply 1 0 0 0 [] [7] [])]
    (Returns (mk_list [mk_list [Num 3; Num 7]; mk_list [Num 3; Num 7]])).
Proof.
  cbv zeta. split; [repeat constructor; lia|]. repeat constructor.
Qed.
Example C82_close_example :
  let ev := fun _ => Fin Nil in
  plays (select ev (mk_list (map Num [3; 7]))) [(Select 8 [3; 7] [3; 7], mkreply 1 0 0 0 [] [7] []); (Close 7, ok 0)]
    (Returns (mk_list [mk_list [Num 3]; mk_list [Num 3; Num 7]])).
Proof. cbv zeta. repeat constructor. Qed.
Example C82_example : exists b w',
  eval_args (fun _ x w => Ret x w) [] [] (declare ["FDS"; "ON_READ"; "ON_ERROR"; "NIL"]%string) (mk_list [mk_list [Num 3]; Tru; Nil]) world0
    = Ret (b, Nil) w' /\
  plays (select_builtin (fun _ => ev0) b) [(Select 0 [] [], ok 0)] (Returns (mk_list [Nil; Nil])).
Proof. do 2 eexists. split; [reflexivity|]. repeat constructor. Qed.

(** ** C83 *)
(** unlink asks for the removal of the file named, once, and returns T exactly when it
    was removed. *)
Theorem C83_unlink_partial : forall s t e, c_plain s -> (length s < PATH_MAX)%nat -> plays (unlink (string_of s)) t e ->
  (t = [] /\ e = Waits (Unlink s)) \/
  exists r, t = [(Unlink s, r)] /\ e = Returns (if rv r =? 0 then Tru else Nil).
Proof. exact unlink_run. Qed.
Print Assumptions C83_unlink_partial.
(** A longer name is stored past the end of the buffer. *)
Theorem C83_long_refuted : forall s, (PATH_MAX <= length s)%nat -> plays (unlink (string_of s)) [] Undefined.
Proof. exact unlink_long. Qed.
Print Assumptions C83_long_refuted.
Example C83_unlink_example : c_plain (bs "/tmp/x") /\ (length (bs "/tmp/x") < PATH_MAX)%nat /\
  plays (unlink (string_of (bs "/tmp/x"))) [(Unlink (bs "/tmp/x"), ok 0)] (Returns Tru).
Proof.
  assert (P : c_plain (bs "/tmp/x")).
  { plain. }
  pose proof path_room. split; [auto|]. split; [cbn; lia|].
  unfold unlink. rewrite string_is. cbn [negb]. rewrite text_short; auto; try (cbn; lia).
  apply plays_ask. apply plays_fin.
Qed.
Example C83_long_example : (PATH_MAX <= length (repeat 97%N PATH_MAX))%nat.
Proof. rewrite repeat_length. auto. Qed.

(** ** C84 *)
(** Every builtin but select takes the arguments of its call, in order, and leaves the
    scope of the caller. *)
Theorem C84_args_partial : forall f decl asked, In (f, decl, asked) builtin_args -> f <> "select"%string ->
  forall ev c es w vs w' scope, receives ev c decl es w vs w' ->
  exists b, eval_args ev c [] (declare decl) (mk_list es) w = Ret (b, Nil) w' /\
    take asked (b ++ scope) = Some (vs, scope).
Proof.
  intros f decl asked I N ev c es w vs w' scope R. apply receives_take with (1 := R).
  assert (K : forallb (fun x : string * list string * list string =>
     let '(f, d, a) := x in
     String.eqb f "select" || match d with [] => true | _ =>
       if String.eqb (last d ""%string) "NIL" then Nat.leb 2 (length d) && Nat.eqb (length a) (length d - 1)
       else Nat.eqb (length a) (length d) end)%bool builtin_args = true) by (vm_compute; reflexivity).
  rewrite forallb_forall in K. specialize (K _ I). cbv beta iota in K.
  destruct (String.eqb_spec f "select") as [->|_]; [congruence|]. cbn [orb] in K.
  destruct R as [x es w|x e es w v w1 E|xs es w vs w' X Le E].
  - cbn [last length] in *. destruct (String.eqb x "NIL"); [discriminate|]. apply Nat.eqb_eq in K. auto.
  - cbn [last length] in *. apply Nat.eqb_eq in K. auto.
  - rewrite last_last in K. destruct (xs ++ ["NIL"%string]) eqn:Q; [destruct xs; discriminate|].
    rewrite <- Q in K. change (String.eqb "NIL" "NIL") with true in K. cbv iota in K. apply andb_true_iff in K. destruct K as [_ K].
    apply Nat.eqb_eq in K. rewrite app_length in K. cbn [length] in K. apply evaluated_length in E. unfold env in *. lia.
Qed.
Print Assumptions C84_args_partial.
(** select takes its last argument for its first. *)
Theorem C84_select_refuted : exists decl asked, In ("select"%string, decl, asked) builtin_args /\
  exists ev c es w vs w' b vs' scope, receives ev c decl es w vs w' /\
    eval_args ev c [] (declare decl) (mk_list es) w = Ret (b, Nil) w' /\
    take asked b = Some (vs', scope) /\ hd Nil vs' <> hd Nil vs.
Proof.
  exists ["FDS"; "ON_READ"; "ON_ERROR"; "NIL"]%string, ["FDS"]%string. split; [cbn; tauto|].
  exists (fun _ x w => Ret x w), [], [Num 3; Tru; Nil], world0, [Num 3; Tru; Nil], world0.
  do 3 eexists. split.
  - apply (rec_all _ _ ["FDS"; "ON_READ"; "ON_ERROR"]%string); [discriminate|reflexivity|].
    repeat (eapply ev_cons; [reflexivity|]). apply ev_nil.
  - split; [reflexivity|]. split; [reflexivity|]. discriminate.
Qed.
Print Assumptions C84_select_refuted.
(** The argument lists of the builtins of the evaluator are the declared ones. *)
Theorem C84_model : forall p s h, In (p, (s, h)) prim_table ->
  exists decl asked, In (s, decl, asked) builtin_args /\ declare decl = args_of h /\
    length asked = if pops_two p then 2%nat else 1%nat.
Proof.
  intros p s h I.
  assert (K : Forall (fun x : prim * (string * shape) => exists decl asked, In (fst (snd x), decl, asked) builtin_args /\
      declare decl = args_of (snd (snd x)) /\ length asked = if pops_two (fst x) then 2%nat else 1%nat) prim_table).
  { repeat (constructor; [do 2 eexists; cbn [fst snd]; split; [repeat first [left; reflexivity|right]|split; vm_compute; reflexivity]|]).
    constructor. }
  rewrite Forall_forall in K. exact (K _ I).
Qed.
Print Assumptions C84_model.
Example C84_args_example : receives (fun _ x w => Ret x w) [] ["X"; "Y"; "NIL"]%string [Num 1; Num 2] world0 [Num 1; Num 2] world0 /\
  In ("-", ["X"; "Y"; "NIL"], ["X"; "Y"])%string builtin_args.
Proof.
  split; [|cbn; tauto]. apply (rec_all _ _ ["X"; "Y"]%string); [discriminate|reflexivity|].
  repeat (eapply ev_cons; [reflexivity|]). apply ev_nil.
Qed.
Example C84_model_example : In (Pif, ("if"%string, CondRem)) prim_table.
Proof. cbn; tauto. Qed.
