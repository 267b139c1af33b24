(** * UnixProofs: the runs of the builtins that talk to the operating system. *)
From Verif Require Import Base Value ValueProofs CString CStringProofs Path Unix UnixSpec.
Open Scope Z_scope.

Lemma string_chars : forall t, string_of t = mk_chars (map schar t).
Proof. intro t. unfold string_of, mk_chars. rewrite map_map. reflexivity. Qed.
Lemma string_is : forall t, is_string (string_of t) = true.
Proof. induction t as [|b t IH]; cbn in *; auto. Qed.

(** ** Runs *)

Lemma plays_bind : forall A B (p : prog A) (f : A -> prog B) t e, plays (pbind p f) t e ->
  (exists a t1 t2, plays p t1 (Returns a) /\ plays (f a) t2 e /\ t = t1 ++ t2) \/
  (plays p t Undefined /\ e = Undefined) \/
  (exists z, plays p t (Exits z) /\ e = Exits z) \/
  (exists c, plays p t (Waits c) /\ e = Waits c).
Proof.
  intros A B p f. induction p as [a|c k IH| |z]; intros t e H; cbn [pbind] in H.
  - left. exists a, [], t. split; [constructor|auto].
  - inversion H; subst.
    + right. right. right. exists c. split; [constructor|auto].
    + destruct (IH r _ _ H4) as [(a & t1 & t2 & P1 & P2 & E)|[[P E]|[(z & P & E)|(c0 & P & E)]]].
      * left. exists a, ((c, r) :: t1), t2. split; [constructor; auto|]. subst. auto.
      * right. left. split; [constructor; auto|auto].
      * right. right. left. exists z. split; [constructor; auto|auto].
      * right. right. right. exists c0. split; [constructor; auto|auto].
  - inversion H; subst. right. left. split; [constructor|auto].
  - inversion H; subst. right. right. left. exists z. split; [constructor|auto].
Qed.
Lemma bind_plays : forall A B (p : prog A) (f : A -> prog B) t1 a t2 e,
  plays p t1 (Returns a) -> plays (f a) t2 e -> plays (pbind p f) (t1 ++ t2) e.
Proof.
  intros A B p f. induction p as [a0|c k IH| |z]; intros t1 a t2 e H H2;
    inversion H; subst; cbn [pbind app]; auto.
  constructor. eapply IH; eauto.
Qed.
Lemma plays_returns : forall A B (p : prog A) (f : A -> prog B) t b, plays (pbind p f) t (Returns b) ->
  exists a t1 t2, plays p t1 (Returns a) /\ plays (f a) t2 (Returns b) /\ t = t1 ++ t2.
Proof.
  intros A B p f t b H. apply plays_bind in H.
  destruct H as [H|[[_ H]|[(z & _ & H)|(c & _ & H)]]]; auto; discriminate.
Qed.

Ltac step_run :=
  match goal with
  | H : plays (Ask _ _) _ _ |- _ => inversion H; subst; clear H; cbn beta in *
  | H : plays (Fin _) _ _ |- _ => inversion H; subst; clear H
  | H : plays (Exit _) _ _ |- _ => inversion H; subst; clear H
  | H : plays Undef _ _ |- _ => inversion H; subst; clear H
  | H : plays (if ?b then _ else _) _ _ |- _ => let E := fresh "B" in destruct b eqn:E
  end.

(** ** Texts *)

Ltac len := unfold bytes, byte in *; lia.

Lemma byte_char : forall b, (b < 256)%N -> byte_of_char (schar b) = b.
Proof.
  intros b H. unfold byte_of_char, schar. destruct (Z.ltb_spec (Z.of_N b) 128).
  - rewrite Z.mod_small by lia. apply N2Z.id.
  - replace (Z.of_N b - 256) with (Z.of_N b + (-1) * 256) by lia. rewrite Z.mod_add by lia.
    rewrite Z.mod_small by lia. apply N2Z.id.
Qed.
Lemma cstr_plain : forall t, ~ In 0%N t -> cstr t = t.
Proof.
  induction t as [|b t IH]; intros H; cbn [cstr]; auto.
  destruct (N.eqb_spec b 0) as [->|N]; [exfalso; apply H; cbn; auto|].
  rewrite IH; auto. intro I. apply H. cbn; auto.
Qed.
Lemma firstn_in : forall A (l : list A) n x, In x (firstn n l) -> In x l.
Proof.
  induction l as [|y l IH]; intros [|n] x H; cbn in *; auto; try contradiction.
  destruct H; auto. right. eauto.
Qed.
Lemma map_seq_nth : forall (m : nat -> byte) (l : bytes) n,
  (forall i, (i < n)%nat -> m i = nth i l 0%N) -> (n <= length l)%nat -> map m (seq 0 n) = firstn n l.
Proof.
  intros m l n. revert m l. induction n as [|n IH]; intros m l H L; [reflexivity|].
  destruct l as [|b l]; [cbn in L; lia|]. cbn [seq map firstn]. rewrite (H O) by lia. cbn [nth]. f_equal.
  rewrite <- seq_shift, map_map. apply IH; [|cbn in L; lia]. intros i Hi. rewrite (H (S i)) by lia. reflexivity.
Qed.
Lemma text_map : forall t m n, Forall (fun b => (b < 256)%N) t -> (n <= length t)%nat ->
  (forall i, (i < n)%nat -> m i = byte_of_char (nth i (map schar t) 0)) -> map m (seq 0 n) = firstn n t.
Proof.
  intros t m n B L H. apply map_seq_nth; auto. intros i Hi. rewrite H by auto.
  rewrite (nth_indep _ 0 (schar 0%N)) by (rewrite map_length; len). rewrite map_nth. apply byte_char.
  rewrite Forall_forall in B. apply B, nth_In. len.
Qed.
Lemma text_fits : forall t size len, c_plain t -> (len < size)%nat ->
  c_text size len (string_of t) = Some (firstn len t, Nat.min (length t) len).
Proof.
  intros t size len [B N] L. unfold c_text. rewrite string_chars.
  destruct (cstring_exact (map schar t) size (fun _ => 0%N) len L) as (m & E & H & _). rewrite E.
  rewrite map_length in *. f_equal. f_equal.
  rewrite (text_map t m) by (auto; len).
  assert (Q : firstn (Nat.min (length t) len) t = firstn len t).
  { destruct (Nat.le_ge_cases (length t) len) as [H0|H0].
    - rewrite Nat.min_l by auto. rewrite (firstn_all2 t H0), firstn_all. reflexivity.
    - rewrite Nat.min_r by auto. reflexivity. }
  etransitivity; [|exact Q]. apply cstr_plain. intro I. apply N. eapply firstn_in; eauto.
Qed.
Lemma make_cstring_len : forall l size m off idx len, (idx + length l <= len)%nat ->
  make_cstring size (mk_chars l) m off len idx = make_cstring size (mk_chars l) m off (idx + length l) idx.
Proof.
  induction l as [|c l IH]; intros size m off idx len H; cbn [length] in H.
  - reflexivity.
  - unfold mk_chars in *. cbn [map mk_list make_cstring length].
    destruct (Nat.eqb_spec idx len); [lia|]. destruct (Nat.eqb_spec idx (idx + S (length l))); [lia|].
    rewrite IH by lia. replace (idx + S (length l))%nat with (S idx + length l)%nat by lia. reflexivity.
Qed.
Lemma text_short : forall t size len, c_plain t -> (length t < size)%nat -> (length t <= len)%nat ->
  c_text size len (string_of t) = Some (t, length t).
Proof.
  intros t size len P L L'.
  assert (E := text_fits t size (length t) P L). rewrite firstn_all, Nat.min_id in E. etransitivity; [|exact E].
  unfold c_text. rewrite string_chars, make_cstring_len by (rewrite map_length; len).
  rewrite map_length. reflexivity.
Qed.
Lemma text_long : forall t len, (len <= length t)%nat -> c_text len len (string_of t) = None.
Proof.
  intros t len L. unfold c_text. rewrite string_chars, cstring_overrun; auto. rewrite map_length. auto.
Qed.

(** ** Sockets *)

Lemma to_int_small : forall n, descriptor n -> to_int n = n.
Proof.
  intros n [H1 H2]. unfold to_int. rewrite Z.mod_small by (change (2^32) with (2 * 2^31); lia).
  destruct (Z.ltb_spec n (2 ^ 31)); lia.
Qed.

Ltac nums :=
  repeat match goal with
  | H : (_ <? _) = true |- _ => apply Z.ltb_lt in H
  | H : (_ <? _) = false |- _ => apply Z.ltb_ge in H
  | H : negb _ = true |- _ => apply negb_true_iff in H
  | H : negb _ = false |- _ => apply negb_false_iff in H
  | H : (_ =? _) = true |- _ => apply Z.eqb_eq in H
  | H : (_ =? _) = false |- _ => apply Z.eqb_neq in H
  end.
Ltac ledger :=
  cbn [opened closed granted freed carried flat_map fst snd app];
  repeat match goal with
  | H : 0 <= ?x |- context [0 <=? ?x] => rewrite (proj2 (Z.leb_le 0 x) H)
  | H : ?x < 0 |- context [0 <=? ?x] => rewrite (proj2 (Z.leb_gt 0 x) H)
  | H : ?x = 0 |- context [?x =? 0] => rewrite (proj2 (Z.eqb_eq x 0) H)
  | H : ?x <> 0 |- context [?x =? 0] => rewrite (proj2 (Z.eqb_neq x 0) H)
  end; auto.
Ltac bad := left; unfold fails; cbn [fst snd]; lia.
Ltac find_failure := first [constructor 1; unfold fails; cbn [fst snd]; lia | constructor 2; find_failure].
Ltac no_failure :=
  let X := fresh in intro X; repeat (inversion X; subst; clear X;
    [match goal with H : fails _ |- _ => unfold fails in H; cbn [fst snd] in H; lia end|];
    match goal with H : Exists _ _ |- _ => rename H into X end); inversion X.

Definition connected (a p : bytes) (t : trace) (fd : Z) : Prop :=
  exists ai r1 r2 r3 r4, done t Socket r1 /\ rv r1 = fd /\ done t (NoDelay fd) r2 /\
    done t (Resolve a p) r3 /\ out1 r3 = ai /\ done t (Connect fd ai) r4.

Lemma connect_runs : forall a p t e, c_plain a -> c_plain p -> (0 < length a < HOST_MAX)%nat -> (0 < length p < HOST_MAX)%nat ->
  plays (connect (string_of a) (string_of p)) t e ->
  (exists c, e = Waits c) \/
  exists v, e = Returns v /\ opened t = closed t ++ carried v /\ granted t = freed t /\
    ((Exists fails t /\ v = Nil) \/ (~ Exists fails t /\ exists fd, v = Num fd /\ connected a p t fd)).
Proof.
  intros a p t e Pa Pp La Lp H. unfold connect in H.
  rewrite !string_is in H. cbn [negb andb] in H.
  rewrite (text_short a) in H by (auto; lia). cbn [need pbind snd fst] in H.
  destruct (Nat.eqb_spec (length a) 0); [lia|].
  rewrite (text_short p) in H by (auto; lia). cbn [need pbind snd fst] in H.
  destruct (Nat.eqb_spec (length p) 0); [lia|].
  cbv zeta in H. repeat step_run; nums; try (left; eexists; reflexivity); right; eexists; (split; [reflexivity|]);
    (split; [ledger|]); (split; [ledger|]).
  all: try (left; split; [find_failure|reflexivity]).
  right. split; [no_failure|]. eexists; split; [reflexivity|].
  unfold connected, done, fails. do 5 eexists. cbn [In fst snd].
  ands; try reflexivity; eauto 10; try lia.
Qed.
Lemma connect_long : forall a p, c_plain p -> (HOST_MAX <= length a)%nat -> plays (connect (string_of a) (string_of p)) [] Undefined.
Proof.
  intros a p Pp La. unfold connect. rewrite !string_is. cbn [negb andb]. rewrite text_long by auto. constructor.
Qed.

Definition listening (port : Z) (t : trace) (fd : Z) : Prop :=
  exists r1 r2 r3 r4 r5, done t Socket r1 /\ rv r1 = fd /\ done t (NoDelay fd) r2 /\ done t (ReusePort fd) r3 /\
    done t (Bind fd port) r4 /\ done t (Listen fd 5) r5.
Lemma listen_runs : forall p t e, 0 <= p < 65535 -> plays (listen (Num p)) t e ->
  (exists c, e = Waits c) \/
  exists v, e = Returns v /\ opened t = closed t ++ carried v /\
    ((Exists fails t /\ v = Nil) \/ (~ Exists fails t /\ exists fd, v = Num fd /\ listening p t fd)).
Proof.
  intros p t e P H. unfold listen in H.
  replace ((p <? 0) || (p >=? 65535)) with false in H
    by (symmetry; apply orb_false_iff; split; [apply Z.ltb_ge; lia|rewrite Z.geb_leb; apply Z.leb_gt; lia]).
  cbv zeta in H. repeat step_run; nums; try (left; eexists; reflexivity); right; eexists; (split; [reflexivity|]);
    (split; [ledger|]).
  all: try (left; split; [find_failure|reflexivity]).
  right. split; [no_failure|]. eexists; split; [reflexivity|].
  unfold listening, done, fails. do 5 eexists. cbn [In fst snd].
  ands; try reflexivity; eauto 10; try lia.
Qed.

(** ** Descriptors *)

Section Ev.
Variable ev : atom -> prog atom.
Definition gives_descriptors (es : list atom) : Prop :=
  forall e t v, In e es -> plays (ev e) t (Returns v) -> exists n, v = Num n /\ descriptor n.

Lemma close_loop_run : forall es res t b, gives_descriptors es ->
  plays (close_loop ev (mk_list es) res) t (Returns b) ->
  exists l, closing ev es t l /\ b = (res && forallb (fun p => rv (snd p) =? 0) l)%bool.
Proof.
  induction es as [|e es IH]; intros res t b G H; cbn [mk_list close_loop] in H.
  - inversion H; subst. exists []. split; [constructor|]. cbn. rewrite andb_true_r. auto.
  - apply plays_returns in H. destruct H as (v & t1 & t2 & P1 & P2 & ->).
    destruct (G e t1 v (or_introl eq_refl) P1) as (n & -> & Dn).
    cbn [num_field need pbind] in P2. rewrite to_int_small in P2 by auto. inversion P2; subst.
    apply IH in H3; [|intros e' t' v' I; apply G; cbn; auto]. destruct H3 as (l & C & ->).
    exists ((n, r) :: l). split; [constructor; auto|]. cbn [forallb snd]. rewrite andb_assoc. auto.
Qed.
Lemma close_loop_plays : forall es t l res, closing ev es t l -> Forall (fun p => descriptor (fst p)) l ->
  plays (close_loop ev (mk_list es) res) t (Returns (res && forallb (fun p => rv (snd p) =? 0) l)%bool).
Proof.
  intros es t l res C. revert res. induction C as [|e es t1 n r t2 l P C IH]; intros res F; cbn [mk_list close_loop forallb].
  - rewrite andb_true_r. constructor.
  - inversion F; subst. eapply bind_plays; eauto. cbn [num_field need pbind]. rewrite to_int_small by auto.
    constructor. rewrite andb_assoc. apply IH; auto.
Qed.
Definition all_closed (l : list (Z * reply)) : Prop := Forall (fun p => rv (snd p) = 0) l.
Lemma all_closed_b : forall l, forallb (fun p : Z * reply => rv (snd p) =? 0) l = true <-> all_closed l.
Proof.
  intro l. unfold all_closed. rewrite forallb_forall, Forall_forall.
  split; intros H x I; specialize (H x I); apply Z.eqb_eq; auto.
Qed.
Lemma close_run : forall es t v, gives_descriptors es ->
  (plays (close ev (mk_list es)) t (Returns v) <->
   exists l, closing ev es t l /\ ((v = Tru /\ all_closed l) \/ (v = Nil /\ ~ all_closed l))).
Proof.
  intros es t v G. unfold close. split.
  - intro H. apply plays_returns in H. destruct H as (b & t1 & t2 & P1 & P2 & ->).
    apply close_loop_run in P1; auto. destruct P1 as (l & C & ->). inversion P2; subst. rewrite app_nil_r.
    exists l. split; auto. cbn [andb]. destruct (forallb _ l) eqn:E.
    + left. split; auto. apply all_closed_b; auto.
    + right. split; auto. intro X. apply all_closed_b in X. congruence.
  - intros (l & C & H).
    assert (F : Forall (fun p => descriptor (fst p)) l).
    { clear H. revert G. induction C as [|e es t1 n r t2 l P C IH]; intro G; constructor.
      - destruct (G e t1 _ (or_introl eq_refl) P) as (m & E & D). injection E as ->. exact D.
      - apply IH. intros e' t' v' I. apply G. cbn; auto. }
    rewrite <- (app_nil_r t). eapply bind_plays; [apply close_loop_plays; eauto|]. cbn [andb].
    destruct H as [[-> H]|[-> H]].
    + apply all_closed_b in H. rewrite H. constructor.
    + destruct (forallb _ l) eqn:E; [apply all_closed_b in E; contradiction|constructor].
Qed.

(** ** Ready descriptors *)

Lemma isset_in : forall n set, 0 <= n < 1024 -> exists b, isset n set = Some b /\ (b = true <-> In n set).
Proof.
  intros n set H. unfold isset.
  replace ((0 <=? n) && (n <? 1024))%bool with true
    by (symmetry; apply andb_true_iff; split; [apply Z.leb_le|apply Z.ltb_lt]; lia).
  eexists. split; [reflexivity|]. rewrite existsb_exists. split.
  - intros (x & I & E). apply Z.eqb_eq in E. subst. auto.
  - intro I. exists n. split; auto. apply Z.eqb_refl.
Qed.
Definition small (fds : list Z) : Prop := Forall (fun n => 0 <= n < 1024) fds.
Lemma process_run : forall cb set fds t v, small fds ->
  plays (process ev cb (mk_list (map Num fds)) set) t (Returns v) ->
  exists k, serves ev cb set fds t k /\ v = mk_list (map Num k).
Proof.
  intros cb set. induction fds as [|n fds IH]; intros t v S H; cbn [map mk_list process] in H.
  - inversion H; subst. exists []. split; [constructor|auto].
  - inversion S as [|? ? Sn Sf]; subst. apply plays_returns in H. destruct H as (act & t1 & t2 & P1 & P2 & ->).
    destruct (isset_in n set Sn) as (b & E & B). rewrite E in P1. cbn [need pbind] in P1.
    destruct b.
    + assert (I : In n set) by (apply B; auto).
      assert (D : to_int n = n) by (apply to_int_small; unfold descriptor; change (2 ^ 31) with 2147483648; lia).
      assert (K : forall t2', (act <> Nil) -> (forall m, act = Num m -> m = n) ->
        (exists nxt, plays (process ev cb (mk_list (map Num fds)) set) t2' (Returns nxt) /\ v = Cons (Num n) nxt) ->
        exists k, serves ev cb set (n :: fds) (t1 ++ t2') k /\ v = mk_list (map Num k)).
      { intros t2' NN NM (nxt & Q & ->). destruct (IH _ _ Sf Q) as (k & SV & ->). exists (n :: k).
        split; [eapply serves_kept; eauto|reflexivity]. }
      assert (K' : forall t2', plays (nxt <-- process ev cb (mk_list (map Num fds)) set ;; Fin (Cons (Num n) nxt)) t2' (Returns v) ->
        exists nxt, plays (process ev cb (mk_list (map Num fds)) set) t2' (Returns nxt) /\ v = Cons (Num n) nxt).
      { intros t2' Q. apply plays_returns in Q. destruct Q as (nxt & q1 & q2 & Q1 & Q2 & ->).
        inversion Q2; subst. rewrite app_nil_r. eauto. }
      destruct act as [ | | |c|z|tt s|tt x y]; cbn beta iota in P2.
      * cbn [num_field need pbind] in P2. rewrite D in P2. inversion P2; subst.
        destruct (IH _ _ Sf H3) as (k & SV & ->). exists k. split; [apply serves_gone; auto|auto].
      * apply K; [discriminate|discriminate|]. apply K'; auto.
      * apply K; [discriminate|discriminate|]. apply K'; auto.
      * apply K; [discriminate|discriminate|]. apply K'; auto.
      * apply plays_returns in P2. destruct P2 as (nxt & q1 & q2 & Q1 & Q2 & ->).
        cbn [num_field need pbind] in Q2. destruct (Z.eqb_spec n z) as [->|NE]; inversion Q2; subst; rewrite app_nil_r.
        -- apply K; [discriminate|congruence|]. eauto.
        -- destruct (IH _ _ Sf Q1) as (k & SV & ->). exists (z :: n :: k). split; [|reflexivity].
           apply serves_new; auto.
      * apply K; [discriminate|discriminate|]. apply K'; auto.
      * apply K; [discriminate|discriminate|]. apply K'; auto.
    + inversion P1; subst. apply plays_returns in P2. destruct P2 as (nxt & q1 & q2 & Q1 & Q2 & ->).
      inversion Q2; subst. rewrite app_nil_r. destruct (IH _ _ Sf Q1) as (k & SV & ->). exists (n :: k).
      split; [|reflexivity]. cbn [app]. apply serves_idle; auto. intro I. apply B in I. discriminate.
Qed.

Lemma watch_small : forall fds set, small fds ->
  exists m, watch (mk_list (map Num fds)) set = Some (set ++ fds, m) /\ above fds (m + 1) /\ -1 <= m.
Proof.
  induction fds as [|n fds IH]; intros set S; cbn [map mk_list watch].
  - exists (-1). rewrite app_nil_r. split; auto. split; [left; auto|lia].
  - inversion S as [|? ? Sn Sf]; subst.
    assert (C1 : ((n >=? 0) && (n <? 2 ^ 32 - 1))%bool = true).
    { apply andb_true_iff. split; [rewrite Z.geb_leb; apply Z.leb_le; lia|apply Z.ltb_lt; change (2^32) with 4294967296; lia]. }
    rewrite C1. rewrite (proj2 (Z.ltb_lt n 1024)) by lia.
    destruct (IH (set ++ [n]) Sf) as (m & E & A & M). rewrite E.
    exists (if n >? m then n else m). split; [rewrite <- app_assoc; reflexivity|].
    rewrite Z.gtb_ltb. destruct (Z.ltb_spec m n).
    + split; [|lia]. right. split; [left; lia|]. intros x [->|I]; [lia|].
      destruct A as [[-> _]|[_ A]]; [destruct I|]. specialize (A x I). lia.
    + split; [|lia]. right. destruct A as [[-> A]|[A1 A2]]; [lia|].
      split; [right; auto|]. intros x [->|I]; [lia|auto].
Qed.
Lemma list_numbers : forall fds, is_list (mk_list (map Num fds)) = true.
Proof. intros [|n fds]; reflexivity. Qed.

Lemma select_run : forall fds t v, small fds -> plays (select ev (mk_list (map Num fds))) t (Returns v) ->
  exists n r t', above fds n /\ t = (Select n fds fds, r) :: t' /\
    ((rv r < 0 /\ t' = [] /\ v = Nil) \/
     (0 <= rv r /\ exists t1 t2 k1 k2, t' = t1 ++ t2 /\
        serves ev (Symb (sy "ON_READ")) (rd r) fds t1 k1 /\ serves ev (Symb (sy "ON_ERROR")) (ex r) fds t2 k2 /\
        v = mk_list [mk_list (map Num k1); mk_list (map Num k2)])).
Proof.
  intros fds t v S H. unfold select in H. rewrite list_numbers in H. cbn [negb] in H.
  destruct (watch_small fds [] S) as (m & E & A & _). rewrite E in H. cbn [need pbind fst snd app] in H.
  inversion H; subst. exists (m + 1), r, t0. split; auto. split; auto.
  destruct (rv r <? 0) eqn:B; nums.
  - inversion H4; subst. left. auto.
  - right. split; auto. apply plays_returns in H4. destruct H4 as (v1 & t1 & t2 & P1 & P2 & ->).
    apply plays_returns in P2. destruct P2 as (v2 & t3 & t4 & P2 & P3 & ->). inversion P3; subst. rewrite app_nil_r.
    apply process_run in P1; auto. apply process_run in P2; auto.
    destruct P1 as (k1 & S1 & ->). destruct P2 as (k2 & S2 & ->).
    exists t1, t3, k1, k2. ands; auto.
Qed.
End Ev.

(** ** Programs *)

Lemma strings_ok : forall size len l idx, Forall c_plain l -> (idx <= len < size)%nat ->
  make_strings size (mk_list (map string_of l)) len idx = Some (map (@firstn N PATH_MAX) (firstn (len - idx) l)).
Proof.
  intros size len l. induction l as [|s l IH]; intros idx F L; cbn [map mk_list].
  - rewrite firstn_nil. cbn [make_strings]. rewrite (proj2 (Nat.ltb_lt idx size)) by lia. cbn [negb map].
    destruct (Nat.eqb idx len); auto.
  - inversion F; subst. cbn [make_strings]. rewrite (proj2 (Nat.ltb_lt idx size)) by lia. cbn [negb].
    destruct (Nat.eqb_spec idx len) as [->|N].
    + rewrite Nat.sub_diag. reflexivity.
    + rewrite text_fits by (auto; lia). rewrite IH by (auto; lia).
      replace (len - idx)%nat with (S (len - S idx)) by lia. reflexivity.
Qed.
Lemma firstn_short : forall l, Forall (fun s => (length s <= PATH_MAX)%nat) l -> map (@firstn N PATH_MAX) l = l.
Proof.
  induction l as [|s l IH]; intro F; [reflexivity|]. inversion F; subst. cbn [map]. rewrite firstn_all2 by auto. rewrite IH; auto.
Qed.
Lemma ask_exit : forall A c (f : reply -> Z) t (e : ending A), plays (Ask c (fun r => Exit (f r))) t e ->
  (t = [] /\ e = Waits c) \/ exists r, t = [(c, r)] /\ e = Exits (f r).
Proof. intros A c f t e H. inversion H; subst; [left; auto|right]. inversion H4; subst. eauto. Qed.
Lemma ask_fin : forall A c (f : reply -> A) t e, plays (Ask c (fun r => Fin (f r))) t e ->
  (t = [] /\ e = Waits c) \/ exists r, t = [(c, r)] /\ e = Returns (f r).
Proof. intros A c f t e H. inversion H; subst; [left; auto|right]. inversion H4; subst. eauto. Qed.
Lemma exec_run : forall p args envp t e, c_plain p -> Forall c_plain args -> Forall c_plain envp ->
  plays (exec (string_of p) (mk_list (map string_of args)) (mk_list (map string_of envp))) t e ->
  let c := Exec (firstn PATH_MAX p) (firstn PATH_MAX p :: map (@firstn N PATH_MAX) (firstn 126 args))
             (match envp with [] => None | _ => Some (map (@firstn N PATH_MAX) (firstn 128 envp)) end) in
  (t = [] /\ e = Waits c) \/ exists r, t = [(c, r)] /\ e = Exits (er r).
Proof.
  intros p args envp t e P A V H. unfold exec in H.
  rewrite text_fits in H by (auto; lia). cbn [need pbind fst] in H.
  rewrite strings_ok in H by (auto; unfold MAX_ARGS; lia). cbn [need pbind] in H.
  rewrite strings_ok in H by (auto; unfold MAX_ARGS; lia). cbn [need pbind] in H.
  change (MAX_ARGS - 1 - 1)%nat with 126%nat in H. change (MAX_ARGS - 0)%nat with 128%nat in H.
  cbv zeta.
  apply ask_exit in H. destruct envp; exact H.
Qed.

Lemma unlink_run : forall s t e, c_plain s -> (length s < PATH_MAX)%nat -> plays (unlink (string_of s)) t e ->
  (t = [] /\ e = Waits (Unlink s)) \/
  exists r, t = [(Unlink s, r)] /\ e = Returns (if rv r =? 0 then Tru else Nil).
Proof.
  intros s t e P L H. unfold unlink in H. rewrite string_is in H. cbn [negb] in H.
  rewrite text_short in H by (auto; len). cbn [need pbind fst] in H.
  apply ask_fin in H. exact H.
Qed.
Lemma unlink_long : forall s, (PATH_MAX <= length s)%nat -> plays (unlink (string_of s)) [] Undefined.
Proof. intros s L. unfold unlink. rewrite string_is. cbn [negb]. rewrite text_long by auto. constructor. Qed.

(** ** Lines *)

Lemma take_line_line : forall l r, line l -> take_line (l ++ 10%N :: r) = (l ++ [10%N], r).
Proof.
  induction l as [|b l IH]; intros r H; cbn [app take_line].
  - reflexivity.
  - destruct (N.eqb_spec b 10) as [->|N]; [exfalso; apply H; cbn; auto|].
    rewrite IH; auto. intro I. apply H. cbn; auto.
Qed.
Lemma escapes_plain : forall l acc, ~ In 92 l -> process_escapes l false acc = acc ++ l.
Proof.
  induction l as [|c l IH]; intros acc H; cbn [process_escapes]; [rewrite app_nil_r; auto|].
  destruct (Z.eqb_spec c 92) as [->|N]; [exfalso; apply H; cbn; auto|].
  rewrite IH; [rewrite <- app_assoc; auto|]. intro I. apply H. cbn; auto.
Qed.
Lemma string_plain : forall l, ~ In 92%N l -> Forall (fun b => (b < 256)%N) l -> make_string l = string_of l.
Proof.
  intros l H B. unfold make_string, make_string_chars. rewrite escapes_plain; [symmetry; apply string_chars|].
  intro I. apply in_map_iff in I. destruct I as (b & E & I). apply H.
  replace 92%N with b; auto. rewrite Forall_forall in B. specialize (B b I).
  unfold schar in E. destruct (Z.ltb_spec (Z.of_N b) 128); lia.
Qed.
Lemma readline_line : forall l r, line l -> readline (l ++ 10%N :: r) = (make_string l, r).
Proof.
  intros l r H. unfold readline, getline. rewrite take_line_line by auto.
  destruct l as [|b l]; cbn [app].
  - reflexivity.
  - rewrite app_comm_cons, last_last, removelast_last. reflexivity.
Qed.
Definition plain_line (l : bytes) : Prop := line l /\ ~ In 92%N l /\ Forall (fun b => (b < 256)%N) l.
Lemma readlines_text : forall ls n r, Forall plain_line ls ->
  readlines (length ls + n) (text_of ls ++ r) =
  (map string_of ls ++ fst (readlines n r), snd (readlines n r)).
Proof.
  induction ls as [|l ls IH]; intros n r F; cbn [length Nat.add].
  - cbn [text_of map concat app]. destruct (readlines n r); reflexivity.
  - inversion F as [|? ? [L [P B]] F']; subst. unfold text_of. cbn [map concat readlines].
    rewrite <- !app_assoc. cbn [app]. rewrite readline_line by auto. rewrite string_plain by auto.
    fold (text_of ls). rewrite IH by auto. reflexivity.
Qed.
Lemma readlines_eof : forall n, readlines n [] = (repeat (Symb (sy "EOF")) n, []).
Proof. induction n as [|n IH]; cbn [readlines]; auto. unfold readline. cbn [getline]. rewrite IH. reflexivity. Qed.
Lemma make_string_not : forall l s, make_string l <> Symb s.
Proof. intros l s. unfold make_string, mk_chars. destruct (make_string_chars l); discriminate. Qed.
Lemma readline_eof : forall s v r, readline s = (v, r) -> (v = Symb (sy "EOF") <-> s = []).
Proof.
  intros s v r E. unfold readline in E. destruct s as [|b s]; cbn [getline] in E.
  - injection E as <- <-. tauto.
  - destruct (take_line (b :: s)). injection E as <- <-. split; [|discriminate]. intro X. apply make_string_not in X. destruct X.
Qed.
Lemma take_line_app : forall s l r, take_line s = (l, r) -> s = l ++ r.
Proof.
  induction s as [|b s IH]; intros l r E; cbn [take_line] in E.
  - injection E as <- <-. reflexivity.
  - destruct (N.eqb b 10); [injection E as <- <-; reflexivity|].
    destruct (take_line s) as [l' r']. injection E as <- <-. cbn. f_equal. auto.
Qed.
Lemma take_line_one : forall s l r, take_line s = (l, r) -> forall x y, l = x ++ 10%N :: y -> y = [].
Proof.
  induction s as [|b s IH]; intros l r E x y L; cbn [take_line] in E.
  - injection E as <- <-. destruct x; discriminate.
  - destruct (N.eqb_spec b 10) as [->|N].
    + injection E as <- <-. destruct x as [|z [|]]; cbn in L; congruence.
    + destruct (take_line s) as [l' r'] eqn:T. injection E as <- <-.
      destruct x as [|z x]; cbn in L; injection L as L1 L2; [congruence|]. eapply IH; eauto.
Qed.
