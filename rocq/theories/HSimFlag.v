(** * HSimFlag: flagging the calls of a tree of cells. *)
From Verif Require Import Value Tails Print Heap HeapSpec HeapProofs HeapOps HEval HEvalSpec HEvalBase HEvalProofs ValueProofs TailsProofs HSimSpec HSimBase HSimOps HSimList HSimMix HSimPure HSimLisp HSimState HSimMark HSimCall HSimTree.
From Verif Require Eval.
Open Scope nat_scope.
Open Scope heap_scope.

Fixpoint lsize (l : lat) : nat := match l with LLeaf _ _ => 1 | LNode _ _ x y => S (lsize x + lsize y) end.

(** ** Equations of [ltails] *)
Lemma ltails_clauses : forall a t k u s a1 t1 c l, named s "if" = false -> named s "cond" || named s "match" = true ->
  ltails (LNode a t (LLeaf k (Sym u s)) (LNode a1 t1 c l)) = lassoc l.
Proof. intros a t k u s a1 t1 c l N1 N2. cbn [ltails]. rewrite N1, N2. reflexivity. Qed.
Lemma ltails_prog : forall a t k u s a1 t1 c l, named s "if" = false -> named s "cond" || named s "match" = false -> named s "prog" || named s "|>" = true ->
  ltails (LNode a t (LLeaf k (Sym u s)) (LNode a1 t1 c l)) = llast (LNode a1 t1 c l).
Proof. intros a t k u s a1 t1 c l N1 N2 N3. cbn [ltails]. rewrite N1, N2, N3. reflexivity. Qed.

(** ** What holds of all parts holds of the tails *)
Section Parts.
Variable Q : lat -> Prop.
Hypothesis down : forall a t x y, Q (LNode a t x y) -> Q x /\ Q y.
Lemma tails_parts : forall x, Q x -> Forall Q (ltails x).
Proof.
  intro x. assert (G : forall n x, lsize x < n -> Q x -> Forall Q (ltails x)); [|eauto]. clear x.
  induction n as [|n IH]; intros x L H; [lia|].
  assert (LA : forall l, lsize l < n -> Q l -> Forall Q (lassoc l)).
  { induction l as [a v|a t x1 _ y IHy]; intros Ll Hl; [constructor|]. destruct (down _ _ _ _ Hl) as [Hx Hy]. cbn [lsize] in Ll.
    destruct x1 as [a1 v1|a1 t1 k e]; cbn [lassoc]; [apply IHy; auto; lia|]. apply Forall_app. split; [|apply IHy; auto; lia].
    cbn [lsize] in Ll. apply IH; [lia|]. apply (down _ _ _ _ Hx). }
  assert (LL : forall l, lsize l < S n -> Q l -> Forall Q (llast l)).
  { induction l as [a v|a t x1 _ y IHy]; intros Ll Hl; [constructor|]. destruct (down _ _ _ _ Hl) as [Hx Hy]. cbn [lsize] in Ll.
    cbn [llast]. destruct y as [a1 v1|a1 t1 k e]; [apply IH; auto; lia|]. apply IHy; auto. lia. }
  destruct x as [a v|a t h d]; [destruct v; repeat constructor; auto|].
  destruct h as [k v|k t0 h1 h2]; [|repeat constructor; auto]. destruct v as [| | | | |u s|]; try (repeat constructor; auto; fail).
  destruct (down _ _ _ _ H) as [Hh Hd]. cbn [lsize] in L.
  destruct (named s "if") eqn:N1; [|destruct (named s "cond" || named s "match") eqn:N2; [|destruct (named s "prog" || named s "|>") eqn:N3;
      [|destruct (named s "unless" || named s "when") eqn:N4]]].
  - cbn [ltails]. rewrite N1. destruct d as [|a1 t1 c d]; [constructor|]. destruct (down _ _ _ _ Hd) as [_ Hd1]. destruct d as [|a2 t2 th d]; [constructor|].
    destruct (down _ _ _ _ Hd1) as [Ht Hd2]. cbn [lsize] in L. destruct d as [|a3 t3 el d].
    + apply IH; auto. lia.
    + destruct (down _ _ _ _ Hd2) as [He _]. cbn [lsize] in L. apply Forall_app. split; apply IH; auto; lia.
  - destruct d as [|a1 t1 c d]; [cbn [ltails]; rewrite N1, N2; constructor|]. destruct (down _ _ _ _ Hd) as [_ Hd1]. cbn [lsize] in L.
    rewrite ltails_clauses; auto. apply LA; auto. lia.
  - destruct d as [|a1 t1 c d]; [cbn [ltails]; rewrite N1, N2, N3; repeat constructor; auto|]. rewrite ltails_prog; auto. apply LL; auto. lia.
  - cbn [ltails]. rewrite N1, N2, N3, N4. destruct d as [|a1 t1 c d]; [constructor|]. destruct (down _ _ _ _ Hd) as [_ Hd1]. destruct d as [|a2 t2 th d]; [constructor|].
    destruct (down _ _ _ _ Hd1) as [Ht _]. cbn [lsize] in L. apply IH; auto. lia.
  - cbn [ltails]. rewrite N1, N2, N3, N4. repeat constructor; auto.
Qed.
End Parts.
Lemma tails_addrs : forall x, Forall (fun t => incl (addrs t) (addrs x)) (ltails x).
Proof.
  intro x. apply (tails_parts (fun t => incl (addrs t) (addrs x))); [|apply incl_refl].
  intros a t y z H. split; intros b Ib; apply H; cbn; right; apply in_or_app; auto.
Qed.

(** ** The flagged cells *)
Definition mem (a : N) (S : list N) : bool := existsb (N.eqb a) S.
Lemma mem_in : forall a S, mem a S = true <-> In a S.
Proof.
  intros a S. unfold mem. rewrite existsb_exists. split.
  - intros [x [I E]]. apply N.eqb_eq in E. subst. auto.
  - intro I. exists a. split; auto. apply N.eqb_refl.
Qed.
Lemma mem_out : forall a S, ~ In a S -> mem a S = false.
Proof. intros a S H. destruct (mem a S) eqn:E; auto. apply mem_in in E. contradiction. Qed.
Lemma mem_app : forall a S T, mem a (S ++ T) = mem a S || mem a T.
Proof. intros. apply existsb_app. Qed.

Fixpoint lset (S : list N) (l : lat) : lat :=
  match l with
  | LLeaf a (Sym t s) => LLeaf a (Sym (t || mem a S) s)
  | LLeaf _ _ => l
  | LNode a t x y => LNode a (t || mem a S) (lset S x) (lset S y)
  end.
Lemma lset_out : forall S l, (forall a, In a S -> ~ In a (addrs l)) -> lset S l = l.
Proof.
  intros S. induction l as [a v|a t x IHx y IHy]; intro D.
  - destruct v; auto. cbn. rewrite mem_out, orb_false_r; auto. intro I. apply (D a I). cbn. auto.
  - cbn. rewrite IHx, IHy, mem_out, orb_false_r; auto.
    + intro I. apply (D a I). cbn. auto.
    + intros b I J. apply (D b I). cbn. right. apply in_or_app. auto.
    + intros b I J. apply (D b I). cbn. right. apply in_or_app. auto.
Qed.
Lemma lset_ext : forall S T l, (forall a, In a (addrs l) -> mem a S = mem a T) -> lset S l = lset T l.
Proof.
  intros S T. induction l as [a v|a t x IHx y IHy]; intro D.
  - destruct v; auto. cbn. rewrite D; auto. cbn. auto.
  - cbn. rewrite IHx, IHy, D; auto; intros; try apply D; cbn; auto; right; apply in_or_app; auto.
Qed.
Lemma lset_l : forall S T l, (forall a, In a T -> ~ In a (addrs l)) -> lset (S ++ T) l = lset S l.
Proof.
  intros S T l D. apply lset_ext. intros a I. rewrite mem_app, (mem_out a T), orb_false_r; auto. intro J. apply (D a J I).
Qed.
Lemma lset_r : forall S T l, (forall a, In a S -> ~ In a (addrs l)) -> lset (S ++ T) l = lset T l.
Proof.
  intros S T l D. apply lset_ext. intros a I. rewrite mem_app, (mem_out a S); auto. intro J. apply (D a J I).
Qed.
Lemma lset_nil : forall l, lset [] l = l.
Proof. intro l. apply lset_out. intros a []. Qed.
Lemma lset_root : forall S l, root (lset S l) = root l.
Proof. intros S [a v|]; [destruct v|]; reflexivity. Qed.
Lemma lset_addrs : forall S l, addrs (lset S l) = addrs l.
Proof. intros S. induction l as [a v|a t x IHx y IHy]; [destruct v; reflexivity|]. cbn. rewrite IHx, IHy. auto. Qed.

Section Marks.
Variables (f : symbol) (av : atom).
(** The heads that the loop flags. *)
Definition thead (t : lat) : list N :=
  match t with
  | LNode _ _ (LLeaf k (Sym _ s)) d => if sym_match s f && may_apply av (erase d) then [k] else []
  | _ => []
  end.
Definition theads (l : list lat) : list N := flat_map thead l.
Lemma theads_app : forall l r, theads (l ++ r) = theads l ++ theads r.
Proof. intros. apply flat_map_app. Qed.
Lemma thead_addrs : forall t a, In a (thead t) -> In a (addrs t).
Proof.
  intros t a I. destruct t as [|b t [k v|] d]; try destruct I. cbn [thead] in I. destruct v; try destruct I.
  destruct (_ && _); [|destruct I]. destruct I as [<-|[]]. cbn. auto.
Qed.
Lemma theads_in : forall x a, In a (theads (ltails x)) -> In a (addrs x).
Proof.
  intros x a I. apply in_flat_map in I. destruct I as [t [It Ia]]. pose proof (tails_addrs x) as G. rewrite Forall_forall in G.
  apply (G t It). apply thead_addrs. auto.
Qed.

Lemma mark_head : forall a t k u s d, NoDup (addrs (LNode a t (LLeaf k (Sym u s)) d)) ->
  erase (lset (thead (LNode a t (LLeaf k (Sym u s)) d)) (LNode a t (LLeaf k (Sym u s)) d)) = mark_cell f av (Pair t (Sym u s) (erase d)).
Proof.
  intros a t k u s d ND. cbn [thead mark_cell]. destruct (sym_match s f && may_apply av (erase d)).
  - cbn in ND. inversion ND as [|? ? A1 A2]; subst. inversion A2 as [|? ? A3 A4]; subst.
    cbn [lset erase]. rewrite (lset_out [k] d).
    + rewrite (mem_out a). 2:{ intros [->|[]]. apply A1. cbn. auto. }
      rewrite orb_false_r. replace (mem k [k]) with true; [rewrite orb_true_r; auto|]. symmetry. apply mem_in. cbn. auto.
    + intros b [<-|[]]. auto.
  - rewrite lset_nil. reflexivity.
Qed.

Lemma nodup_l : forall (l r : list N), NoDup (l ++ r) -> NoDup l.
Proof. induction l as [|x l IH]; intros r H; [constructor|]. cbn in H. inversion H as [|? ? A C]; subst. constructor; [|eapply IH; eauto]. intro I. apply A. apply in_or_app. auto. Qed.
Lemma nodup_r : forall (l r : list N), NoDup (l ++ r) -> NoDup r.
Proof. induction l as [|x l IH]; intros r H; auto. cbn in H. inversion H; subst. auto. Qed.
Lemma nodup_sep : forall (l r : list N) a, NoDup (l ++ r) -> In a l -> ~ In a r.
Proof.
  induction l as [|x l IH]; intros r a H I J; [destruct I|]. cbn in H. inversion H as [|? ? A C]; subst. destruct I as [->|I].
  - apply A. apply in_or_app. auto.
  - eapply IH; eauto.
Qed.
Lemma node_nodup : forall a t x y, NoDup (addrs (LNode a t x y)) -> NoDup (addrs x) /\ NoDup (addrs y) /\
  ~ In a (addrs x) /\ ~ In a (addrs y) /\ (forall b, In b (addrs x) -> ~ In b (addrs y)).
Proof.
  intros a t x y H. cbn in H. inversion H as [|? ? A C]; subst. rewrite in_app_iff in A. split; [eapply nodup_l; eauto|]. split; [eapply nodup_r; eauto|].
  split; [tauto|]. split; [tauto|]. intros b. apply nodup_sep. auto.
Qed.
(** Flags inside one of the two sides. *)
Lemma lset_left : forall S a t x y, NoDup (addrs (LNode a t x y)) -> (forall b, In b S -> In b (addrs x)) ->
  lset S (LNode a t x y) = LNode a t (lset S x) y.
Proof.
  intros S a t x y ND I. apply node_nodup in ND. destruct ND as [_ [_ [Ax [Ay D]]]]. cbn [lset]. rewrite (mem_out a), orb_false_r by auto.
  rewrite (lset_out S y); auto.
Qed.
Lemma lset_right : forall S a t x y, NoDup (addrs (LNode a t x y)) -> (forall b, In b S -> In b (addrs y)) ->
  lset S (LNode a t x y) = LNode a t x (lset S y).
Proof.
  intros S a t x y ND I. apply node_nodup in ND. destruct ND as [_ [_ [Ax [Ay D]]]]. cbn [lset]. rewrite (mem_out a), orb_false_r by auto.
  rewrite (lset_out S x); auto. intros b Ib J. apply (D b J). auto.
Qed.
Lemma lassoc_in : forall l a, In a (theads (lassoc l)) -> In a (addrs l).
Proof.
  induction l as [b v|b t x _ y IH]; intros a I; [destruct I|]. cbn [lassoc] in I. destruct x as [a1 v1|a1 t1 k e].
  - cbn. right. right. auto.
  - rewrite theads_app in I. apply in_app_or in I. cbn. right. right. destruct I as [I|I]; [apply theads_in in I|apply IH in I]; rewrite !in_app_iff; auto.
Qed.
Lemma llast_in : forall l a, In a (theads (llast l)) -> In a (addrs l).
Proof.
  induction l as [b v|b t x _ y IH]; intros a I; [destruct I|]. cbn [llast] in I. cbn [addrs]. right. apply in_or_app. destruct y as [a1 v1|a1 t1 k e].
  - left. apply theads_in. auto.
  - right. apply IH. auto.
Qed.

(** The leaves are not pairs. *)
Fixpoint lok (l : lat) : Prop := match l with LLeaf _ v => is_pair v = false | LNode _ _ x y => lok x /\ lok y end.
Definition marks (n : nat) : Prop := forall x, lsize x < n -> lok x -> NoDup (addrs x) -> erase (lset (theads (ltails x)) x) = tmap (mark_cell f av) (erase x).
Lemma mark_assoc : forall n l, marks n -> lsize l < n -> lok l -> NoDup (addrs l) -> erase (lset (theads (lassoc l)) l) = tassoc (mark_cell f av) (erase l).
Proof.
  intros n l M. induction l as [a v|a t x _ y IH]; intros L K ND.
  - cbn [lassoc]. change (theads []) with (@nil N). rewrite lset_nil. cbn in K. destruct v; try discriminate K; reflexivity.
  - destruct (node_nodup _ _ _ _ ND) as [NX [NY [AX [AY D]]]]. cbn [lok] in K. destruct K as [KX KY]. cbn [lsize] in L.
    destruct x as [a1 v1|a1 t1 k e].
    + cbn [lassoc]. rewrite lset_right; auto; [|apply lassoc_in]. cbn [erase]. rewrite IH by (auto; lia). destruct v1; try discriminate KX; reflexivity.
    + cbn [lassoc]. rewrite theads_app. cbn [lset]. destruct (node_nodup _ _ _ _ NX) as [NK [NE [AK [AE D2]]]]. cbn [lok] in KX. destruct KX as [KK KE].
      assert (I1 : forall b, In b (theads (ltails e)) -> In b (addrs e)) by (apply theads_in).
      assert (I2 : forall b, In b (theads (lassoc y)) -> In b (addrs y)) by (apply lassoc_in).
      cbn [addrs] in AX, D. cbn [lsize] in L.
      assert (OUT : forall b l, In b (theads (ltails e) ++ theads (lassoc y)) -> (forall c, In c (addrs e) -> ~ In c l) -> (forall c, In c (addrs y) -> ~ In c l) -> ~ In b l).
      { intros b l Ib E1 E2. apply in_app_or in Ib. destruct Ib; auto. }
      rewrite !mem_out, !orb_false_r.
      2:{ intro I. apply in_app_or in I. destruct I as [I|I]; [apply AE; auto|]. apply I2 in I. apply (D a1); cbn; auto. }
      2:{ intro I. apply in_app_or in I. destruct I as [I|I]; [apply AX; cbn; right; apply in_or_app; auto|]. auto. }
      rewrite (lset_out _ k).
      2:{ intros b Ib. apply (OUT b _ Ib); intros c I J.
          - apply (D2 c J I).
          - apply (D c); auto. cbn. right. apply in_or_app. auto. }
      rewrite lset_l.
      2:{ intros b Ib J. apply (D b); auto. cbn. right. apply in_or_app. auto. }
      rewrite lset_r.
      2:{ intros b Ib J. apply (D b); auto. cbn. right. apply in_or_app. auto. }
      cbn [erase]. rewrite (M e) by (auto; lia). rewrite IH; auto. lia.
Qed.
Lemma mark_last : forall n l, marks n -> lsize l <= n -> lok l -> NoDup (addrs l) -> erase (lset (theads (llast l)) l) = tlast (mark_cell f av) (erase l).
Proof.
  intros n l M. induction l as [a v|a t x _ y IH]; intros L K ND.
  - cbn [llast]. change (theads []) with (@nil N). rewrite lset_nil. cbn in K. destruct v; try discriminate K; reflexivity.
  - destruct (node_nodup _ _ _ _ ND) as [NX [NY [AX [AY D]]]]. cbn [lok] in K. destruct K as [KX KY]. cbn [lsize] in L.
    destruct y as [a1 v1|a1 t1 k e].
    + cbn [llast]. rewrite lset_left; auto; [|apply theads_in]. cbn [erase]. rewrite (M x) by (auto; lia). destruct v1; try discriminate KY; reflexivity.
    + change (llast (LNode a t x (LNode a1 t1 k e))) with (llast (LNode a1 t1 k e)). rewrite lset_right; auto; [|apply llast_in].
      cbn [erase]. rewrite IH by (auto; lia). reflexivity.
Qed.
Lemma mark_all : forall n, marks n.
Proof.
  induction n as [|n IH]; intros x L K ND; [lia|]. destruct x as [a v|a t h d].
  - cbn in K. assert (Q : theads (ltails (LLeaf a v)) = []) by (destruct v; reflexivity). rewrite Q, lset_nil. destruct v; try discriminate K; reflexivity.
  - destruct h as [k v|k t0 h1 h2].
    2:{ change (ltails (LNode a t (LNode k t0 h1 h2) d)) with [LNode a t (LNode k t0 h1 h2) d]. change (theads [LNode a t (LNode k t0 h1 h2) d]) with (@nil N).
        rewrite lset_nil. reflexivity. }
    destruct v as [| | | | |u s|]; try (change (theads (ltails (LNode a t (LLeaf k _) d))) with (@nil N); rewrite lset_nil; reflexivity).
    destruct (node_nodup _ _ _ _ ND) as [_ [NY [_ [_ D0]]]]. cbn [lok] in K. destruct K as [_ KY]. cbn [lsize] in L.
    destruct (named s "if") eqn:N1; [|destruct (named s "cond" || named s "match") eqn:N2; [|destruct (named s "prog" || named s "|>") eqn:N3;
      [|destruct (named s "unless" || named s "when") eqn:N4]]].
    + destruct d as [a1 v1|a1 t1 c d].
      { cbn [ltails erase tmap]. rewrite N1. change (theads []) with (@nil N). rewrite lset_nil. destruct v1; try discriminate KY; reflexivity. }
      destruct (node_nodup _ _ _ _ NY) as [_ [ND1 _]]. cbn [lok] in KY. destruct KY as [KC KY].
      destruct d as [a2 v2|a2 t2 th d].
      { cbn [ltails erase tmap]. rewrite N1. change (theads []) with (@nil N). rewrite lset_nil. destruct v2; try discriminate KY; reflexivity. }
      destruct (node_nodup _ _ _ _ ND1) as [NT [ND2 [AT2 [AD2 DT]]]]. cbn [lok] in KY. destruct KY as [KT KY]. cbn [lsize] in L.
      destruct d as [a3 v3|a3 t3 el d].
      * cbn [ltails]. rewrite N1. rewrite lset_right; auto; [|intros b I; apply theads_in in I; cbn; right; rewrite !in_app_iff; cbn; rewrite in_app_iff; auto].
        rewrite lset_right; auto; [|intros b I; apply theads_in in I; cbn; right; rewrite !in_app_iff; auto].
        rewrite lset_left; auto; [|apply theads_in]. cbn [erase tmap]. rewrite N1, (IH th) by (auto; lia). destruct v3; try discriminate KY; reflexivity.
      * destruct (node_nodup _ _ _ _ ND2) as [NE [_ [_ [_ DE]]]]. cbn [lok] in KY. destruct KY as [KE KY]. cbn [lsize] in L.
        cbn [ltails]. rewrite N1, theads_app.
        assert (I1 : forall b, In b (theads (ltails th)) -> In b (addrs th)) by (apply theads_in).
        assert (I2 : forall b, In b (theads (ltails el)) -> In b (addrs el)) by (apply theads_in).
        assert (II : forall b, In b (theads (ltails th) ++ theads (ltails el)) -> In b (addrs th) \/ In b (addrs el)) by (intros b I; apply in_app_or in I; destruct I; auto).
        rewrite lset_right; auto; [|intros b I; apply II in I; cbn; rewrite !in_app_iff; cbn; rewrite !in_app_iff; cbn; rewrite !in_app_iff; tauto].
        rewrite lset_right; auto; [|intros b I; apply II in I; cbn; rewrite !in_app_iff; cbn; rewrite !in_app_iff; tauto].
        cbn [lset]. rewrite (mem_out a2), (mem_out a3), !orb_false_r.
        2:{ intro I. apply II in I. destruct I as [I|I]; [apply (DT a3 I); cbn; auto|]. inversion ND2 as [|? ? Q1 Q2]; subst. apply Q1. apply in_or_app. auto. }
        2:{ intro I. apply II in I. destruct I as [I|I]; [auto|]. apply AD2. cbn. rewrite in_app_iff. auto. }
        rewrite (lset_l _ _ th); [|intros b I J; apply (DT b J); cbn; rewrite in_app_iff; auto].
        rewrite (lset_r _ _ el); [|intros b I J; apply (DT b); auto; cbn; rewrite in_app_iff; auto].
        rewrite (lset_out _ d); [|intros b I J; apply II in I; destruct I as [I|I]; [apply (DT b I); cbn; rewrite in_app_iff; auto|apply (DE b I J)]].
        cbn [erase tmap]. rewrite N1, (IH th), (IH el) by (auto; lia). reflexivity.
    + destruct d as [a1 v1|a1 t1 c d].
      { cbn [ltails erase tmap]. rewrite N1, N2. change (theads []) with (@nil N). rewrite lset_nil. destruct v1; try discriminate KY; reflexivity. }
      destruct (node_nodup _ _ _ _ NY) as [_ [ND1 _]]. cbn [lok] in KY. destruct KY as [KC KY]. cbn [lsize] in L.
      rewrite ltails_clauses; auto. rewrite lset_right; auto; [|intros b I; apply lassoc_in in I; cbn; rewrite !in_app_iff; auto].
      rewrite lset_right; auto; [|apply lassoc_in]. cbn [erase]. rewrite (mark_assoc n d) by (auto; lia).
      cbn [tmap]. rewrite N1, N2. reflexivity.
    + destruct d as [a1 v1|a1 t1 c d].
      { cbn [ltails erase tmap]. rewrite N1, N2, N3. change (theads [LLeaf k (Sym u s)]) with (@nil N). rewrite lset_nil. destruct v1; try discriminate KY; reflexivity. }
      rewrite ltails_prog; auto. rewrite lset_right; auto; [|apply llast_in].
      pose proof (mark_last n (LNode a1 t1 c d) IH ltac:(lia) KY NY) as G. cbn [erase] in G |- *. cbn [erase]. rewrite G.
      cbn [tmap]. rewrite N1, N2, N3. reflexivity.
    + destruct d as [a1 v1|a1 t1 c d].
      { cbn [ltails erase tmap]. rewrite N1, N2, N3, N4. change (theads []) with (@nil N). rewrite lset_nil. destruct v1; try discriminate KY; reflexivity. }
      destruct (node_nodup _ _ _ _ NY) as [_ [ND1 _]]. cbn [lok] in KY. destruct KY as [KC KY].
      destruct d as [a2 v2|a2 t2 th d].
      { cbn [ltails erase tmap]. rewrite N1, N2, N3, N4. change (theads []) with (@nil N). rewrite lset_nil. destruct v2; try discriminate KY; reflexivity. }
      destruct (node_nodup _ _ _ _ ND1) as [NT [ND2 [AT2 [AD2 DT]]]]. cbn [lok] in KY. destruct KY as [KT KY]. cbn [lsize] in L.
      cbn [ltails]. rewrite N1, N2, N3, N4. rewrite lset_right; auto; [|intros b I; apply theads_in in I; cbn; right; rewrite !in_app_iff; cbn; rewrite in_app_iff; auto].
      rewrite lset_right; auto; [|intros b I; apply theads_in in I; cbn; right; rewrite !in_app_iff; auto].
      rewrite lset_left; auto; [|apply theads_in]. cbn [erase tmap]. rewrite N1, N2, N3, N4, (IH th) by (auto; lia). reflexivity.
    + assert (Q : ltails (LNode a t (LLeaf k (Sym u s)) d) = [LNode a t (LLeaf k (Sym u s)) d]) by (cbn [ltails]; rewrite N1, N2, N3, N4; reflexivity).
      rewrite Q. assert (Q2 : forall x, theads [x] = thead x) by (intro x; cbn; rewrite app_nil_r; auto). rewrite Q2, mark_head; auto.
      cbn [erase tmap]. rewrite N1, N2, N3, N4. reflexivity.
Qed.
End Marks.

Lemma body_tlast : forall f av b b', mark_body f av b = Some b' -> b' = tlast (mark_cell f av) b.
Proof.
  intros f av. induction b as [| | | | | |t x _ y IH]; intros b' M; try discriminate M.
  cbn [mark_body] in M. destruct y as [| | | | | |t1 x1 y1]; try (injection M as <-; reflexivity).
  destruct (mark_body f av (Pair t1 x1 y1)) as [r|]; [|discriminate]. injection M as <-. rewrite (IH r eq_refl). reflexivity.
Qed.
Lemma mark_labelled : forall f av l b', lok l -> NoDup (addrs l) -> mark_body f av (erase l) = Some b' -> b' = erase (lset (theads f av (llast l)) l).
Proof.
  intros f av l b' K ND M. apply body_tlast in M. subst b'. symmetry. apply (mark_last f av (lsize l)); auto. apply mark_all.
Qed.

(** ** Labelled values in the heap *)
Fixpoint lr (h : heap) (l : lat) : Prop :=
  match l with
  | LLeaf a v => reads h a v /\ is_pair v = false
  | LNode a t x y => (exists c, cells h a = Some c /\ body c = KPair (root x) (root y) /\ tail c = t) /\ lr h x /\ lr h y
  end.
Lemma lr_reads : forall h l, lr h l -> reads h (root l) (erase l).
Proof.
  intros h. induction l as [a v|a t x IHx y IHy]; cbn; intro H; [apply H|]. destruct H as [[c [E [Bc <-]]] [X Y]]. eapply reads_pair; eauto.
Qed.
Lemma lr_ok : forall h l, lr h l -> lok l.
Proof. intros h. induction l as [a v|a t x IHx y IHy]; cbn; intro H; [apply H|]. destruct H as [_ [X Y]]. auto. Qed.
Lemma lr_exists : forall h a v, reads h a v -> exists l, root l = a /\ erase l = v /\ lr h l.
Proof.
  intros h a v H. induction H as [a c E Bc|a c E Bc|a c E Bc|a c z E Bc|a c z E Bc|a c s E Bc|a c x y v w E Bc Hx IHx Hy IHy].
  - exists (LLeaf a Nil). cbn. repeat split; auto. eapply reads_nil; eauto.
  - exists (LLeaf a Tru). cbn. repeat split; auto. eapply reads_true; eauto.
  - exists (LLeaf a Value.Wild). cbn. repeat split; auto. eapply reads_wild; eauto.
  - exists (LLeaf a (Chr z)). cbn. repeat split; auto. eapply reads_char; eauto.
  - exists (LLeaf a (Num z)). cbn. repeat split; auto. eapply reads_num; eauto.
  - exists (LLeaf a (Sym (tail c) s)). cbn. repeat split; auto. eapply reads_sym; eauto.
  - destruct IHx as [lx [<- [<- X]]]. destruct IHy as [ly [<- [<- Y]]]. exists (LNode a (tail c) lx ly). cbn. repeat split; auto. exists c. auto.
Qed.
Lemma leaf_body : forall h a v, reads h a v -> is_pair v = false -> exists c, cells h a = Some c /\ body_of v (body c).
Proof. intros h a v R NP. destruct R; try discriminate NP; exists c; cbn; auto. Qed.
Lemma lr_lw : forall h l, (forall a, alive h a -> (a < nxt h)%N) -> lr h l -> lw (nxt h) h l.
Proof.
  intros h l BD. induction l as [a v|a t x IHx y IHy]; cbn; intro H.
  - destruct H as [R NP]. destruct (leaf_body _ _ _ R NP) as [c [E Bc]]. split; [apply BD; unfold alive; congruence|]. split; auto.
    intros c0 E0. congruence.
  - destruct H as [[c [E [Bc _]]] [X Y]]. split; [apply BD; unfold alive; congruence|]. split; auto. intros c0 E0. congruence.
Qed.
Lemma lr_again : forall lo h l, lw lo h l -> reads h (root l) (erase l) -> lr h l.
Proof.
  intros lo h. induction l as [a v|a t x IHx y IHy]; cbn; intros W R.
  - destruct W as [_ [NP _]]. auto.
  - destruct W as [_ [Bd [X Y]]]. inversion R as [| | | | | |a0 c x0 y0 v0 w0 E Bc RX RY Q]; subst. rewrite (Bd c E) in Bc. injection Bc as <- <-. split; [|auto].
    exists c. auto.
Qed.
Lemma lr_down : forall h a t x y, lr h (LNode a t x y) -> lr h x /\ lr h y.
Proof. intros h a t x y [_ H]. exact H. Qed.

(** ** Heaps that differ by flags *)
Definition flags (S : list N) (h h' : heap) : Prop := nxt h' = nxt h /\ aux h' = aux h /\
  forall a, cells h' a = match cells h a with Some c => Some (if mem a S then with_tail c else c) | None => None end.
Lemma flags_refl : forall h, flags [] h h.
Proof. intro h. split; auto. split; auto. intro a. cbn. destruct (cells h a); auto. Qed.
Lemma flags_trans : forall S T h h1 h2, flags S h h1 -> flags T h1 h2 -> flags (S ++ T) h h2.
Proof.
  intros S T h h1 h2 [N1 [A1 C1]] [N2 [A2 C2]]. split; [congruence|]. split; [congruence|]. intro a. rewrite C2, C1. destruct (cells h a); auto.
  rewrite mem_app. destruct (mem a S), (mem a T); reflexivity.
Qed.
Lemma set_tail_flags : forall a h, wpv (set_tail a) (fun _ h' => flags [a] h h') h.
Proof.
  intros a h. unfold wpv, set_tail, hbind_, rd, wr. destruct (cells h a) as [c|] eqn:E; auto. rewrite E. split; [reflexivity|]. split; [reflexivity|].
  intro b. cbn. destruct (N.eqb_spec b a) as [->|]; cbn; [rewrite E; auto|]. destruct (cells h b); auto.
Qed.
Section Flags.
Variables (S : list N) (h h' : heap).
Hypothesis FL : flags S h h'.
Lemma flags_some : forall a c, cells h a = Some c -> exists c', cells h' a = Some c' /\ body c' = body c /\ tail c' = (tail c || mem a S)%bool /\ weak c' = weak c /\ refs c' = refs c.
Proof.
  intros a c E. destruct FL as [_ [_ C]]. rewrite C, E. eexists. split; [reflexivity|]. destruct (mem a S); cbn; rewrite ?orb_true_r, ?orb_false_r; auto.
Qed.
Lemma flags_back : forall a c', cells h' a = Some c' -> exists c, cells h a = Some c /\ body c' = body c /\ tail c' = (tail c || mem a S)%bool /\ weak c' = weak c /\ refs c' = refs c.
Proof.
  intros a c' E'. destruct FL as [_ [_ C]]. specialize (C a). rewrite E' in C. destruct (cells h a) as [c|]; [|discriminate]. exists c. split; auto. injection C as ->.
  destruct (mem a S); cbn; rewrite ?orb_true_r, ?orb_false_r; auto.
Qed.
Lemma flags_fields : forall a, fields_at h' a = fields_at h a.
Proof.
  intro a. unfold fields_at, fields. destruct (cells h a) as [c|] eqn:E.
  - destruct (flags_some _ _ E) as [c' [-> [-> [_ [-> _]]]]]. auto.
  - destruct FL as [_ [_ C]]. rewrite C, E. auto.
Qed.
Lemma flags_reach : forall R a, reach h R a -> reach h' R a.
Proof. intros R a H. induction H as [a I|a b H IH I]; [apply reach_root; auto|]. eapply reach_step; [exact IH|]. rewrite flags_fields. auto. Qed.
Lemma flags_lr : forall l, lr h l -> lr h' (lset S l).
Proof.
  induction l as [a v|a t x IHx y IHy]; cbn; intro H.
  - destruct H as [R NP]. inversion R as [a0 c E Bc|a0 c E Bc|a0 c E Bc|a0 c z E Bc|a0 c z E Bc|a0 c s E Bc|]; subst; try discriminate NP;
      destruct (flags_some _ _ E) as [c' [E' [B' [T' _]]]]; rewrite Bc in B'; cbn; split; auto.
    + eapply reads_nil; eauto.
    + eapply reads_true; eauto.
    + eapply reads_wild; eauto.
    + eapply reads_char; eauto.
    + eapply reads_num; eauto.
    + rewrite <- T'. eapply reads_sym; eauto.
  - destruct H as [[c [E [Bc Tc]]] [X Y]]. destruct (flags_some _ _ E) as [c' [E' [B' [T' _]]]]. split; [|auto].
    exists c'. rewrite !lset_root. split; auto. split; congruence.
Qed.
Lemma flags_correct : forall R, correct h R -> correct h' R.
Proof.
  intros R [Bd Ct Pr]. assert (AL : forall a, alive h' a <-> alive h a).
  { intro a. unfold alive. destruct FL as [_ [_ C]]. rewrite C. destruct (cells h a); split; congruence. }
  assert (ED : edges h' = edges h).
  { unfold edges, addresses. destruct FL as [-> _]. apply flat_map_ext. apply flags_fields. }
  constructor.
  - intros a A. apply AL in A. destruct FL as [-> _]. auto.
  - intros a c' E'. destruct (flags_back _ _ E') as [c [E [_ [_ [_ RF]]]]]. rewrite RF, ED. auto.
  - intros a. rewrite ED, AL. auto.
Qed.
Lemma flags_strong : strong h -> strong h'.
Proof. intros St a c' E'. destruct (flags_back _ _ E') as [c [E [_ [_ [W _]]]]]. rewrite W. eauto. Qed.
Lemma flags_kept : forall R O, own h O -> incl R O -> (forall s, In s S -> ~ reach h R s) -> kept R h h'.
Proof.
  intros R O OW I D. apply (kept_roots R O O); auto.
  - split; [apply flags_correct; apply OW|apply flags_strong; apply OW].
  - intros a c c' RA E E'. destruct FL as [_ [_ C]]. rewrite C, E in E'. injection E' as <-. rewrite mem_out; auto. intro J. apply (D a J RA).
Qed.
Lemma flags_spine : forall a p, on_spine h' a p -> on_spine h a p.
Proof.
  intros a p H. induction H as [a c x y E Bc|a c x y p E Bc H IH]; destruct (flags_back _ _ E) as [c0 [E0 [B0 _]]]; rewrite Bc in B0.
  - eapply spine_here; eauto.
  - eapply spine_next; eauto.
Qed.
Lemma flags_clear : forall T V, clear h T V -> clear h' T V.
Proof.
  intros T V C. pose proof FL as [N1 [A1 _]]. constructor.
  - rewrite N1. apply C.
  - intros a b. rewrite flags_fields. apply C.
  - apply C.
  - rewrite A1. intros s kv b I. rewrite flags_fields. apply (c_glob _ _ _ C _ _ _ I).
  - rewrite A1. apply C.
Qed.
Lemma flags_solo : forall a O, solo h a O -> solo h' a O.
Proof.
  intros a O [T [C [Sp Ca]]]. exists T. split; [apply flags_clear; auto|]. split.
  - intros p H. apply Sp. apply flags_spine. auto.
  - intros p c x y H E Bc. destruct (flags_back _ _ E) as [c0 [E0 [B0 _]]]. rewrite Bc in B0. eapply Ca; eauto. apply flags_spine. auto.
Qed.
Lemma flags_chain : forall l lo hi r, chain lo hi h r l -> chain lo hi h' r l.
Proof.
  intros l lo hi r H. eapply chain_lasts; [exact H|]. split; [destruct FL as [-> _]; lia|]. intros a c' _ E'. destruct (flags_back _ _ E') as [c [E [B0 _]]]. eauto.
Qed.
Lemma flags_holds : forall R, holds h R -> holds h' R.
Proof.
  intros R [C St G Ca Ch]. pose proof FL as [N1 [A1 _]]. constructor; rewrite ?A1; auto.
  - apply flags_correct. auto.
  - apply flags_strong. auto.
  - intros s kv I. destruct (G s kv I) as [c [k [v [ck [E [Bc [Ek Bk]]]]]]]. destruct (flags_some _ _ E) as [c' [E' [B' _]]]. destruct (flags_some _ _ Ek) as [ck' [Ek' [Bk' _]]].
    exists c', k, v, ck'. repeat split; auto; congruence.
  - intros Z a Ia. destruct (Ch Z a Ia) as [c [E PC]]. destruct (flags_some _ _ E) as [c' [E' [B' _]]]. exists c'. split; auto. unfold is_pair_c in *. rewrite B'. auto.
Qed.
Lemma flags_chans : forall a l, chans h a l -> chans h' a l.
Proof.
  intros a l H. induction H as [a c E Bc|a c e d ce k x ck n l E Bc Ee Be Ek Bk H IH].
  - destruct (flags_some _ _ E) as [c' [E' [B' _]]]. eapply chans_nil; eauto. congruence.
  - destruct (flags_some _ _ E) as [c' [E' [B' _]]]. destruct (flags_some _ _ Ee) as [ce' [Ee' [Be' _]]]. destruct (flags_some _ _ Ek) as [ck' [Ek' [Bk' _]]].
    rewrite Bc in B'. rewrite Be in Be'. rewrite Bk in Bk'. eapply chans_cons; eauto.
Qed.
Lemma flags_lisp : forall w R, own h R -> incl (held_by_lisp (aux h)) R -> (forall s, In s S -> ~ reach h (held_by_lisp (aux h)) s) -> lisp h w -> lisp h' w.
Proof.
  intros w R OW I D L. pose proof FL as [N1 [A1 _]]. pose proof (flags_kept _ _ OW I D) as K.
  assert (GA : forall s, global_at h' s = global_at h s) by (intro s; unfold global_at; rewrite A1; auto).
  constructor; rewrite ?A1; try apply L.
  - intros s v Q. destruct (g_bound _ _ L s v Q) as [kv [c [k [x [G [Ec [Bc Rx]]]]]]]. destruct (flags_some _ _ Ec) as [c' [E' [B' _]]].
    exists kv, c', k, x. rewrite GA. split; auto. split; auto. split; [congruence|]. eapply kept_reads; [apply OW|exact K| |exact Rx].
    eapply reach_step; [apply reach_root|eapply field_cdr; eauto; apply OW]. unfold held_by_lisp. apply in_or_app. left.
    unfold global_at in G. apply assq_in in G. destruct G as [s' [G _]]. apply in_map_iff. exists (s', kv). auto.
  - intros s Q. rewrite GA. apply (g_unbound _ _ L s Q).
  - intros s kv Is. destruct (g_alone _ _ L s kv Is) as [c [E RF]]. destruct (flags_some _ _ E) as [c' [E' [_ [_ [_ R']]]]]. exists c'. split; auto. congruence.
  - rewrite N1. intros a e Q. destruct (g_cached _ _ L a e Q) as [LT W]. split; auto. intros c' s E' Bc. rewrite GA.
    destruct (flags_back _ _ E') as [c [E [B0 _]]]. apply (W c s E). congruence.
  - apply flags_chans. apply L.
  - apply flags_chans. apply L.
Qed.
End Flags.
