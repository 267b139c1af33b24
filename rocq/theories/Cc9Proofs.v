(** * Cc9Proofs: what is bound after the conversion. *)
From Verif Require Import Base Value ValueSpec ValueProofs Tails Eval EvalSpec BuiltinSpec Lib LibSpec LibBase LibNum Install CcSpec Cc7Spec Cc7Proofs Cc8Proofs.
Open Scope nat_scope.

Lemma mk_list_inj : forall a b, mk_list a = mk_list b -> a = b.
Proof. induction a as [|x a IH]; intros [|y b] E; try discriminate E; [reflexivity|]. injection E as -> E. f_equal. apply IH. exact E. Qed.
Lemma unbound_mentioned : forall x e, unbound x e -> mentioned x e.
Proof. intros x e H. induction H; [constructor|apply mentioned_car; auto|apply mentioned_cdr; auto|apply mentioned_cdr, mentioned_cdr; auto]. Qed.
Lemma mentioned_in : forall x e l, In e l -> mentioned x e -> mentioned x (mk_list l).
Proof. induction l as [|a l IH]; intros J M; [destruct J|]. destruct J as [->|J]; [apply mentioned_car; exact M|apply mentioned_cdr; auto]. Qed.
Lemma unbound_in : forall x l, unbound x (mk_list l) -> exists e, In e l /\ unbound x e.
Proof.
  intros x l H. remember (mk_list l) as q eqn:Q. revert l Q. induction H as [|t a d N H IH|t a d N H IH|t t' ps body N H IH]; intros l Q.
  - destruct l; discriminate Q.
  - destruct l as [|y l]; [discriminate Q|]. injection Q as _ -> _. exists y. split; [left; reflexivity|exact H].
  - destruct l as [|y l]; [discriminate Q|]. injection Q as _ _ ->. destruct (IH l eq_refl) as [e [J U]]. exists e. split; [right; exact J|exact U].
  - destruct l as [|y [|z l]]; [discriminate Q|discriminate Q|]. injection Q as _ _ _ _ ->. destruct (IH l eq_refl) as [e [J U]].
    exists e. split; [right; right; exact J|exact U].
Qed.
Lemma placeholder_one : forall i p q, placeholder i p -> placeholder i q -> p = q.
Proof. intros i p q [l [W ->]] [l' [W' ->]]. rewrite (writes_one _ _ _ W W'). reflexivity. Qed.
Lemma placeholder_name : forall i p x, placeholder i p -> unbound x p -> p = Symb x.
Proof.
  intros i p x [l [W ->]] U. unfold sym_of in *. destruct (is_pair _ && is_string _)%bool; inversion U; reflexivity.
Qed.
Lemma under_one : forall x p r, unbound x (mk_list [Symb (sy "\"); mk_list [p]; mk_list r]) -> p <> Symb x /\ unbound x (mk_list r).
Proof.
  intros x p r U. cbn [mk_list] in U. inversion U as [|? ? ? N U1|? ? ? N U1|? ? ? ? N U1]; subst; try (exfalso; apply N; reflexivity). split.
  - intros ->. apply N. apply mentioned_car, mentioned_here.
  - inversion U1 as [|? ? ? N2 U2|? ? ? N2 U2|t t' ps body N2 U2 E1]; subst; [exact U2|inversion U2].
Qed.

Lemma bound_both :
  (forall c b k n r, lifts c b k n r -> forall x, unbound x (mk_list r) -> mentioned x b \/ exists e, In e k /\ unbound x e) /\
  (forall c es sw n r, wraps c es sw n r -> forall k m s, swaps c es k m s -> exists is, stand k es is s /\
     forall x, unbound x (mk_list r) -> (exists e, In e es /\ mentioned x e) \/
       unbound x (mk_list sw) /\ Forall (fun i => ~ placeholder i (Symb x)) is).
Proof.
  apply lifts_wraps.
  - intros c b k N1 N2 x U. destruct (unbound_in _ _ U) as [e [J V]]. apply in_app_or in J. destruct J as [J|[<-|[]]].
    + right. exists e. auto.
    + left. apply unbound_mentioned. exact V.
  - intros c o es k m sw n r _ _ _ SW WR IH x U.
    inversion SW as [|c0 e0 es0 k0 i0 s M1 M2 SW1|c0 es1 es0 k0 i0 r0 n0 r1 p SW1 P SW2]; subst.
    2: { match goal with X : mk_list ?q = Symb _ |- _ => destruct q; discriminate X end. }
    destruct (IH _ _ _ SW1) as [is [ST H]]. destruct (H x U) as [[e [J M]]|[V F]].
    + left. apply (mentioned_in x e (Symb o :: es)); [right; exact J|exact M].
    + destruct (unbound_in x (Symb o :: s) V) as [e [J V']]. destruct J as [<-|J].
      * left. apply (mentioned_in x (Symb o) (Symb o :: es)); [left; reflexivity|apply unbound_mentioned; exact V'].
      * assert (G : (exists e', In e' es /\ mentioned x e') \/ exists e', In e' k /\ unbound x e').
        { clear - ST F J V'. induction ST as [|e0 es is r M1 M2 ST IH|l es i is p r P ST IH].
          - right. exists e. auto.
          - destruct J as [->|J]; [left; exists e; split; [left; reflexivity|apply unbound_mentioned; exact V']|].
            destruct (IH F J) as [[e' [A B]]|G]; [left; exists e'; split; [right; exact A|exact B]|right; exact G].
          - inversion F as [|? ? F1 F2]; subst. destruct J as [->|J].
            + exfalso. apply F1. rewrite <- (placeholder_name _ _ _ P V'). exact P.
            + destruct (IH F2 J) as [[e' [A B]]|G]; [left; exists e'; split; [right; exact A|exact B]|right; exact G]. }
        destruct G as [[e' [A B]]|G]; [left|right; exact G]. apply (mentioned_in x e' (Symb o :: es)); [right; exact A|exact B].
  - intros c sw k m s SW. inversion SW; subst. exists []. split; [constructor|]. intros x U. right. auto.
  - intros c e es sw i r N1 N2 WR IH k m s SW.
    inversion SW as [|c0 e0 es0 k0 i0 s0 M1 M2 SW1|c0 es1 es0 k0 i0 r0 n0 r1 p SW1 P SW2]; subst.
    2: { exfalso. destruct es1; [apply N1; reflexivity|eapply N2; reflexivity]. }
    destruct (IH _ _ _ SW1) as [is [ST H]]. exists is. split; [constructor; auto|]. intros x U.
    destruct (H x U) as [[e' [J M]]|G]; [left; exists e'; split; [right; exact J|exact M]|right; exact G].
  - intros c es1 es sw i r p n r1 WR IH P LF IH1 k m s SW.
    inversion SW as [|c0 e0 es0 k0 i0 s0 M1 M2 SW1|c0 es2 es0 k0 i0 r0 n0 r2 p2 SW1 P2 SW2]; subst.
    1: { exfalso. destruct es1; [apply M1; reflexivity|eapply M2; reflexivity]. }
    match goal with X : mk_list _ = mk_list _ |- _ => apply mk_list_inj in X; subst end.
    assert (E : i0 = i) by (eapply (proj2 swaps_wraps); eauto). subst i0.
    destruct (IH _ _ _ SW1) as [is [ST H]]. exists (i :: is). split; [constructor; auto|]. intros x U.
    destruct (IH1 x U) as [M|[e [[<-|[]] V]]]; [left; eexists; split; [left; reflexivity|exact M]|].
    destruct (under_one _ _ _ V) as [NP V'].
    destruct (H x V') as [[e' [J M]]|[G F]]; [left; exists e'; split; [right; exact J|exact M]|]. right. split; [exact G|].
    constructor; [|exact F]. intro X. apply NP. eapply placeholder_one; eauto.
Qed.

Scheme plain_mut := Minimality for plain Sort Prop
  with plains_mut := Minimality for plains Sort Prop.
Combined Scheme plain_both from plain_mut, plains_mut.
Lemma plain_up : (forall b m, plain b m -> (0 <= m)%Z) /\ (forall es m, plains es m -> (0 <= m)%Z).
Proof. apply plain_both; intros; lia. Qed.

(** ** What stays *)

Lemma mentioned_inside : forall x l, mentioned x (mk_list l) -> exists e, In e l /\ mentioned x e.
Proof.
  intros x l. induction l as [|a l IH]; intro M; [inversion M|]. cbn [mk_list] in M. inversion M as [|? ? ? M1|? ? ? M1]; subst.
  - exists a. split; [left; reflexivity|exact M1].
  - destruct (IH M1) as [e [J Me]]. exists e. split; [right; exact J|exact Me].
Qed.
Lemma unbound_list : forall x e l, In e l -> unbound x e -> ~ In (Symb (sy "\")) l -> unbound x (mk_list l).
Proof.
  intros x e l. induction l as [|a l IH]; intros J U N; [destruct J|]. cbn [mk_list].
  assert (NA : a <> Symb (sy "\")) by (intros ->; apply N; left; reflexivity).
  destruct J as [->|J]; [apply unbound_car; auto|apply unbound_cdr; [auto|apply IH; auto]]. intro J'. apply N. right. exact J'.
Qed.
Lemma placeholder_symbol : forall i p, placeholder i p -> exists k, p = Symb k /\ k <> sy "\".
Proof.
  intros i p [l [_ ->]]. unfold sym_of. rewrite is_string_chars. cbn [mk_chars is_pair andb]. eexists. split; [reflexivity|]. discriminate.
Qed.
Lemma swaps_keep : forall c es k n r, swaps c es k n r -> (forall e, In e es -> ~ mentioned (sy "\") e) -> ~ In (Symb (sy "\")) k ->
  ~ In (Symb (sy "\")) r /\ incl k r /\ forall e, In e es -> In e r /\ (forall t a d, e <> Pair t a d) \/ exists l, e = mk_list l.
Proof.
  intros c es k n r H. induction H as [c k|c e es k i r N1 N2 H IH|c es1 es k i r n r1 p H IH P H1 IH1]; intros F K.
  - split; [exact K|]. split; [intros e J; exact J|intros e []].
  - destruct IH as [A [B C]]; [intros e' J; apply F; right; exact J|exact K|]. split; [|split].
    + intros [E|J]; [|exact (A J)]. apply (F e); [left; reflexivity|]. rewrite E. constructor.
    + intros e' J. right. apply B. exact J.
    + intros e' [<-|J]; [left; split; [left; reflexivity|exact N2]|]. destruct (C e' J) as [[X Y]|X]; [left; split; [right; exact X|exact Y]|right; exact X].
  - destruct IH as [A [B C]]; [intros e' J; apply F; right; exact J|exact K|]. split; [|split].
    + intros [E|J]; [|exact (A J)]. destruct (placeholder_symbol _ _ P) as [q [-> Q]]. apply Q. injection E as E. exact E.
    + intros e' J. right. apply B. exact J.
    + intros e' [<-|J]; [right; exists es1; reflexivity|]. destruct (C e' J) as [[X Y]|X]; [left; split; [right; exact X|exact Y]|right; exact X].
Qed.
Lemma stays_both :
  (forall c b k n r, lifts c b k n r -> ~ mentioned (sy "\") b -> ~ In (Symb (sy "\")) k ->
     forall x, (forall i, c <= i < n -> ~ placeholder i (Symb x))%Z -> mentioned x b \/ (exists e, In e k /\ unbound x e) -> unbound x (mk_list r)) /\
  (forall c es sw n r, wraps c es sw n r -> (forall e, In e es -> ~ mentioned (sy "\") e) ->
     forall x, (forall i, c <= i < n -> ~ placeholder i (Symb x))%Z ->
     unbound x (mk_list sw) \/ (exists l, In (mk_list l) es /\ mentioned x (mk_list l)) -> unbound x (mk_list r)).
Proof.
  apply lifts_wraps.
  - intros c b k N1 N2 L K x _ H.
    assert (NI : ~ In (Symb (sy "\")) (k ++ [b])).
    { intro J. apply in_app_or in J. destruct J as [J|[E|[]]]; [exact (K J)|]. apply L. rewrite E. constructor. }
    destruct H as [M|[e [J U]]].
    + apply (unbound_list x b); [apply in_or_app; right; left; reflexivity| |exact NI]. inversion M; subst; [constructor|exfalso; eapply N2; reflexivity|exfalso; eapply N2; reflexivity].
    + apply (unbound_list x e); [apply in_or_app; left; exact J|exact U|exact NI].
  - intros c o es k m sw n r _ _ _ SW WR IH L K x F H.
    assert (FE : forall e, In e (Symb o :: es) -> ~ mentioned (sy "\") e) by (intros e J M; apply L; eapply mentioned_in; eauto).
    destruct (swaps_keep _ _ _ _ _ SW FE K) as [A [B C]].
    apply IH; [intros e J; apply FE; right; exact J|exact F|]. destruct H as [M|[e [J U]]].
    + apply mentioned_inside in M. destruct M as [e [J M]]. destruct J as [<-|J].
      * left. apply (unbound_list x (Symb o)); [|inversion M; constructor|exact A].
        destruct (C (Symb o) (or_introl eq_refl)) as [[X _]|[l X]]; [exact X|destruct l; discriminate X].
      * destruct (C e (or_intror J)) as [[X Y]|[l X]]; [|right; exists l; rewrite <- X; auto].
        left. apply (unbound_list x e); [exact X| |exact A]. inversion M; subst; [constructor|exfalso; eapply Y; reflexivity|exfalso; eapply Y; reflexivity].
    + left. apply (unbound_list x e); [apply B; exact J|exact U|exact A].
  - intros c sw _ x _ [U|[l [[] _]]]. exact U.
  - intros c e es sw i r N1 N2 WR IH FE x F H. apply IH; [intros e' J; apply FE; right; exact J|exact F|].
    destruct H as [U|[l [[E|J] M]]]; [left; exact U| |right; exists l; auto].
    exfalso. destruct l; [apply N1; exact E|eapply N2; exact E].
  - intros c es1 es sw i r p n r1 WR IH P LF IH1 FE x F H.
    pose proof (proj2 lifts_up _ _ _ _ _ WR) as U1. pose proof (proj1 lifts_up _ _ _ _ _ LF) as U2.
    apply IH1; [apply FE; left; reflexivity|intros [E|[]]; discriminate E|intros j J; apply F; lia|].
    assert (G : mentioned x (mk_list es1) \/ unbound x (mk_list r)).
    { destruct H as [U|[l [[E|J] M]]].
      - right. apply IH; [intros e' J; apply FE; right; exact J|intros j J; apply F; lia|left; exact U].
      - left. rewrite E. exact M.
      - right. apply IH; [intros e' J'; apply FE; right; exact J'|intros j J'; apply F; lia|right; exists l; auto]. }
    destruct G as [M|U]; [left; exact M|right]. eexists. split; [left; reflexivity|]. cbn [mk_list]. apply unbound_under.
    + intro M. destruct (placeholder_symbol _ _ P) as [q [-> _]]. inversion M as [|? ? ? M1|? ? ? M1]; subst; inversion M1; subst. apply (F i); [lia|exact P].
    + apply unbound_car; [destruct r; discriminate|exact U].
Qed.
