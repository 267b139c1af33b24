(** * Property C103: counting references in the compiler (cps.l). *)
From Verif Require Import Base Value ValueSpec ValueProofs Tails Print Eval Sexp EvalSpec EvalProofs
  Sem1 Sem2 Sem3 Sem4 Sem5 TailsProofs TailsSem BuiltinSpec Sem6 Cases Lib LibSpec LibBase LibProofs LibDerived LibMore LibAssoc LibNum LibCases
  Install CcSpec CcProofs Cc2Proofs Cc3Proofs Cc6Spec Cc6Proofs.
From Verif Require Properties22.
Open Scope nat_scope.
Open Scope list_scope.

Lemma finds_one : forall k l u u', finds k l u -> finds k l u' -> u' = u.
Proof. intros k l u u' F G. revert G. induction F as [|k1 v l E|k1 v l r E H IH]; intro G; inversion G; subst; auto; contradiction. Qed.
Lemma counts_quiet : forall m l, counts m l -> quiet_list l.
Proof. intros m l C. eapply Forall_impl; [|exact C]. intros [a b] [[k E1] [z [_ E2]]]. cbn [fst snd] in *. subst. split; reflexivity. Qed.
Lemma counts_more : forall m m' l, (m <= m')%Z -> counts m l -> counts m' l.
Proof. intros m m' l L C. eapply Forall_impl; [|exact C]. intros [a b] [E1 [z [B E2]]]. split; [exact E1|]. exists z. split; [lia|exact E2]. Qed.
Lemma counts_finds : forall m l k v, counts m l -> finds k l v -> v = Nil \/ exists z, (0 <= z <= m)%Z /\ v = Num z.
Proof.
  intros m l k v C F. induction F as [|k1 v l E|k1 v l r E H IH]; [auto| |]; inversion C; subst; [|auto]. right.
  match goal with X : _ /\ _ |- _ => destruct X as [_ X]; exact X end.
Qed.
Lemma counts_replaced : forall m k z l r, replaced (Symb k) (Num z) l r -> (0 <= z <= m)%Z -> counts m l -> counts m r.
Proof.
  intros m k z l r H B. induction H as [|k1 v l r E H IH|k1 v l r E H IH]; intro C; [constructor| |]; inversion C; subst; constructor; try (apply IH; auto).
  - split; [exists k; reflexivity|exists z; split; [exact B|reflexivity]].
  - auto.
Qed.
Lemma inc_bounds : forall kv k, (0 <= inc kv k <= 1)%Z.
Proof. intros kv k. unfold inc. destruct (equ (Symb k) (Symb kv)); lia. Qed.
Lemma inc_value : forall kv k, (k = kv -> inc kv k = 0%Z) /\ (k <> kv -> inc kv k = 1%Z).
Proof.
  intros kv k. unfold inc. destruct (equ_name k kv) as [[-> E]|[-> E]]; split; intro; try reflexivity; contradiction.
Qed.
(** One operand. *)
Lemma step_exists : forall kv m l e, counts m l -> (0 <= m)%Z -> (m + 1 < 2 ^ 63)%Z -> (forall n, e <> Sym true n) ->
  exists r, steps kv l e r /\ counts (m + 1) r /\
    (forall k v, e <> Symb k -> finds (Symb k) l v -> finds (Symb k) r v) /\
    (forall k z, e = Symb k -> finds (Symb k) l (Num z) -> finds (Symb k) r (Num (z + inc kv k))) /\
    (forall k, e = Symb k -> finds (Symb k) l Nil -> finds (Symb k) r (Num (inc kv k))).
Proof.
  intros kv m l e C P B N. destruct (is_symb e) eqn:IS.
  - destruct e as [| | | | |b k|]; try discriminate IS. destruct b; [exfalso; eapply N; reflexivity|].
    destruct (finds_total (Symb k) l) as [v F]. pose proof (inc_bounds kv k) as IB. destruct (counts_finds _ _ _ _ C F) as [->|[z [Z ->]]].
    + exists ((Symb k, Num (inc kv k)) :: l). split; [apply steps_new; exact F|]. split; [|split; [|split]].
      * constructor; [|eapply counts_more; [|exact C]; lia]. split; [exists k; reflexivity|exists (inc kv k); split; [lia|reflexivity]].
      * intros j v D G. apply finds_later; [|exact G]. intro X. inversion X. congruence.
      * intros j z E G. injection E as <-. discriminate (finds_one _ _ _ _ F G).
      * intros j E G. injection E as <-. apply finds_here. apply same_refl.
    + destruct (replaced_total (Symb k) (Num (z + inc kv k)) l) as [r RP]. exists r.
      split; [apply steps_more with z; [exact F|unfold int64; lia|unfold int64; lia|exact RP]|]. split; [|split; [|split]].
      * eapply counts_replaced; [exact RP|lia|eapply counts_more; [|exact C]; lia].
      * intros j v D G. eapply replaced_others; [exact RP| |exact G]. intro X. inversion X. congruence.
      * intros j y E G. injection E as <-. pose proof (finds_one _ _ _ _ F G) as X. injection X as ->. eapply replaced_finds; [exact RP|exact F|discriminate].
      * intros j E G. injection E as <-. discriminate (finds_one _ _ _ _ F G).
  - exists l. split; [apply steps_other; exact IS|]. split; [eapply counts_more; [|exact C]; lia|]. split; [auto|].
    split; intros; subst e; discriminate IS.
Qed.
Lemma loops_exist : forall kv es m l, counts m l -> (0 <= m)%Z -> (m + Z.of_nat (length es) < 2 ^ 63)%Z -> Forall (fun e => forall n, e <> Sym true n) es ->
  exists r, loops kv l es r /\ counts (m + Z.of_nat (length es)) r /\
    (forall k z n, finds (Symb k) l (Num z) -> uses kv k es n -> finds (Symb k) r (Num (z + n))) /\
    (forall k n, finds (Symb k) l Nil -> In (Symb k) es -> uses kv k es n -> finds (Symb k) r (Num n)) /\
    (forall k, finds (Symb k) l Nil -> ~ In (Symb k) es -> finds (Symb k) r Nil).
Proof.
  intros kv. induction es as [|e es IH]; intros m l C P B N.
  - exists l. split; [constructor|]. cbn [length Z.of_nat]. split; [eapply counts_more; [|exact C]; lia|]. split; [|split].
    + intros k z n F U. inversion U; subst. rewrite Z.add_0_r. exact F.
    + intros k n F [].
    + auto.
  - cbn [length] in B |- *. inversion N as [|? ? N1 N2]; subst.
    destruct (step_exists kv m l e C P ltac:(lia) N1) as [l1 [S1 [C1 [A1 [A2 A3]]]]].
    destruct (IH (m + 1)%Z l1 C1 ltac:(lia) ltac:(lia) N2) as [r [L [C2 [B1 [B2 B3]]]]]. exists r.
    split; [apply loops_cons with l1; [eapply counts_quiet; exact C|exact S1|exact L]|].
    split; [eapply counts_more; [|exact C2]; lia|]. split; [|split].
    + intros k z n F U. inversion U as [|es' y D U'|es' y D U'|e' es' y D U']; subst.
      * specialize (A2 k z eq_refl F). rewrite (proj2 (inc_value kv k) D) in A2.
        replace (z + (y + 1))%Z with (z + 1 + y)%Z by lia. apply B1; assumption.
      * specialize (A2 kv z eq_refl F). rewrite (proj1 (inc_value kv kv) eq_refl), Z.add_0_r in A2. apply B1; assumption.
      * apply B1; [|exact U']. apply A1; assumption.
    + intros k n F J U. inversion U as [|es' y D U'|es' y D U'|e' es' y D U']; subst.
      * specialize (A3 k eq_refl F). rewrite (proj2 (inc_value kv k) D) in A3. replace (y + 1)%Z with (1 + y)%Z by lia. apply B1; assumption.
      * specialize (A3 kv eq_refl F). rewrite (proj1 (inc_value kv kv) eq_refl) in A3. exact (B1 kv 0%Z n A3 U').
      * destruct J as [J|J]; [contradiction|]. apply B2; [|exact J|exact U']. apply A1; assumption.
    + intros k F J. apply B3; [|intro X; apply J; right; exact X]. apply A1; [|exact F]. intros ->. apply J. left. reflexivity.
Qed.

(** Counting adds to the count of each name how often the call refers to it, zero for the
    continuation; names without a count get one if the call refers to them. *)
Theorem C103_refs : forall O kv args op es ps m l, refers args op es ps -> kept "params" (mk_list ps) ->
  Forall (fun e => forall n, e <> Sym true n) ps -> counts m l -> (0 <= m)%Z -> (m + Z.of_nat (length ps) < 2 ^ 63)%Z ->
  exists r, counts (m + Z.of_nat (length ps)) r /\
    (forall k z n, finds (Symb k) l (Num z) -> uses kv k ps n -> finds (Symb k) r (Num (z + n))) /\
    (forall k n, finds (Symb k) l Nil -> In (Symb k) ps -> uses kv k ps n -> finds (Symb k) r (Num n)) /\
    (forall k, finds (Symb k) l Nil -> ~ In (Symb k) ps -> finds (Symb k) r Nil) /\
    forall c w, increasing c -> ready5 c w ->
      applied O c (lib5 "cps:getrefs") [mk_list args; Symb kv; alist l; Cons op (mk_list es)] w (Ret (alist r) w).
Proof.
  intros O kv args op es ps m l RF K N C P B. destruct (loops_exist kv ps m l C P B N) as [r [L [C' [B1 [B2 B3]]]]]. exists r.
  split; [exact C'|]. split; [exact B1|]. split; [exact B2|]. split; [exact B3|]. intros c w I R. eapply refs_ok; eauto.
Qed.
Print Assumptions C103_refs.

(** There is exactly one such number. *)
Theorem C103_uses : forall kv k es, exists n, uses kv k es n /\ (0 <= n <= Z.of_nat (length es))%Z /\ forall n', uses kv k es n' -> n' = n.
Proof.
  intros kv k. induction es as [|e es [n [U [B IH]]]].
  - exists 0%Z. split; [constructor|]. split; [cbn; lia|]. intros n' H. inversion H. reflexivity.
  - cbn [length]. assert (D : e = Symb k \/ e <> Symb k).
    { destruct e as [| | | | |b j|]; try (right; discriminate). destruct b; [right; discriminate|].
      destruct (equ_name j k) as [[_ ->]|[_ X]]; [left; reflexivity|right; congruence]. }
    destruct D as [->|D]; [destruct (equ_name k kv) as [[_ ->]|[_ X]]|].
    + exists n. split; [apply uses_cont; auto|]. split; [lia|]. intros n' H. inversion H; subst; auto; contradiction.
    + exists (n + 1)%Z. split; [apply uses_here; auto|]. split; [lia|]. intros n' H. inversion H; subst; try contradiction.
      f_equal. apply IH. assumption.
    + exists n. split; [apply uses_else; auto|]. split; [lia|]. intros n' H. inversion H; subst; auto; contradiction.
Qed.
Print Assumptions C103_uses.

Example C103_case : ready5 here library3 /\ increasing here /\
  refers [Symb (sy "f"); Symb (sy "k")] (Symb (sy "f")) [Symb (sy "x"); Symb (sy "x"); Num 3; Symb (sy "k")]
    [Symb (sy "f"); Symb (sy "x"); Symb (sy "x"); Num 3; Symb (sy "k")] /\
  kept "params" (mk_list [Symb (sy "f"); Symb (sy "x"); Symb (sy "x"); Num 3; Symb (sy "k")]) /\
  counts 5 [(Symb (sy "x"), Num 5)] /\ uses (sy "k") (sy "x") [Symb (sy "f"); Symb (sy "x"); Symb (sy "x")] 2 /\
  uses (sy "k") (sy "k") [Symb (sy "x"); Symb (sy "k")] 0 /\
  value "(cps:getrefs '(f k) 'k '((x . 5)) '(f x x 3 k))" library3 = Some (rd "((k . 0) (f . 1) (x . 7))") /\
  value "(cps:getrefs '(k) 'k '((x . 5)) '(f x x 3 k))" library3 = Some (rd "((k . 0) (x . 7))").
Proof.
  split; [exact Properties22.here_ready5|]. split; [exact here_increasing|].
  split; [apply refers_head; exists (Symb (sy "f")); split; [left; reflexivity|apply same_refl]|].
  split; [left; vm_compute; reflexivity|].
  split; [constructor; [|constructor]; split; [exists (sy "x"); reflexivity|exists 5%Z; split; [lia|reflexivity]]|].
  split; [apply uses_else; [discriminate|]; apply (uses_here _ _ _ 1%Z); [vm_compute; discriminate|]; apply (uses_here _ _ _ 0%Z); [vm_compute; discriminate|constructor]|].
  split; [apply uses_else; [discriminate|]; apply uses_cont; [reflexivity|constructor]|].
  split; vm_compute; reflexivity.
Qed.
