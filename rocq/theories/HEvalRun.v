(** * HEvalRun: every function of the evaluator keeps counts correct. *)
From Verif Require Import Value Tails Print Heap HeapSpec HeapProofs HeapOps HEval HEvalSpec HEvalBase HEvalTails HEvalProofs ValueProofs.
Import Eval(prim(..), shape(..), args_of, prim_table, prim_of_addr, numbered, arith, compare, pops_two, proper, builtins).
Open Scope nat_scope.
Open Scope heap_scope.

Lemma wp_assoc : forall {A B C} (m : HM A) (f : A -> HM B) (k : B -> HM C) Q h,
  wp (hbind_ m (fun a => hbind_ (f a) k)) Q h -> wp (hbind_ (hbind_ m f) k) Q h.
Proof. intros A B C m f k Q h H. unfold wp, hbind_ in *. destruct (m h); auto. Qed.

Section Run.
Variable allowed : event -> bool.
Hypothesis NoAny : allowed AssignsAny = false.
Variable opened : N -> bool -> atom -> bool.
Variable pwd : atom.

(** Since [h0]; now at [h], where the program holds [L]. *)
Record at_ (h0 h : heap) (L : list N) : Prop := mkat {
  at_holds : holds h L;
  at_step : step allowed h0 h;
  at_open : opens (aux h) <> 0%N
}.
Lemma at_next : forall h0 h h' L L', at_ h0 h L -> holds h' L' -> step allowed h h' -> at_ h0 h' L'.
Proof.
  intros h0 h h' L L' [H S Z] H' S'. constructor; auto; [eauto using step_trans|].
  pose proof (l_opens _ _ _ (proj2 S')). lia.
Qed.
Lemma at_perm : forall h0 h L L', at_ h0 h L -> (forall b, cnt b L = cnt b L') -> at_ h0 h L'.
Proof. intros h0 h L L' [H S Z] P. constructor; auto. eapply holds_perm; eauto. Qed.
Lemma at_alive : forall h0 h L a, at_ h0 h L -> In a L -> alive h a.
Proof. intros h0 h L a [H _ _] I. eapply holds_alive; eauto. Qed.
Lemma at_own : forall h0 h L, at_ h0 h L -> own h (L ++ held_by_lisp (aux h)).
Proof. intros h0 h L [H _ _]. apply holds_own. auto. Qed.

(** [m] consumes [l] and gives back one reference, in the scope [c]. *)
Definition spec (m : HM N) (l : list N) (c : N) : Prop :=
  forall h0 h L, at_ h0 h (l ++ L) -> In c L -> wp m (fun r h' => at_ h0 h' (r :: L)) h.

Section Rules.
Context {B : Type}.
Implicit Types (Q : B -> heap -> Prop).
Variables (h0 h : heap) (L : list N).
Hypothesis S : at_ h0 h L.
Definition keeps (h h' : heap) : Prop := forall x, alive h x -> alive h' x.

Lemma r_X : forall a k Q L', (forall b, cnt b L = cnt b (a :: L')) ->
  (forall h', at_ h0 h' L' -> wp (k tt) Q h') -> wp (hbind_ (X a) k) Q h.
Proof.
  intros a k Q L' P K. apply (hs_X allowed _ _ _ _ L'); [eapply holds_perm; [apply S|auto]|].
  intros h' H' S'. apply K. eapply at_next; eauto.
Qed.
Lemma r_car : forall a k Q, alive h a ->
  (forall r h', at_ h0 h' (r :: L) -> keeps h h' -> wp (k r) Q h') -> wp (hbind_ (hcar a) k) Q h.
Proof.
  intros a k Q A K. apply (hs_car allowed _ _ _ _ L); [apply S|auto|]. intros r h' H' S' Ad _. apply K.
  - eapply at_next; eauto.
  - intros x. apply adds_alive. auto.
Qed.
Lemma r_cdr : forall a k Q, alive h a ->
  (forall r h', at_ h0 h' (r :: L) -> keeps h h' -> wp (k r) Q h') -> wp (hbind_ (hcdr a) k) Q h.
Proof.
  intros a k Q A K. apply (hs_cdr allowed _ _ _ _ L); [apply S|auto|]. intros r h' H' S' Ad _. apply K.
  - eapply at_next; eauto.
  - intros x. apply adds_alive. auto.
Qed.
Lemma r_up : forall a k Q, alive h a ->
  (forall h', at_ h0 h' (a :: L) -> keeps h h' -> wp (k a) Q h') -> wp (hbind_ (up a) k) Q h.
Proof.
  intros a k Q A K. apply (hs_up allowed _ _ _ _ L); [apply S|auto|]. intros h' H' S' Ad. apply K.
  - eapply at_next; eauto.
  - intros x. apply adds_alive. auto.
Qed.
Lemma r_alloc : forall b k Q, kids b = [] ->
  (forall r h', at_ h0 h' (r :: L) -> keeps h h' -> wp (k r) Q h') -> wp (hbind_ (alloc b) k) Q h.
Proof.
  intros b k Q KB K. apply (hs_alloc allowed _ _ _ _ L); [auto|apply S|]. intros r h' H' S' Ad _. apply K.
  - eapply at_next; eauto.
  - intros x. apply adds_alive. auto.
Qed.
Lemma r_cons : forall x y k Q L', (forall b, cnt b L = cnt b (x :: y :: L')) ->
  (forall r h', at_ h0 h' (r :: L') -> keeps h h' -> wp (k r) Q h') -> wp (hbind_ (hcons x y) k) Q h.
Proof.
  intros x y k Q L' P K. apply (hs_cons allowed _ _ _ _ _ L'); [eapply holds_perm; [apply S|auto]|].
  intros r h' H' S' Ad _. apply K.
  - eapply at_next; eauto.
  - intros z. apply adds_alive. auto.
Qed.
Lemma r_plant : forall v k Q,
  (forall r h', at_ h0 h' (r :: L) -> keeps h h' -> wp (k r) Q h') -> wp (hbind_ (plant v) k) Q h.
Proof.
  intros v k Q K. apply (hs_plant allowed _ _ _ _ L); [apply S|]. intros r h' H' S' Ad. apply K.
  - eapply at_next; eauto.
  - intros x. apply adds_alive. auto.
Qed.
Lemma r_dup : forall n a k Q, alive h a ->
  (forall r h', at_ h0 h' (r :: L) -> keeps h h' -> wp (k r) Q h') -> wp (hbind_ (hdup n a) k) Q h.
Proof.
  intros n a k Q A K. apply (hs_dup allowed _ _ _ _ _ L); [apply S|auto|]. intros r h' H' S' Ad. apply K.
  - eapply at_next; eauto.
  - intros x. apply adds_alive. auto.
Qed.
Lemma r_mix : forall n c e k Q, alive h c -> In e L ->
  (forall r h', at_ h0 h' (r :: L) -> wp (k r) Q h') -> wp (hbind_ (hmix n c e) k) Q h.
Proof.
  intros n c e k Q A I K. apply (hs_mix allowed _ _ _ _ _ _ L); [apply S|auto|auto|]. intros r h' H' S'. apply K.
  eapply at_next; eauto.
Qed.
Lemma r_bind : forall n x y z k Q L', (forall b, cnt b L = cnt b (x :: y :: z :: L')) ->
  (forall r h', at_ h0 h' (r :: L') -> wp (k r) Q h') -> wp (hbind_ (hbind n x y z) k) Q h.
Proof.
  intros n x y z k Q L' P K. apply (hs_bind allowed _ _ _ _ _ _ _ L'); [eapply holds_perm; [apply S|auto]|].
  intros r h' H' S'. apply K. eapply at_next; eauto.
Qed.
Lemma r_conc : forall n x y k Q L', (forall b, cnt b L = cnt b (x :: y :: L')) ->
  (forall r h', at_ h0 h' (r :: L') -> wp (k r) Q h') -> wp (hbind_ (hconc n x y) k) Q h.
Proof.
  intros n x y k Q L' P K. apply (hs_conc allowed _ _ _ _ _ _ L'); [eapply holds_perm; [apply S|auto]|].
  intros r h' H' S'. apply K. eapply at_next; eauto.
Qed.
Lemma r_pure : forall {A} (m : HM A) k Q, pure m h -> (forall r, wp (k r) Q h) -> wp (hbind_ m k) Q h.
Proof. intros A m k Q P K. apply hs_pure; auto. Qed.
Lemma r_spec : forall m l c k Q L', spec m l c -> (forall b, cnt b L = cnt b (l ++ L')) -> In c L' ->
  (forall r h', at_ h0 h' (r :: L') -> wp (k r) Q h') -> wp (hbind_ m k) Q h.
Proof.
  intros m l c k Q L' M P I K. apply wp_bind. eapply wp_mono; [apply (M h0 h L'); [eapply at_perm; eauto|auto]|].
  intros r h' S'. apply K. auto.
Qed.
(** Operations that give back nothing. *)
Lemma r_unit : forall (m : HM unit) k Q L', wp m (fun _ h' => holds h' L' /\ step allowed h h') h ->
  (forall h', at_ h0 h' L' -> wp (k tt) Q h') -> wp (hbind_ m k) Q h.
Proof.
  intros m k Q L' M K. apply wp_bind. eapply wp_mono; [exact M|]. intros [] h' [H' S']. apply K. eapply at_next; eauto.
Qed.
End Rules.

Ltac rem a L := lazymatch L with a :: ?t => constr:(t) | ?b :: ?t => let t' := rem a t in constr:(b :: t') end.
Ltac alv := first [assumption | match goal with S : at_ _ ?h ?L |- alive ?h _ => apply (at_alive _ _ _ _ S); inR end].
Ltac keepall K :=
  repeat match goal with
  | A : alive ?h ?x |- _ => match type of K with keeps h _ => apply K in A end
  end; clear K.
Ltac own_at := match goal with S : at_ _ ?h _ |- own ?h _ => apply (at_own _ _ _ S) end.
Ltac go_spec M :=
  lazymatch goal with
  | S : at_ _ ?h ?L |- wp (hbind_ ?m _) _ ?h =>
      lazymatch type of M with
      | spec _ ?l ?c =>
          let rec rems l L := lazymatch l with nil => constr:(L) | ?a :: ?t => let L1 := rem a L in rems t L1 end in
          let L' := rems l L in
          let r := fresh "r" in let h' := fresh "h" in
          eapply (r_spec _ _ _ S m l c _ _ L' M); [perm|inR|]; clear S; intros r h' S; cbn beta
      end
  end.
Ltac go :=
  lazymatch goal with
  | |- wp (hbind_ (hbind_ _ _) _) _ _ => apply wp_assoc
  | |- wp (hbind_ (done _) _) _ _ => apply hs_done; cbn beta
  | |- wp (hbind_ wild _) _ _ => apply hs_wild
  | |- wp (hbind_ dry _) _ _ => apply hs_dry
  | |- wp wild _ _ => apply wp_wild
  | |- wp dry _ _ => apply wp_dry
  | |- wp (hbind_ (if ?b then _ else _) _) _ _ => destruct b
  | |- wp (if ?b then _ else _) _ _ => destruct b
  | S : at_ _ ?h ?L |- wp (hbind_ (X ?a) _) _ ?h =>
      let L' := rem a L in let h' := fresh "h" in
      eapply (r_X _ _ _ S a _ _ L'); [perm|]; clear S; intros h' S; cbn beta
  | S : at_ _ ?h ?L |- wp (hbind_ (hcons ?a ?b) _) _ ?h =>
      let L1 := rem a L in let L' := rem b L1 in
      let r := fresh "r" in let h' := fresh "h" in let K := fresh "K" in
      eapply (r_cons _ _ _ S a b _ _ L'); [perm|]; clear S; intros r h' S K; keepall K; cbn beta
  | S : at_ _ ?h ?L |- wp (hbind_ (hconc ?n ?a ?b) _) _ ?h =>
      let L1 := rem a L in let L' := rem b L1 in
      let r := fresh "r" in let h' := fresh "h" in
      eapply (r_conc _ _ _ S n a b _ _ L'); [perm|]; clear S; intros r h' S; cbn beta
  | S : at_ _ ?h ?L |- wp (hbind_ (hbind ?n ?a ?b ?c) _) _ ?h =>
      let L1 := rem a L in let L2 := rem b L1 in let L' := rem c L2 in
      let r := fresh "r" in let h' := fresh "h" in
      eapply (r_bind _ _ _ S n a b c _ _ L'); [perm|]; clear S; intros r h' S; cbn beta
  | S : at_ _ ?h ?L |- wp (hbind_ (hmix ?n ?a ?b) _) _ ?h =>
      let r := fresh "r" in let h' := fresh "h" in
      eapply (r_mix _ _ _ S n a b); [alv|inR|]; clear S; intros r h' S; cbn beta
  | S : at_ _ ?h ?L |- wp (hbind_ (hcar ?a) _) _ ?h =>
      let r := fresh "r" in let h' := fresh "h" in let K := fresh "K" in
      eapply (r_car _ _ _ S a); [alv|]; clear S; intros r h' S K; keepall K; cbn beta
  | S : at_ _ ?h ?L |- wp (hbind_ (hcdr ?a) _) _ ?h =>
      let r := fresh "r" in let h' := fresh "h" in let K := fresh "K" in
      eapply (r_cdr _ _ _ S a); [alv|]; clear S; intros r h' S K; keepall K; cbn beta
  | S : at_ _ ?h ?L |- wp (hbind_ (up ?a) _) _ ?h =>
      let h' := fresh "h" in let K := fresh "K" in
      eapply (r_up _ _ _ S a); [alv|]; clear S; intros h' S K; keepall K; cbn beta
  | S : at_ _ ?h ?L |- wp (hbind_ (hdup _ ?a) _) _ ?h =>
      let r := fresh "r" in let h' := fresh "h" in let K := fresh "K" in
      eapply (r_dup _ _ _ S _ a); [alv|]; clear S; intros r h' S K; keepall K; cbn beta
  | S : at_ _ ?h ?L |- wp (hbind_ (plant _) _) _ ?h =>
      let r := fresh "r" in let h' := fresh "h" in let K := fresh "K" in
      eapply (r_plant _ _ _ S); clear S; intros r h' S K; keepall K; cbn beta
  | S : at_ _ ?h ?L |- wp (hbind_ make_nil _) _ ?h =>
      let r := fresh "r" in let h' := fresh "h" in let K := fresh "K" in
      eapply (r_alloc _ _ _ S KNil); [reflexivity|]; clear S; intros r h' S K; keepall K; cbn beta
  | S : at_ _ ?h ?L |- wp (hbind_ (make_truth ?b) _) _ ?h =>
      let r := fresh "r" in let h' := fresh "h" in let K := fresh "K" in
      eapply (r_alloc _ _ _ S); [destruct b; reflexivity|]; clear S; intros r h' S K; keepall K; cbn beta
  | S : at_ _ ?h ?L |- wp (hbind_ (alloc _) _) _ ?h =>
      let r := fresh "r" in let h' := fresh "h" in let K := fresh "K" in
      eapply (r_alloc _ _ _ S); [reflexivity|]; clear S; intros r h' S K; keepall K; cbn beta
  | |- wp (hbind_ (test _ _) _) _ _ =>
      let c := fresh "c" in let E := fresh "E" in apply hs_test; [alv|]; intros c E; cbn beta
  | |- wp (hbind_ (rd _) _) _ _ =>
      let c := fresh "c" in let E := fresh "E" in apply hs_rd; [alv|]; intros c E; cbn beta
  | |- wp (hbind_ (number_of _) _) _ _ => apply hs_pure; [apply pure_number; alv|]; let z := fresh "z" in intro z
  | |- wp (hbind_ (value_at _ _) _) _ _ => apply hs_pure; [eapply pure_value; [own_at|alv]|]; let z := fresh "v" in intro z
  | |- wp (hbind_ (hequ _ _ _) _) _ _ => apply hs_pure; [eapply pure_equ; [own_at|alv|alv]|]; let z := fresh "b" in intro z
  | |- wp (hbind_ (hneq _ _ _) _) _ _ => apply hs_pure; [eapply pure_neq; [own_at|alv|alv]|]; let z := fresh "b" in intro z
  | |- wp (hbind_ (hmatch _ _ _) _) _ _ => apply hs_pure; [eapply pure_match; [own_at|alv|alv]|]; let z := fresh "b" in intro z
  | |- wp (hbind_ (hmay_apply _ _ _) _) _ _ => apply hs_pure; [eapply pure_may_apply; [own_at|alv|alv]|]; let z := fresh "b" in intro z
  | |- wp (hbind_ (hlen _ _) _) _ _ => apply hs_pure; [eapply pure_len; [own_at|alv]|]; let z := fresh "b" in intro z
  | |- wp (hbind_ (his_func _) _) _ _ => apply hs_pure; [eapply pure_func; [own_at|alv]|]; let z := fresh "b" in intro z
  | |- wp (hbind_ (watch _ _ _ _ _) _) _ _ => apply hs_pure; [eapply pure_watch; [own_at|alv]|]; intros []
  | |- wp (hbind_ (watch_marks _ _ _ _ _ _) _) _ _ => apply hs_pure; [eapply pure_watch_marks; [own_at|alv|alv|alv]|]; intros []
  | |- wp (hbind_ (same_key _ _) _) _ _ => apply hs_pure; [apply pure_same_key; alv|]; let z := fresh "b" in intro z
  | S : at_ _ ?h ?L |- wp (hbind_ (hemit _) _) _ ?h =>
      let h' := fresh "h" in
      eapply (r_unit _ _ _ S _ _ _ L); [apply emit_spec; first [exact NoAny | exact (at_holds _ _ _ S)]|]; clear S; intros h' S; cbn beta
  | S : at_ _ ?h ?L |- wp (hbind_ (hprint _ _ _) _) _ ?h =>
      let h' := fresh "h" in
      eapply (r_unit _ _ _ S _ _ _ L); [apply print_spec; first [exact NoAny | exact (at_holds _ _ _ S) | alv]|]; clear S; intros h' S; cbn beta
  | |- wp (done _) _ _ => apply wp_done
  | S : at_ _ ?h ?L |- at_ _ ?h _ => solve [apply (at_perm _ _ _ _ S); perm]
  end.
(** The last operation of a sequence. *)
Ltac last := lazymatch goal with |- wp (hbind_ _ _) _ _ => fail | |- wp (done _) _ _ => fail | |- wp (if _ then _ else _) _ _ => fail | |- wp wild _ _ => fail | |- wp _ _ _ => apply wp_tail end.

Section Rec.
Variable ev : N -> N -> HM N.
Variable budget : nat.
Hypothesis EV : forall c x, spec (ev c x) [x] c.
(** NIL evaluates to itself. *)
Hypothesis EVN : forall c x h cx, cells h x = Some cx -> body cx = KNil -> wp (ev c x) (fun r h' => r = x /\ h' = h) h.

Ltac gx := first [ go | lazymatch goal with |- wp (hbind_ (ev ?c ?x) _) _ _ => go_spec (EV c x) end | last ].

Lemma eval_args_ok : forall n c acc args vals, spec (heval_args allowed ev n c acc args vals) [acc; args; vals] c.
Proof.
  induction n as [|n IH]; intros c acc args vals h0 h L S I; cbn [app] in *; [apply wp_dry|]. cbn [heval_args].
  repeat gx. go_spec (IH c r4 r0 r3). repeat gx.
Qed.
Lemma prog_ok : forall n c cell result, spec (hprog ev n c cell result) [cell; result] c.
Proof.
  induction n as [|n IH]; intros c cell result h0 h L S I; cbn [app] in *; [apply wp_dry|]. cbn [hprog].
  repeat first [gx | lazymatch goal with |- wp (hbind_ (hprog _ _ ?c ?x ?y) _) _ _ => go_spec (IH c x y) end].
Qed.
Ltac gp := first [ gx | lazymatch goal with |- wp (hbind_ (hprog _ ?n ?c ?x ?y) _) _ _ => go_spec (prog_ok n c x y) end ].

Definition spec2 (m : HM (N * N)) (l keep : list N) : Prop :=
  forall h0 h L, at_ h0 h (l ++ L) -> (forall x, In x keep -> In x L) ->
    wp m (fun r h' => at_ h0 h' (fst r :: snd r :: L)) h.
Lemma tail_loop_ok : forall n cls0 symb bdy bscl, spec2 (htail_loop allowed ev n cls0 symb bdy bscl) [bscl] [cls0; symb; bdy].
Proof.
  induction n as [|n IH]; intros cls0 symb bdy bscl h0 h L S I; cbn [app] in *; [apply wp_dry|]. cbn [htail_loop].
  assert (I1 : In cls0 L) by (apply I; cbn; auto). assert (I2 : In symb L) by (apply I; cbn; auto).
  assert (I3 : In bdy L) by (apply I; cbn; auto).
  repeat gp.
  - apply hs_CAR; [alv|]. intros c0 k v E0 B0. destruct (own_pair _ _ _ _ _ _ (at_own _ _ _ S) E0 B0) as [Ak _].
    repeat gp.
    + apply wp_bind. eapply wp_mono; [eapply (IH cls0 symb bdy _ h0 _ L); [|exact I]|]; [cbn [app]; go|]. intros [u v'] h' S'. cbn [fst snd] in *.
      apply wp_done. auto.
    + cbn [fst snd]. go.
  - cbn [fst snd]. go.
Qed.
Lemma cond_ok : forall n c cell mtch, spec (hcond ev n c cell mtch) [cell; mtch] c.
Proof.
  induction n as [|n IH]; intros c cell mtch h0 h L S I; cbn [app] in *; [apply wp_dry|]. cbn [hcond].
  gx. destruct (body c0) as [| | | | | |a y] eqn:B; try (repeat gx).
  destruct (own_pair _ _ _ _ _ _ (at_own _ _ _ S) E B) as [Aa _].
  repeat first [gx | lazymatch goal with |- wp (hbind_ (hcond _ _ ?c ?x ?y) _) _ _ => go_spec (IH c x y) end].
Qed.
Lemma match_ok : forall n c v mtch, spec (hmatch_loop ev n c v mtch) [v; mtch] c.
Proof.
  induction n as [|n IH]; intros c cell mtch h0 h L S I; cbn [app] in *; [apply wp_dry|]. cbn [hmatch_loop].
  gx. destruct (body c0) as [| | | | | |a y] eqn:B; try (repeat gx).
  destruct (own_pair _ _ _ _ _ _ (at_own _ _ _ S) E B) as [Aa _].
  repeat first [gx | lazymatch goal with |- wp (hbind_ (hmatch_loop _ _ ?c ?x ?y) _) _ _ => go_spec (IH c x y) end].
Qed.
Lemma list_ok : forall n c cell, spec (hlist ev n c cell) [cell] c.
Proof.
  induction n as [|n IH]; intros c cell h0 h L S I; cbn [app] in *; [apply wp_dry|]. cbn [hlist].
  repeat first [gx | lazymatch goal with |- wp (hbind_ (hlist _ _ ?c ?x) _) _ _ => go_spec (IH c x) end].
Qed.
Lemma stream_ok : forall n c any expr, spec (hstream ev n c any expr) [any; expr] c.
Proof.
  induction n as [|n IH]; intros c any expr h0 h L S I; cbn [app] in *; [apply wp_dry|]. cbn [hstream].
  repeat first [gx | lazymatch goal with |- wp (hbind_ (hstream _ _ ?c ?x ?y) _) _ _ => go_spec (IH c x y) end].
Qed.
Lemma while_ok : forall n c cnd prg res h0 h L, at_ h0 h (res :: L) -> In c L -> In cnd L -> In prg L ->
  wp (hwhile ev n c cnd prg res) (fun r h' => at_ h0 h' (r :: L)) h.
Proof.
  induction n as [|n IH]; intros c cnd prg res h0 h L S I1 I2 I3; [apply wp_dry|]. cbn [hwhile].
  repeat gp. apply wp_bind. eapply wp_mono; [eapply (IH c cnd prg _ h0 _ L); eauto|]. intros r' h' S'. apply wp_done. auto.
Qed.
Lemma prin_ok : forall n lit c cell result, spec (hprin_all ev n lit c cell result) [cell; result] c.
Proof.
  induction n as [|n IH]; intros lit c cell result h0 h L S I; cbn [app] in *; [apply wp_dry|]. cbn [hprin_all].
  repeat first [gx | lazymatch goal with |- wp (hbind_ (hprin_all _ _ _ ?c ?x ?y) _) _ _ => go_spec (IH lit c x y) end].
Qed.
Lemma or_ok : forall c any h0 h L, at_ h0 h L -> In c L -> alive h any ->
  wp (hrun_or ev c any) (fun r h' => at_ h0 h' (r :: L)) h.
Proof. intros c any h0 h L S I A. unfold hrun_or. repeat gx. Qed.
Lemma setq_ok : forall c any h0 h L, at_ h0 h L -> In c L -> alive h any ->
  wp (hrun_setq allowed ev c any) (fun r h' => at_ h0 h' (r :: L)) h.
Proof.
  intros c any h0 h L S I A. unfold hrun_setq. repeat gx.
  eapply (r_unit _ _ _ S); [apply (setq_spec allowed NoAny); apply S|]. clear S. intros h' S. repeat gx.
Qed.

(** ** Arguments of builtins *)
(** [x] stays in use as long as [R0] does, or it is not a pair. *)
Definition stays (R0 : list N) (h : heap) (x : N) : Prop :=
  held R0 h x \/ exists c, cells h x = Some c /\ is_pair_c c = false.
Definition inside (R0 L : list N) : Prop := forall r, In r R0 -> In r L.
Lemma rebase : forall {A} (m : HM A) h0 h L (P : A -> list N), at_ h0 h L ->
  (at_ h h L -> wp m (fun r h' => at_ h h' (P r)) h) -> wp m (fun r h' => at_ h0 h' (P r)) h.
Proof.
  intros A m h0 h L P [H S Z] K. eapply wp_mono; [apply K; constructor; auto; eapply step_refl; eauto|].
  intros r h' [H' S' Z']. constructor; auto. eauto using step_trans.
Qed.
Lemma inside_alive : forall R0 L h0 h, at_ h0 h L -> inside R0 L -> forall r, In r R0 -> alive h r.
Proof. intros R0 L h0 h S I r Ir. eapply at_alive; eauto. Qed.
Lemma held_now : forall R0 L h0 h x, at_ h0 h L -> inside R0 L -> held R0 h0 x -> held R0 h x.
Proof. intros R0 L h0 h x S I H. eapply held_step; [apply (at_step _ _ _ S)|eapply inside_alive; eauto|auto]. Qed.
Lemma held_alive_now : forall R0 L h0 h x, at_ h0 h L -> inside R0 L -> held R0 h0 x -> alive h x.
Proof. intros R0 L h0 h x S I H. eapply held_alive; [apply (at_own _ _ _ S)|eapply inside_alive; eauto|eapply held_now; eauto]. Qed.
Lemma leaf_now : forall h h' x c c', step0 h h' -> cells h x = Some c -> cells h' x = Some c' -> is_pair_c c' = is_pair_c c.
Proof.
  intros h h' x c c' S E E'. unfold is_pair_c. destruct (s_body _ _ S _ _ _ E E') as [T|[u [v [v' [T1 [T2 _]]]]]].
  - rewrite T. auto.
  - rewrite T1, T2. auto.
Qed.
Lemma sym_now : forall h h' x c c', step0 h h' -> cells h x = Some c -> cells h' x = Some c' -> is_sym_c c' = is_sym_c c.
Proof.
  intros h h' x c c' S E E'. unfold is_sym_c. destruct (s_body _ _ S _ _ _ E E') as [T|[u [v [v' [T1 [T2 _]]]]]].
  - rewrite T. auto.
  - rewrite T1, T2. auto.
Qed.
Lemma is_pair_body : forall c, is_pair_c c = true -> exists x y, body c = KPair x y.
Proof. intros c. unfold is_pair_c. destruct (body c); try discriminate. eauto. Qed.
Lemma r_car_nil : forall {B} a c (k : N -> HM B) Q h0 h L, at_ h0 h L -> cells h a = Some c -> is_pair_c c = false ->
  (forall r h' cr, at_ h0 h' (r :: L) -> keeps h h' -> cells h' r = Some cr -> body cr = KNil -> wp (k r) Q h') ->
  wp (hbind_ (hcar a) k) Q h.
Proof.
  intros B a c k Q h0 h L S E P K. unfold hcar. apply wp_assoc. apply hs_rd; [unfold alive; congruence|]. intros c' E'.
  rewrite E in E'. injection E' as <-.
  assert (W : wp (hbind_ make_nil k) Q h).
  { apply (hs_nil allowed _ _ _ _ (at_holds _ _ _ S)). intros r h' H' S' Ad G. eapply K.
    - eapply at_next; eauto.
    - intros x. apply adds_alive; auto.
    - apply (g_new _ _ _ _ G).
    - auto. }
  unfold is_pair_c in P. destruct (body c); auto. discriminate.
Qed.
Lemma stays_alive : forall R0 L h0 h x, at_ h0 h L -> inside R0 L -> stays R0 h x -> alive h x.
Proof.
  intros R0 L h0 h x S I [H|[c [E _]]]; [|unfold alive; congruence].
  eapply held_alive; [apply (at_own _ _ _ S)|eapply inside_alive; eauto|auto].
Qed.
(** Evaluating the first element of the argument does not free the argument. *)
Lemma car_ev : forall {B} R0 c any (k : N -> HM B) Q h L, at_ h h L -> inside R0 L -> stays R0 h any -> In c L ->
  (forall v h', at_ h h' (v :: L) -> alive h' any -> wp (k v) Q h') ->
  wp (x <- hcar any ;; v <- ev c x ;; k v) Q h.
Proof.
  intros B R0 c any k Q h L S I ST Ic K. pose proof (stays_alive _ _ _ _ _ S I ST) as A. destruct ST as [H|[ca [E P]]].
  - gx. go_spec (EV c r). apply K; auto. eapply (held_alive_now R0 _ _ _ _ S); eauto. intros q Iq. apply in_cons. auto.
  - eapply (r_car_nil _ _ _ _ _ _ _ S E P). clear S. intros r h1 cr S Kp E1 B1. apply wp_bind.
    eapply wp_mono; [apply (EVN c r h1 cr E1 B1)|]. intros v h' [-> ->]. apply K; auto.
Qed.

Lemma set_ok : forall R0 c any h0 h L, at_ h0 h L -> inside R0 L -> stays R0 h any -> In c L ->
  wp (hrun_set allowed ev budget c any) (fun r h' => at_ h0 h' (r :: L)) h.
Proof.
  intros R0 c any h0 h L S0 I ST Ic. apply (rebase _ _ _ _ (fun r => r :: L) S0). clear S0. intro S.
  unfold hrun_set. apply wp_bind. eapply wp_mono; [apply (bar_spec allowed)|]. intros _ h' [-> US]. cbn beta.
  eapply car_ev; eauto. clear S. intros sym h1 S A. repeat gx.
  rename r0 into y, r into cdr, r1 into val.
  eapply (r_unit _ _ _ S _ _ _ (val :: sym :: L)); [apply (forget_spec allowed NoAny); [apply (holds_perm _ _ _ (at_holds _ _ _ S)); perm|auto]|].
  clear S. intros h5 S. cbn beta. gx. destruct (is_sym_c c0); cbn [negb]; [|repeat gx].
  apply hs_symbol; [alv|]. intros c1 s E1 B1.
  apply wp_bind. eapply wp_mono; [apply (bar_any_spec allowed NoAny)|]. intros _ h' [-> NA]. cbn beta.
  apply wp_bind. eapply wp_mono; [apply (find_local_spec h5 _ (at_own _ _ _ S) budget c s); alv|]. intros l h' [-> Hl]. cbn beta.
  destruct l as [kv|].
  - pose proof Hl as [ck [k [old [cs [Ek [Bk _]]]]]].
    apply hs_CDR; [unfold alive; congruence|]. intros c2 k2 old2 E2 B2. rewrite Ek in E2. injection E2 as <-. rewrite Bk in B2. injection B2 as <- <-.
    eapply (r_unit _ _ _ S _ _ _ (old :: sym :: L)); [eapply (set_local_spec allowed NoAny); eauto; apply (at_holds _ _ _ S)|].
    clear S. intros h6 S. repeat gx.
  - apply (hs_cons allowed sym val _ _ _ L); [apply (holds_perm _ _ _ (at_holds _ _ _ S)); perm|]. intros elt h6 H6 S6 A6 G6.
    assert (T : at_ h h6 (elt :: L)) by (eapply at_next; eauto). clear S. rename T into S.
    assert (NP : named_pair h6 s elt).
    { destruct (adds_body _ _ _ _ A6 E1) as [c1' [E1' B1']]. eexists; exists sym, val, c1'. split; [apply (g_new _ _ _ _ G6)|].
      split; auto. split; auto. congruence. }
    apply wp_bind. eapply wp_mono; [apply (global_spec s h6 _ H6)|]. intros g h' [-> Hg]. cbn beta. destruct g as [data|].
    + specialize (Hg data eq_refl).
      eapply (r_unit _ _ _ S _ _ _ (elt :: L)); [eapply (swap_spec allowed NoAny data elt s); eauto; apply (h_globals _ _ H6 _ _ Hg)|].
      clear S. intros h7 S. repeat gx.
    + apply (nil_drop allowed NoAny _ _ _ _ H6). intros h7 H7 S7 C7.
      assert (T : at_ h h7 (elt :: L)) by (eapply at_next; eauto). clear S. rename T into S. cbn beta.
      eapply (r_unit _ _ _ S _ _ _ (sym :: val :: L)); [eapply (abandon_spec allowed NoAny); eauto; apply C7; apply (g_new _ _ _ _ G6)|].
      clear S. intros h8 S. repeat gx.
Qed.

Lemma r_frozen : forall h0 h h' L, at_ h0 h L -> own h' (L ++ held_by_lisp (aux h)) -> frozen (nxt h) h h' -> at_ h0 h' L.
Proof.
  intros h0 h h' L S O F. pose proof (frozen_step allowed _ _ _ _ (at_own _ _ _ S) O F) as ST.
  eapply at_next; [exact S| |exact ST]. apply (holds_keep h _ _ L (at_holds _ _ _ S) (proj1 ST) (f_aux _ _ _ F) O).
Qed.
Lemma r_mark : forall {B} n symb args bdy (k : unit -> HM B) Q h0 h L, at_ h0 h L ->
  (exists r, In r L /\ path h r symb) -> (exists r, In r L /\ path h r args) -> alive h bdy ->
  (forall h', at_ h0 h' L -> wp (k tt) Q h') -> wp (hbind_ (hmark n symb args bdy) k) Q h.
Proof.
  intros B n symb args bdy k Q h0 h L S [rs [Is Ps]] [ra [Ia Pa]] A K. apply wp_bind.
  assert (W : wp (hmark n symb args bdy) (fun _ h' => own h' (L ++ held_by_lisp (aux h)) /\ frozen (nxt h) h h') h).
  { apply mark_spec; auto; [apply (at_own _ _ _ S)|exists rs|exists ra]; (split; [apply in_or_app; left; assumption|auto]). }
  eapply wp_mono; [exact W|].
  intros [] h' [O F]. apply K. eapply r_frozen; eauto.
Qed.
Lemma r_tail : forall {B} a (k : unit -> HM B) Q h0 h L, at_ h0 h L -> In a L ->
  (forall h', at_ h0 h' L -> wp (k tt) Q h') -> wp (hbind_ (set_tail a) k) Q h.
Proof.
  intros B a k Q h0 h L S I K. apply wp_bind. eapply wp_mono; [apply (set_tail_spec a h _ (at_own _ _ _ S)); alv|].
  intros [] h' [O [F _]]. apply K. eapply r_frozen; eauto.
Qed.

Lemma def_ok : forall full any h0 h L, at_ h0 h L -> alive h any ->
  wp (hdef allowed budget full any) (fun r h' => at_ h0 h' (r :: L)) h.
Proof.
  intros full any h0 h L S A. unfold hdef. gx. gx. destruct (is_sym_c c); cbn [negb].
  2:{ apply wp_bind. eapply wp_mono; [apply (bar_spec allowed)|]. intros _ h' [-> US]. cbn beta.
      eapply (r_unit _ _ _ S _ _ _ L); [apply (forget_spec allowed NoAny); [apply (at_holds _ _ _ S)|auto]|]. clear S. intros h2 S. repeat gx. }
  gx. gx. gx. destruct (negb _); [repeat gx|]. gx. gx. gx. gx.
  apply (hs_pure (match body c1 with KPair a _ => test is_char_c a | _ => done false end)).
  { destruct (body c1) as [| | | | | |u v] eqn:B; try apply pure_done.
    destruct (own_pair _ _ _ _ _ _ (at_own _ _ _ S) E1 B) as [Au _]. apply hs_rd; auto. intros cu Eu. apply pure_done. }
  assert (FIN : forall prg h, at_ h0 h (prg :: r1 :: r :: L) ->
    wp (hmark budget r r1 prg ;;; z <- make_nil ;; con0 <- hcons z prg ;; con1 <- hcons r1 con0 ;;
        u <- up r ;; elt <- hcons u con1 ;; hsetq allowed elt ;;; done r) (fun r h' => at_ h0 h' (r :: L)) h).
  { clear S. intros prg h' S. eapply (r_mark _ _ _ _ _ _ _ _ _ S).
    - exists r. split; [inR|apply path_refl].
    - exists r1. split; [inR|apply path_refl].
    - alv.
    - clear S. intros hm S. repeat gx. eapply (r_unit _ _ _ S); [apply (setq_spec allowed NoAny); apply (at_holds _ _ _ S)|].
      clear S. intros h'' S. repeat gx. }
  intros [|]; repeat gx; apply FIN; go.
Qed.

(** ** let *)
Lemma inside_cons : forall R0 L a, inside R0 L -> inside R0 (a :: L).
Proof. intros R0 L a I r Ir. apply in_cons. auto. Qed.
Lemma let_bind_ok : forall n R0 c env cell h0 h L, at_ h0 h (env :: cell :: L) -> In c L -> inside R0 L -> stays R0 h cell ->
  wp (hlet_bind allowed ev n c env cell) (fun r h' => at_ h0 h' (r :: L)) h.
Proof.
  induction n as [|n IH]; intros R0 c env cell h0 h L S0 Ic I ST; [apply wp_dry|].
  apply (rebase _ _ _ _ (fun r => r :: L) S0). clear S0 h0. intro S. cbn [hlet_bind].
  apply hs_test; [alv|]. intros cc Ec. destruct (is_pair_c cc) eqn:Pc; cbn [negb]; [|repeat gx].
  destruct ST as [Hc|[c' [Ec' Pc']]]; [|congruence].
  destruct (is_pair_body _ Pc) as [car [cdr Bc]].
  assert (Hcar : held R0 h car) by (eapply held_car; eauto).
  destruct (own_pair _ _ _ _ _ _ (at_own _ _ _ S) Ec Bc) as [Acar Acdr].
  assert (Ecar : exists c1, cells h car = Some c1) by (unfold alive in Acar; destruct (cells h car); [eauto|congruence]).
  assert (Ecdr : exists c1, cells h cdr = Some c1) by (unfold alive in Acdr; destruct (cells h cdr); [eauto|congruence]).
  destruct Ecar as [ccar Ecar]. destruct Ecdr as [ccdr Ecdr].
  apply (hs_car allowed _ _ _ _ _ (at_holds _ _ _ S)); [alv|]. intros car' h1 H1 S1 A1 F1.
  rewrite (F1 _ _ _ Ec Bc) in *. clear F1.
  assert (T : at_ h h1 (car :: env :: cell :: L)) by (eapply at_next; eauto). clear H1 S1. 
  destruct (adds_body _ _ _ _ A1 Ec) as [cc1 [Ec1 Bc1]]. rewrite Bc in Bc1.
  apply (hs_cdr allowed _ _ _ _ _ (at_holds _ _ _ T)); [alv|]. intros cdr' h2 H2 S2 A2 F2.
  rewrite (F2 _ _ _ Ec1 Bc1) in *. clear F2.
  assert (T2 : at_ h h2 (cdr :: car :: env :: cell :: L)) by (eapply at_next; eauto). clear H2 S2 T S. rename T2 into S.
  assert (I' : inside R0 (cdr :: car :: env :: L)) by (repeat apply inside_cons; auto).
  gx. apply hs_test; [alv|]. intros c3 E3. destruct (is_pair_c c3) eqn:P3; cbn [negb]; [|repeat gx].
  assert (P0 : is_pair_c ccar = true).
  { rewrite <- P3. symmetry. eapply leaf_now; [apply (at_step _ _ _ S)| |]; eauto. }
  assert (NEXT : forall h' L', at_ h h' L' -> inside R0 L' -> In cdr L' -> stays R0 h' cdr).
  { intros h' L' S' I1 I2. destruct (is_pair_c ccdr) eqn:Pd.
    - left. eapply (held_now R0 L'); eauto. eapply (held_cdr R0 h cell cc car cdr ccar ccdr); auto.
    - right. assert (A' : alive h' cdr) by alv. unfold alive in A'. destruct (cells h' cdr) as [cd'|] eqn:Ed'; [|congruence].
      exists cd'. split; auto. rewrite <- Pd. eapply leaf_now; [apply (at_step _ _ _ S')| |]; eauto. }
  gx. match goal with X : at_ _ ?hh (?t :: _) |- _ => rename t into tmp, hh into h4_ end.
  assert (Hcar4 : held R0 h4_ car) by (eapply held_now; eauto; apply inside_cons; auto).
  assert (A4 : alive h4_ car) by alv. unfold alive in A4. destruct (cells h4_ car) as [c4|] eqn:E4; [|congruence].
  assert (P4 : is_pair_c c4 = true). { rewrite <- P0. eapply leaf_now; [apply (at_step _ _ _ S)| |]; eauto. }
  destruct (is_pair_body _ P4) as [arg [nv B4]].
  assert (Harg : held R0 h4_ arg) by (eapply held_car; eauto).
  assert (W : wp (arg <- hcar car ;; nvl <- hcdr car ;; X car ;;; val <- ev tmp nvl ;; watch allowed OddScope n arg plain_names ;;; nx <- hbind n env arg val ;;
     sy <- test is_sym_c arg ;;
          (if sy then
             fn <- his_func val ;;
             if fn then
               s <- symbol_of arg ;;
               l <- find_local n tmp s ;;
               match l with
               | Some _ => done tt
               | None =>
                   a <- CAR val ;; d <- CDR val ;; b <- CDR d ;;
                   watch_marks allowed (fun _ => false) n arg a b ;;;
                   hmark n arg a b
               end
             else done tt
           else done tt) ;;;
          X tmp ;;;
          hlet_bind allowed ev n c nx cdr) (fun r h' => at_ h4_ h' (r :: L)) h4_).
  2:{ eapply wp_mono; [exact W|]. intros r h' S'. destruct S as [_ SS _]. destruct S' as [H' SS' Z']. constructor; auto.
      eauto using step_trans. }
  assert (ST4 : step allowed h h4_) by apply (at_step _ _ _ S).
  assert (NEXT4 : forall h' L', at_ h4_ h' L' -> inside R0 L' -> In cdr L' -> stays R0 h' cdr).
  { intros h' L' [H' S' Z'] I1 I2. apply (NEXT h' L'); auto. constructor; auto. eauto using step_trans. }
  assert (T : at_ h4_ h4_ (tmp :: cdr :: car :: env :: L)).
  { destruct S as [H _ Z]. constructor; auto. eapply step_refl; eauto. }
  clear S NEXT. rename T into S.
  apply (hs_car allowed _ _ _ _ _ (at_holds _ _ _ S)); [alv|]. intros arg' h5 H5 S5 A5 F5.
  rewrite (F5 _ _ _ E4 B4) in *. clear F5.
  assert (T : at_ h4_ h5 (arg :: tmp :: cdr :: car :: env :: L)) by (eapply at_next; eauto). clear S H5 S5. rename T into S.
  gx. gx. gx. match goal with X : at_ _ ?hh (?t :: _) |- _ => rename t into val, hh into h6_ end.
  assert (IL : inside R0 (val :: arg :: tmp :: cdr :: env :: L)) by (repeat apply inside_cons; auto).
  assert (Aarg : alive h6_ arg) by alv.
  assert (Earg : exists ca, cells h6_ arg = Some ca) by (unfold alive in Aarg; destruct (cells h6_ arg); [eauto|congruence]).
  destruct Earg as [ca Ea].
  assert (FIN : forall nx h, at_ h4_ h (nx :: tmp :: cdr :: L) ->
    wp (X tmp ;;; hlet_bind allowed ev n c nx cdr) (fun r h' => at_ h4_ h' (r :: L)) h).
  { clear S. intros nx h' S. gx. gx. apply wp_bind.
    eapply wp_mono; [eapply (IH R0 c nx cdr _ _ L); [apply (at_perm _ _ _ _ S); perm|auto|auto|]|].
    - eapply NEXT4; [exact S|repeat apply inside_cons; auto|inR].
    - intros r' h'' S'. apply wp_done. exact S'. }
  destruct (is_sym_c ca) eqn:Sa.
  - (* a symbol *)
    assert (Ba : exists s, body ca = KSym s) by (unfold is_sym_c in Sa; destruct (body ca); try discriminate; eauto).
    destruct Ba as [s Ba]. gx. destruct n as [|n]; [apply hs_dry|]. cbn [hbind]. apply wp_assoc.
    apply hs_rd; auto. intros ca' Ea'. rewrite Ea in Ea'. injection Ea' as <-. rewrite Ba.
    apply wp_assoc. apply (hs_cons allowed arg val _ _ _ (tmp :: cdr :: env :: L)); [apply (holds_perm _ _ _ (at_holds _ _ _ S)); perm|].
    intros kv h7 H7 S7 A7 G7.
    apply (hs_cons allowed kv env _ _ _ (tmp :: cdr :: L)); [apply (holds_perm _ _ _ H7); perm|].
    intros nx h8 H8 S8 A8 G8.
    assert (T : at_ h4_ h8 (nx :: tmp :: cdr :: L)).
    { eapply at_next; [exact S|exact H8|]. eauto using step_trans. }
    clear S. rename T into S. pose proof (at_own _ _ _ S) as O8.
    destruct (adds_body _ _ _ _ A8 (g_new _ _ _ _ G7)) as [ckv [Ekv Bkv]]. cbn [body] in Bkv.
    pose proof (g_new _ _ _ _ G8) as Enx.
    destruct (own_pair _ _ _ _ _ _ O8 Ekv Bkv) as [Aa8 Av8].
    assert (PT : forall q, path h8 kv q -> path h8 nx q) by (intros q P; eapply path_car; [exact Enx|cbn; reflexivity|exact P]).
    apply hs_test; auto. intros c8 E8. cbn beta.
    destruct (is_sym_c c8); [|apply hs_done; apply FIN; auto].
    apply wp_assoc. apply hs_pure; [eapply pure_func; eauto|]. intros [|]; [|apply hs_done; apply FIN; auto].
    apply wp_assoc. apply hs_symbol; auto. intros cs s' Es Bs.
    apply wp_assoc. apply wp_bind.
    eapply wp_mono; [apply (find_local_spec h8 _ O8 (Datatypes.S n) tmp s'); alv|]. intros l h' [-> _]. cbn beta.
    destruct l as [l|]; [apply hs_done; apply FIN; auto|].
    apply wp_assoc. apply hs_CAR; auto. intros cv a y Ev Bv. destruct (own_pair _ _ _ _ _ _ O8 Ev Bv) as [Aa Ay].
    apply wp_assoc. apply hs_CDR; auto. intros cv' a' d Ev' Bv'. rewrite Ev in Ev'. injection Ev' as <-. rewrite Bv in Bv'. injection Bv' as <- <-.
    apply wp_assoc. apply hs_CDR; auto. intros cd u b Ed Bd. destruct (own_pair _ _ _ _ _ _ O8 Ed Bd) as [_ Ab].
    apply wp_assoc. gx. eapply (r_mark _ _ _ _ _ _ _ _ _ S); auto.
    + exists nx. split; [inR|]. apply PT. eapply path_car; eauto. apply path_refl.
    + exists nx. split; [inR|]. apply PT. eapply path_cdr; eauto. eapply path_car; eauto. apply path_refl.
  - assert (Sarg : held R0 h6_ arg) by (eapply held_now; eauto).
    assert (T : at_ h6_ h6_ (val :: arg :: tmp :: cdr :: env :: L)).
    { destruct S as [H _ Z]. constructor; auto. eapply step_refl; eauto. }
    assert (ST6 : step allowed h4_ h6_) by apply (at_step _ _ _ S). clear S. rename T into S.
    gx. gx. match goal with X : at_ _ ?hh (?t :: _) |- _ => rename t into nx, hh into h7_ end.
    assert (IL2 : inside R0 (nx :: tmp :: cdr :: L)) by (repeat apply inside_cons; auto).
    assert (Aa : alive h7_ arg) by (eapply held_alive_now; eauto).
    apply hs_test; auto. intros c8 E8. cbn beta.
    rewrite (sym_now h6_ h7_ arg ca c8 (proj1 (at_step _ _ _ S)) Ea E8), Sa.
    apply hs_done. apply FIN. destruct S as [H' S' Z']. constructor; auto. eauto using step_trans.
Qed.

Lemma stays_now : forall R0 L h0 h x, at_ h0 h L -> inside R0 L -> In x L -> stays R0 h0 x -> stays R0 h x.
Proof.
  intros R0 L h0 h x S I Ix [H|[c [E P]]]; [left; eapply held_now; eauto|]. right.
  assert (A : alive h x) by alv. unfold alive in A. destruct (cells h x) as [c'|] eqn:E'; [|congruence].
  exists c'. split; auto. rewrite <- P. eapply leaf_now; [apply (at_step _ _ _ S)| |]; eauto.
Qed.
Lemma r_car_stays : forall {B} R0 a (k : N -> HM B) Q h0 h L, at_ h0 h L -> inside R0 L -> stays R0 h a ->
  (forall r h', at_ h0 h' (r :: L) -> keeps h h' -> stays R0 h' r -> wp (k r) Q h') ->
  wp (hbind_ (hcar a) k) Q h.
Proof.
  intros B R0 a k Q h0 h L S I ST K. pose proof (stays_alive _ _ _ _ _ S I ST) as A.
  unfold alive in A. destruct (cells h a) as [c|] eqn:E; [|congruence]. destruct (is_pair_c c) eqn:P.
  - destruct ST as [H|[c' [E' P']]]; [|congruence]. destruct (is_pair_body _ P) as [x [y Bc]].
    apply (hs_car allowed _ _ _ _ _ (at_holds _ _ _ S)); [unfold alive; congruence|]. intros r h' H' S' Ad F.
    rewrite (F _ _ _ E Bc) in *. assert (T : at_ h0 h' (x :: L)) by (eapply at_next; eauto).
    apply K; auto; [intro; apply adds_alive; auto|]. left.
    eapply (held_step R0 h h'); [apply S'|eapply inside_alive; [exact T|apply inside_cons; auto]|]. eapply held_car; eauto.
  - eapply (r_car_nil _ _ _ _ _ _ _ S E P). intros r h' cr S' Kp E' B'. apply K; auto. right. exists cr. split; auto.
    unfold is_pair_c. rewrite B'. auto.
Qed.
Lemma let_ok : forall R0 c x h0 h L, at_ h0 h (x :: L) -> inside R0 L -> stays R0 h x -> In c L ->
  wp (hlet allowed ev budget c x) (fun r h' => at_ h0 h' (r :: L)) h.
Proof.
  intros R0 c x h0 h L S I ST Ic. unfold hlet.
  eapply (r_car_stays R0 x _ _ _ _ _ S); [apply inside_cons; auto|auto|]. clear S. intros bd h1 S0 _ ST1.
  apply (rebase _ _ _ _ (fun r => r :: L) S0). clear S0. intro S.
  gx. gx. gx. apply wp_bind.
  eapply wp_mono; [eapply (let_bind_ok budget R0 c _ bd _ _ (r :: L)); [apply (at_perm _ _ _ _ S); perm|inR|apply inside_cons; auto|]|].
  - eapply stays_now; [exact S|repeat apply inside_cons; auto|inR|auto].
  - clear S. cbn beta. intros nx h' S. repeat gp.
Qed.

Lemma get_aux_run : forall {B} (k : rest -> HM B) Q h, wp (k (aux h)) Q h -> wp (hbind_ get_aux k) Q h.
Proof. intros B k Q h H. exact H. Qed.
Lemma chan_same : forall output r e, chan output (with_chan output r e) = e.
Proof. intros [|] r e; reflexivity. Qed.
Lemma chan_other : forall output r e, chan (negb output) (with_chan output r e) = chan (negb output) r.
Proof. intros [|] r e; reflexivity. Qed.
Lemma open_ok : forall {B} output v (k : option N -> HM B) Q h0 h L, at_ h0 h L ->
  (forall o h', at_ h0 h' L -> (forall a, cells h' a = cells h a) -> wp (k o) Q h') ->
  wp (hbind_ (hopen opened output v) k) Q h.
Proof.
  intros B output v k Q h0 h L S K. unfold hopen. apply wp_assoc. apply get_aux_run.
  set (try := if opened _ _ _ then _ else _).
  assert (W : wp (hbind_ try k) Q h).
  { unfold try. destruct (opened _ _ _); [|apply hs_done; auto].
    apply wp_assoc. apply wp_bind. unfold wp at 1, set_aux. apply hs_done. apply K; auto.
    eapply at_next; [exact S| |].
    - apply (aux_holds h L L _ (at_holds _ _ _ S)); auto; try apply (at_holds _ _ _ S).
      intros _. apply (h_chans _ _ (at_holds _ _ _ S)). apply (at_open _ _ _ S).
    - split; [eapply aux_step0; apply (at_own _ _ _ S)|]. constructor; cbn; auto; [apply incl_refl|lia]. }
  destruct v; auto; try (apply hs_done; auto).
  destruct output; [destruct (proper _); auto; apply hs_wild|destruct (is_string _); auto; apply hs_done; auto].
Qed.
Lemma with_chan_ok : forall output c ch rm h0 h L, at_ h0 h L -> In c L -> alive h ch -> alive h rm ->
  wp (hwith_chan opened pwd ev budget output c ch rm) (fun r h' => at_ h0 h' (r :: L)) h.
Proof.
  intros output c ch rm h0 h L S Ic Ac Ar. unfold hwith_chan.
  apply hs_pure.
  { destruct output; [apply pure_done|]. apply get_aux_run. pose proof (at_own _ _ _ S) as O.
    pose proof (chan_alive false _ _ (at_holds _ _ _ S)) as A. cbn in A.
    apply hs_CAR; auto. intros c1 e y E B. destruct (own_pair _ _ _ _ _ _ O E B) as [Ae _].
    apply hs_CDR; auto. intros c2 u d E2 B2. destruct (own_pair _ _ _ _ _ _ O E2 B2) as [_ Ad].
    apply hs_CAR; auto. intros c3 s y3 E3 B3. destruct (own_pair _ _ _ _ _ _ O E3 B3) as [As _].
    eapply pure_value; eauto. }
  intro dir. gx. eapply (open_ok _ _ _ _ _ _ _ S). clear S. intros o h1 S C1.
  assert (Ar1 : alive h1 rm) by (unfold alive; rewrite C1; auto). clear Ac Ar.
  destruct o as [k|]; [|repeat gx].
  apply (rebase _ _ _ _ (fun r => r :: L) S). clear S. intro S.
  pose proof (h_chans _ _ (at_holds _ _ _ S) (at_open _ _ _ S)) as CP.
  assert (CH : a_pair h1 (chan output (aux h1))) by (apply CP; destruct output; cbn; auto).
  apply wp_bind. eapply wp_mono; [apply (push_spec allowed NoAny output k dir h1 L (at_holds _ _ _ S))|].
  intros _ h2 [H2 [S2 [e [ce [y [EA2 [Ee [Be [Py KP]]]]]]]]]. cbn beta.
  assert (T : at_ h2 h2 L).
  { constructor; [auto|eapply step_refl; eauto|]. rewrite EA2. destruct output; apply (at_open _ _ _ S). }
  assert (Ar2 : alive h2 rm) by auto.
  pose proof S as S1. clear S. rename T into S.
  gx. gx. gp. match goal with X : at_ _ ?hh (?t :: _) |- _ => rename t into res, hh into h5_ end.
  pose proof (at_holds _ _ _ S) as H5. pose proof (at_step _ _ _ S) as [S5 L5].
  assert (EC : chan output (aux h5_) = e).
  { rewrite <- (chan_same output (aux h1) e), <- EA2. unfold chan. destruct output; [apply (l_ochan _ _ _ L5)|apply (l_ichan _ _ _ L5)]. }
  assert (EO : chan (negb output) (aux h5_) = chan (negb output) (aux h1)).
  { rewrite <- (chan_other output (aux h1) e), <- EA2. unfold chan. destruct output; [apply (l_ichan _ _ _ L5)|apply (l_ochan _ _ _ L5)]. }
  pose proof (chan_alive output _ _ H5) as A5. rewrite EC in A5. unfold alive in A5.
  destruct (cells h5_ e) as [ce'|] eqn:Ee'; [|congruence].
  assert (CH2 : a_pair h2 (chan output (aux h1))).
  { eapply a_pair_step; [exact S2| |exact CH]. apply (own_pair _ _ _ _ _ _ (holds_own _ _ H2) Ee Be). }
  assert (Be' : body ce' = KPair y (chan output (aux h1))).
  { destruct (s_body _ _ S5 _ _ _ Ee Ee') as [T|[x [d [d' [T1 [T2 LO]]]]]]; [congruence|].
    rewrite Be in T1. injection T1 as <- <-. destruct LO as [[cy [Ey Ny]]|[cx [sx [Ex [Bx _]]]]].
    - destruct CH2 as [c2 [E2 P2]]. congruence.
    - destruct Py as [cy [Ey Ny]]. unfold is_pair_c in Ny. rewrite Ex in Ey. injection Ey as <-. rewrite Bx in Ny. discriminate. }
  assert (CH5 : a_pair h5_ (chan output (aux h1))).
  { eapply a_pair_step; [exact S5| |exact CH2]. apply (own_pair _ _ _ _ _ _ (holds_own _ _ H5) Ee' Be'). }
  assert (Ee5 : cells h5_ (chan output (aux h5_)) = Some ce') by congruence.
  apply wp_bind. eapply wp_mono; [apply (pop_spec allowed NoAny output h5_ _ _ _ _ H5 Ee5 Be' CH5)|].
  intros _ h6 [H6 [S6 EA6]]. apply wp_done.
  assert (OP : (opens (aux h1) <= opens (aux h6))%N).
  { pose proof (l_opens _ _ _ L5) as LO. rewrite EA2 in LO. rewrite EA6. destruct output; exact LO. }
  constructor; auto.
  - split; [eapply step0_trans; [exact S2|]; eapply step0_trans; [exact S5|exact S6]|].
    destruct L5 as [LB LI LOc LOp LL]. rewrite EA2 in LB, LL. constructor; auto.
    + rewrite EA6. destruct output; exact LB.
    + rewrite EA6. destruct output; [exact EO|reflexivity].
    + rewrite EA6. destruct output; [reflexivity|exact EO].
    + rewrite EA6. destruct output; exact LL.
  - pose proof (at_open _ _ _ S1). lia.
Qed.

(** ** Builtins *)
Lemma prim1_ok : forall p full c x h0 h L, at_ h0 h L -> In full L -> In c L -> alive h x ->
  (fst (arg_names p) = "ANY"%string -> stays [full] h x) ->
  wp (hprim1 allowed ev budget p full c x) (fun r h' => at_ h0 h' (r :: L)) h.
Proof.
  intros p full c x h0 h L S If Ic A ANY.
  assert (IN : inside [full] L) by (intros r [<-|[]]; auto).
  Ltac gq := first [ gp
    | lazymatch goal with
      | |- wp (hbind_ (hcond _ ?n ?c ?x ?y) _) _ _ => go_spec (cond_ok n c x y)
      | |- wp (hbind_ (hmatch_loop _ ?n ?c ?x ?y) _) _ _ => go_spec (match_ok n c x y)
      | |- wp (hbind_ (hlist _ ?n ?c ?x) _) _ _ => go_spec (list_ok n c x)
      | |- wp (hbind_ (hstream _ ?n ?c ?x ?y) _) _ _ => go_spec (stream_ok n c x y)
      | |- wp (hbind_ (hprin_all _ ?n ?l ?c ?x ?y) _) _ _ => go_spec (prin_ok n l c x y)
      end ].
  destruct p; cbn [hprim1]; try (apply wp_wild); try solve [repeat gq].
  - apply def_ok; auto.
  - gx. destruct (body c0); repeat gx.
  - apply (rebase _ _ _ _ (fun r => r :: L) S). clear S. intro S. gx.
    eapply let_ok; eauto. eapply stays_now; [exact S|apply inside_cons; auto|inR|auto].
  - apply (rebase _ _ _ _ (fun r => r :: L) S). clear S. intro S.
    eapply car_ev; eauto. clear S. intros v h' S A'. repeat gq.
  - eapply set_ok; eauto.
  - eapply setq_ok; eauto.
  - gx. destruct (str_of (leaf c0)); repeat gx.
  - gx. gx. gx. apply wp_bind. eapply wp_mono; [eapply (while_ok budget c r r0 r1 h0 _ (r0 :: r :: L)); [go|inR|inR|inR]|].
    clear S. cbn beta. intros r' h' S. repeat gx.
  - eapply or_ok; eauto.
Qed.
Lemma prim2_ok : forall p c x y h0 h L, at_ h0 h L -> In c L -> alive h x -> alive h y ->
  wp (hprim2 opened pwd ev budget p c x y) (fun r h' => at_ h0 h' (r :: L)) h.
Proof.
  intros p c x y h0 h L S Ic Ax Ay.
  destruct p; cbn [hprim2]; try (apply wp_wild); try solve [repeat gp]; try (apply with_chan_ok; auto);
    gx; gx; destruct (arith _ _ _); repeat gx.
Qed.

Lemma pop_arg_ok : forall {B} clos name (k : N * N -> HM B) Q h L, own h L -> In clos L \/ alive h clos ->
  (forall x c, alive h x -> alive h c -> (name = "ANY"%string -> stays [clos] h x) -> wp (k (x, c)) Q h) ->
  wp (hbind_ (pop_arg clos name) k) Q h.
Proof.
  intros B clos name k Q h L O I K. assert (A : alive h clos) by (destruct I; [eapply own_alive; eauto|auto]).
  unfold pop_arg. apply wp_assoc. apply hs_CAR; auto. intros c1 kv d E1 B1. destruct (own_pair _ _ _ _ _ _ O E1 B1) as [Akv Ad].
  apply wp_assoc. apply hs_CAR; auto. intros c2 key v E2 B2. destruct (own_pair _ _ _ _ _ _ O E2 B2) as [Akey Av].
  apply wp_assoc. unfold key_is. apply wp_assoc. apply hs_rd; auto. intros ck Ek. apply hs_done.
  destruct (match body ck with KSym s' => _ | _ => _ end) eqn:M; [|exact Logic.I].
  apply wp_assoc. apply hs_CDR; auto. intros c2' key' v' E2' B2'. rewrite E2 in E2'. injection E2' as <-. rewrite B2 in B2'. injection B2' as <- <-.
  apply wp_assoc. apply hs_CDR; auto. intros c1' kv' d' E1' B1'. rewrite E1 in E1'. injection E1' as <-. rewrite B1 in B1'. injection B1' as <- <-.
  apply hs_done. apply K; auto. intros ->. unfold alive in Av. destruct (cells h v) as [cv|] eqn:Ev; [|congruence].
  destruct (is_pair_c cv) eqn:Pv; [|right; eauto]. left.
  apply (held_cdr [clos] h kv c2 key v ck cv); auto.
  - apply (held_car [clos] h clos c1 kv d); auto. apply held_root. apply in_eq.
  - right. destruct (body ck) as [| | | | |s|] eqn:Bk; try discriminate. exists s. split; auto.
Qed.
Lemma run_prim_ok : forall p full c h0 h L, at_ h0 h L -> In full L -> In c L ->
  wp (hrun_prim allowed opened pwd ev budget p full c) (fun r h' => at_ h0 h' (r :: L)) h.
Proof.
  intros p full c h0 h L S If Ic. unfold hrun_prim. destruct (pops_two p).
  - eapply (pop_arg_ok _ _ _ _ _ _ (at_own _ _ _ S)); [right; alv|]. intros y c1 Ay A1 _. cbn [fst snd].
    eapply (pop_arg_ok _ _ _ _ _ _ (at_own _ _ _ S)); [right; alv|]. intros x c2 Ax A2 _. cbn [fst snd].
    destruct (N.eqb c2 c); [|exact Logic.I]. apply prim2_ok; auto.
  - eapply (pop_arg_ok _ _ _ _ _ _ (at_own _ _ _ S)); [right; alv|]. intros x c1 Ax A1 ST. cbn [fst snd].
    destruct (N.eqb c1 c); [|exact Logic.I]. apply prim1_ok; auto.
Qed.

(** ** Calls *)
Lemma eval_func_ok : forall c symb func vals h0 h L, at_ h0 h (func :: vals :: L) -> In c L -> In symb L ->
  wp (heval_func allowed opened pwd ev budget c symb func vals) (fun r h' => at_ h0 h' (r :: L)) h.
Proof.
  intros c symb func vals h0 h L S Ic Is. unfold heval_func.
  gx. gx. gx; [repeat gx|]. gx. gx. gx. gx. gx. gx. gx.
  lazymatch goal with |- wp (hbind_ (heval_args _ _ ?n ?c ?x ?y ?z) _) _ _ => go_spec (eval_args_ok n c x y z) end.
  gx. gx. gx. gx. destruct (is_nil_c c0); [|repeat gx].
  gx. destruct (is_num_c c1).
  - assert (PR : forall z full h, at_ h0 h (full :: r6 :: r2 :: L) ->
      wp (match prim_of_addr z with
          | Some p => rslt <- hrun_prim allowed opened pwd ev budget p full c ;; X r2 ;;; X r6 ;;; X full ;;; done rslt
          | None => wild
          end) (fun r h' => at_ h0 h' (r :: L)) h).
    { clear S. intros z full h' S. destruct (prim_of_addr z) as [p|]; [|apply wp_wild].
      apply wp_bind. eapply wp_mono; [apply (run_prim_ok p full c h0 h' _ S); inR|]. clear S. cbn beta.
      intros r' h'' S. repeat gx. }
    repeat gx; (apply wp_bind; eapply wp_mono; [eapply PR; eassumption|]; intros; apply wp_done; assumption).
  - repeat gx.
    + eapply (r_tail _ _ _ _ _ _ S); [inR|]. clear S. intros h' S. repeat gx.
    + apply wp_bind. eapply wp_mono; [eapply (tail_loop_ok budget _ symb _ _ h0 _ (r7 :: r6 :: r2 :: L)); [cbn [app]; go|]|].
      * intros x [<-|[<-|[<-|[]]]]; inR.
      * clear S. cbn beta. intros [u v] h' S. cbn [fst snd] in *. repeat gx.
Qed.
Lemma eval_pair_ok : forall c cell, spec (heval_pair allowed opened pwd ev budget c cell) [cell] c.
Proof.
  intros c cell h0 h L S Ic. cbn [app] in S. unfold heval_pair.
  gx. gx. gx. gx. gx. gx. gx.
  - apply wp_bind. eapply wp_mono; [eapply (eval_func_ok c r r1 r0 _ _ (r :: L)); [apply (at_perm _ _ _ _ S); perm|inR|inR]|].
    clear S. cbn beta. intros r' h' S. repeat gx.
  - repeat gx.
Qed.
End Rec.

Lemma heval_nil : forall n c x h cx, cells h x = Some cx -> body cx = KNil ->
  wp (heval allowed opened pwd n c x) (fun r h' => r = x /\ h' = h) h.
Proof.
  intros [|n] c x h cx E B; [apply wp_dry|]. cbn [heval]. apply hs_rd; [unfold alive; congruence|]. intros c' E'.
  rewrite E in E'. injection E' as <-. rewrite B. apply wp_done. auto.
Qed.
Lemma heval_ok : forall n c x, spec (heval allowed opened pwd n c x) [x] c.
Proof.
  induction n as [|n IH]; intros c x h0 h L S Ic; cbn [app] in S; [apply wp_dry|]. cbn [heval].
  apply hs_rd; [alv|]. intros cx E. destruct (body cx); try (apply wp_done; exact S).
  - apply wp_bind. eapply wp_mono; [apply (lookup_spec allowed NoAny n c x h _ (at_holds _ _ _ S)); alv|].
    intros r h' [H' S']. assert (T : at_ h0 h' (r :: x :: L)) by (eapply at_next; eauto). clear S. rename T into S. repeat go.
  - apply (eval_pair_ok _ n IH); auto. intros c' x' h' cx'. apply heval_nil.
Qed.

(** ** Top level *)
Lemma run_ok : forall n l res h0 h L, at_ h0 h (res :: L) ->
  wp (hrun allowed opened pwd n l res) (fun r h' => at_ h0 h' (r :: L)) h.
Proof.
  intros n l. induction l as [|x l IH]; intros res h0 h L S; cbn [hrun]; [apply wp_done; auto|].
  go. go. go.
  lazymatch goal with |- wp (hbind_ (heval _ _ _ ?n ?c ?x) _) _ _ => go_spec (heval_ok n c x) end.
  go. apply IH. auto.
Qed.
End Run.
