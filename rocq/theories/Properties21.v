(** * Property C98: (slabinfo) counts the cells in use. *)
From Verif Require Import Value Sexp Heap HeapSpec HEval HEvalSpec HEvalBase HeapOps HEvalProofs HEvalBoot.
From Verif Require Import SlabProofs RSimSpec RSim RSimTop RSlabProofs Info InfoProofs Properties18.
From Verif Require Slab RHeap REval.
Open Scope nat_scope.

(** [l] lists the cells in use, each once. *)
Definition lists_used (cs : N -> option cell) (l : list N) : Prop := NoDup l /\ forall b, In b l <-> cs b <> None.
(** [x] and [y], read from two 64-bit counters, are [n] apart: modulo 2^64 always, and as
    numbers as long as fewer than 2^63 allocations were made. *)
Definition apart_by (x y : Z) (total : N) (n : nat) : Prop :=
  ((x - y) mod 2 ^ 64 = Z.of_nat n mod 2 ^ 64)%Z /\ ((Z.of_N total < 2 ^ 63)%Z -> (x - y = Z.of_nat n /\ 0 <= y <= x)%Z).

(** ** At any moment *)

(** Whatever was allocated and given back before, and whatever the cells hold: slabinfo
    returns a fresh pair of two numbers whose difference is the number of cells in use
    when it was called.  It makes three cells and changes no other.  It stops the
    program only if fewer than three cells are left. *)
Theorem C98_count : forall enc ops s hl m l, Slab.run ops = Slab.Running s hl -> linked enc m s hl -> lists_used (R.cells m) l ->
  match slabinfo s m with
  | R.Done p m' => exists x y a d, held (R.cells m') p (Cons (Num x) (Num y)) /\ apart_by x y (Slab.n_alloc s) (length l) /\
      lists_used (R.cells m') (a :: d :: p :: l) /\ (forall b, In b l -> R.cells m' b = R.cells m b)
  | R.Full _ => (2097152 < N.of_nat (length l) + 3)%N
  | _ => False
  end.
Proof.
  intros enc ops s hl m l E L [ND U]. pose proof (slabinfo_ok enc ops s hl m E L) as H. pose proof (run_inv ops s hl (or_introl E)) as I.
  assert (Q : length l = length hl).
  { apply same_members; [exact ND|apply I|]. intro x. rewrite U. symmetry. apply (k_given _ _ _ _ L). }
  rewrite Q. destruct (slabinfo s m) as [p m'| | | |m'|]; try exact H; [|lia].
  destruct H as [a [d [Hp [N3 [F3 [G3 K3]]]]]]. exists (to_i64 (Z.of_N (Slab.n_alloc s))), (to_i64 (Z.of_N (Slab.n_free s))), a, d.
  pose proof (inv_count _ _ I) as C. split; [exact Hp|]. split; [|split; [split|]].
  - split.
    + rewrite Zminus_mod, !to_i64_mod, <- Zminus_mod. f_equal. lia.
    + intro B. rewrite !to_i64_small by lia. lia.
  - inversion N3 as [|? ? A1 N3']; subst. inversion N3' as [|? ? A2 N3'']; subst.
    assert (Z0 : forall b, In b l -> ~ In b [a; d; p]). { intros b J J'. apply U in J. apply F3 in J'. congruence. }
    constructor; [|constructor; [|constructor; [|exact ND]]]; intro J; cbn [In] in J, A1, A2;
      repeat (destruct J as [J|J]; [intuition congruence|]); apply (Z0 _ J); cbn; auto.
  - intro b. rewrite G3, <- U. cbn [In]. tauto.
  - intros b J. apply K3. apply U. exact J.
Qed.
Print Assumptions C98_count.

(** ** After a program *)

(** At the end of any session that returns, there is a history of the allocator behind
    it, and slabinfo counts the cells in use.  If the session used neither [<-] nor
    [def] on something else than a name and left no cycle, these are exactly the cells
    reached from its result, the globals and the channels: a growing difference means
    that more can be reached, never that something was forgotten. *)
Theorem C98_session : forall enc opened pwd n l r h a m,
  session tidy opened pwd n l empty = Done r h -> REval.session opened pwd n l REval.empty = R.Done a m -> loop_free (R.cells m) ->
  exists ops s hl, Slab.run ops = Slab.Running s hl /\ linked enc m s hl /\
  exists live, NoDup live /\ (forall b, In b live <-> reached (R.cells m) (a :: roots_of (R.aux m)) b) /\
  match slabinfo s m with
  | R.Done p m' => exists x y, held (R.cells m') p (Cons (Num x) (Num y)) /\ apart_by x y (Slab.n_alloc s) (length live)
  | R.Full _ => (2097152 < N.of_nat (length live) + 3)%N
  | _ => False
  end.
Proof.
  intros enc opened pwd n l r h a m E E' LF. pose proof (C95_allocator enc opened pwd n l) as A. rewrite E' in A.
  destruct A as [ops [s [hl [R0 [L [ND _]]]]]]. exists ops, s, hl. split; [exact R0|]. split; [exact L|]. exists hl. split; [exact ND|].
  split.
  - intro b. rewrite (k_given _ _ _ _ L). split; [apply (C95_no_garbage_partial opened pwd n l r h a m E E' LF)|].
    pose proof (session_mirrors true tidy opened pwd n l (fun _ => conj eq_refl eq_refl)) as T. rewrite E, E' in T. destruct T as [W [M [O ->]]].
    pose proof (wp_run _ _ _ (session_ok tidy eq_refl opened pwd n l)) as C. rewrite E in C. destruct C as [C1 C2].
    destruct (C2 eq_refl eq_refl) as [L0 S0]. apply (reached_used W h r _ m M C1 S0 L0 O eq_refl).
  - assert (LU : lists_used (R.cells m) hl) by (split; [exact ND|exact (k_given _ _ _ _ L)]).
    pose proof (C98_count enc ops s hl m hl R0 L LU) as H. destruct (slabinfo s m); try exact H.
    destruct H as [x [y [c [d [H1 [H2 _]]]]]]. exists x, y. split; [exact H1|exact H2].
Qed.
Print Assumptions C98_session.

(** ** Cases *)

Example C98_session_case : exists r h a m, session tidy yes Nil 40 adds empty = Done r h /\
  REval.session yes Nil 40 adds REval.empty = R.Done a m /\ loop_free (R.cells m).
Proof. exact C95_no_garbage_case. Qed.

(** After the program 591 allocations were made and 502 cells are in use: the answer is
    (591 . 89). *)
Definition used_of (m : R.heap) : list N :=
  filter (fun b => match R.cells m b with Some _ => true | None => false end) (map N.of_nat (seq 0 2048)).
Definition tally (o : R.hres N) : bool :=
  match o with R.Done _ m => (R.pages m =? 16)%N && (R.served m =? 591)%N && (length (used_of m) =? 502) | _ => false end.
Lemma adds_tally : tally (REval.session yes Nil 40 adds REval.empty) = true.
Proof. vm_compute. reflexivity. Qed.
Example C98_count_case : exists a m ops s hl l p m', REval.session yes Nil 40 adds REval.empty = R.Done a m /\
  Slab.run ops = Slab.Running s hl /\ linked (fun _ => Slab.zero_cell) m s hl /\ lists_used (R.cells m) l /\ length l = 502 /\
  slabinfo s m = R.Done p m' /\ held (R.cells m') p (Cons (Num 591) (Num 89)).
Proof.
  pose proof (C95_allocator (fun _ => Slab.zero_cell) yes Nil 40 adds) as A. pose proof adds_tally as H. revert H A.
  generalize (REval.session yes Nil 40 adds REval.empty). intros [a m| | | | |] H A; try discriminate H.
  unfold tally in H. apply andb_prop in H. destruct H as [H K]. apply andb_prop in H. destruct H as [P V].
  apply N.eqb_eq in P, V. apply Nat.eqb_eq in K. destruct A as [ops [s [hl [E [L [ND [C _]]]]]]]. pose proof (run_inv ops s hl (or_introl E)) as I.
  assert (LU : lists_used (R.cells m) (used_of m)).
  { split.
    - unfold used_of. generalize 2048. intro k. apply NoDup_filter. apply FinFun.Injective_map_NoDup; [intros x y; apply Nat2N.inj|apply seq_NoDup].
    - intro b. unfold used_of. rewrite filter_In. split; [intros [_ J] X; rewrite X in J; discriminate J|].
      intro U. split; [|destruct (R.cells m b); [reflexivity|congruence]].
      apply (k_given _ _ _ _ L) in U. apply (inv_held_bound _ _ I) in U. rewrite cell_count_pages, (k_pages _ _ _ _ L), P in U.
      apply in_map_iff. exists (N.to_nat b). split; [apply N2Nat.id|]. apply in_seq. lia. }
  assert (U : exists l, lists_used (R.cells m) l /\ length l = 502) by (exists (used_of m); split; [exact LU|exact K]).
  clear LU K. destruct U as [l [LU K]].
  assert (Q : length hl = length l).
  { destruct LU as [D U]. apply same_members; [exact ND|exact D|]. intro x. rewrite U. apply (k_given _ _ _ _ L). }
  rewrite K in Q.
  assert (NA : Slab.n_alloc s = 591%N) by (rewrite (k_served _ _ _ _ L); exact V).
  assert (NF : Slab.n_free s = 89%N) by (rewrite NA, Q in C; lia).
  pose proof (slabinfo_ok _ ops s hl m E L) as S0. destruct (slabinfo s m) as [p m'| | | |m'|] eqn:D; try contradiction S0; [|lia].
  destruct S0 as [c [d [S1 _]]]. rewrite NA, NF in S1.
  exists a, m, ops, s, hl, l, p, m'. split; [reflexivity|]. split; [exact E|]. split; [exact L|]. split; [exact LU|]. split; [exact K|].
  split; [exact D|exact S1].
Qed.
