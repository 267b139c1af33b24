(** * Properties20: the tree of globals in memory (C97). *)
From Verif Require Import Value ValueSpec ValueProofs Heap HeapSpec HeapProofs HTree HTreeSpec HeapOps HTreeSim HTreeProofs HTreeRun.
From Verif Require HTreeTame.
From Coq Require Import String.
Open Scope string_scope.
Open Scope nat_scope.
Open Scope list_scope.

(** The globals after any history of definitions, updates and lookups, in a heap that
    holds anything else; the values are references to any cells of that heap, which the
    history gives away: every step returns, every reference count is exact, what the
    other cells hold is not altered, and the cells at the root are a tree of the bindings
    of the history, in order, each key once, the parents of all nodes but the root weak. *)
Theorem C97_tree : forall os h0 R n, correct h0 (given os ++ R) -> List.length os < n ->
  exists root cl h', hglobals n os h0 = Done (root, cl) h' /\ correct h' (root :: R) /\ aux h' = aux h0 /\
    unaltered (nxt h0) h0 h' /\ holds_map h' root (means os).
Proof.
  intros os h0 R n C L. destruct (run_final os h0 R n C L) as [root [cl [h' [E [C' [A [Lo [M _]]]]]]]].
  exists root, cl, h'. auto.
Qed.
Print Assumptions C97_tree.

(** What a lookup returns then: the pair of the key and the value of the last definition
    or update of that key, owned by the caller; a new NIL if there is none. *)
Theorem C97_lookup : forall os h0 R n k root cl h', correct h0 (given os ++ R) -> List.length os < n ->
  hglobals n os h0 = Done (root, cl) h' ->
  exists r h2, hget n root k h' = Done r h2 /\ correct h2 (r :: root :: R) /\ unaltered (nxt h0) h0 h2 /\
    match means os k with Some v => binding_at h2 r k v | None => nil_at h2 r end.
Proof.
  intros os h0 R n k root cl h' C L E. destruct (run_final os h0 R n C L) as [root1 [cl1 [h1 [E1 [_ [_ [_ [_ [G _]]]]]]]]].
  rewrite E in E1. injection E1 as <- _ <-. apply G.
Qed.
Print Assumptions C97_lookup.

(** Dropping the root gives every cell of every version of the tree back, and every
    reference the history gave away: only the caller's other references are left. *)
Theorem C97_returned : forall os h0 R n root cl h', correct h0 (given os ++ R) -> List.length os < n ->
  hglobals n os h0 = Done (root, cl) h' ->
  exists h2, X root h' = Done tt h2 /\ correct h2 R /\ unaltered (nxt h0) h0 h2 /\ forall a, (nxt h0 <= a)%N -> cells h2 a = None.
Proof.
  intros os h0 R n root cl h' C L E. destruct (run_final os h0 R n C L) as [root1 [cl1 [h1 [E1 [_ [_ [_ [_ [_ G]]]]]]]]].
  rewrite E in E1. injection E1 as <- _ <-. apply G.
Qed.
Print Assumptions C97_returned.

(** The values too: what only the history referred to is given back. *)
Theorem C97_values_returned : forall os h0 R n root cl h' h2 a, correct h0 (given os ++ R) -> List.length os < n ->
  hglobals n os h0 = Done (root, cl) h' -> X root h' = Done tt h2 -> only_given h0 R a -> cells h2 a = None.
Proof.
  intros os h0 R n root cl h' h2 a C L E Ex G. destruct (C97_returned os h0 R n root cl h' C L E) as [h2' [E2 [C2 [Un Hi]]]].
  rewrite Ex in E2. injection E2 as <-. induction G as [a Nr _ IH]. destruct (cells h2 a) as [c|] eqn:Ea; auto. exfalso.
  destruct (counted _ _ C2 a c Ea) as [K1 K2].
  assert (Z : cnt a R = 0) by (destruct (cnt a R) eqn:Z; auto; exfalso; apply Nr; apply cnt_in; lia).
  assert (I : In a (edges h2)) by (apply cnt_in; lia). destruct (HTreeTame.edge_owner h2 a I) as [p [_ Hp]].
  assert (Fp : In a (fields_at h0 p)).
  { unfold fields_at in *. destruct (cells h2 p) as [c2|] eqn:Ep; [|destruct Hp].
    destruct (N.lt_ge_cases p (nxt h0)) as [Lp|Lp]; [|rewrite (Hi p Lp) in Ep; discriminate].
    destruct (Un p c2 Lp Ep) as [c0 [E0 [U1 [_ U3]]]]. rewrite E0. unfold fields in *. rewrite <- U1, <- U3. auto. }
  specialize (IH p Fp). unfold fields_at in Hp. rewrite IH in Hp. destruct Hp.
Qed.
Print Assumptions C97_values_returned.

(** ** Witnesses *)
Definition nm (s : string) : symbol := sy s.
(** A heap with a list of two numbers: (5 6), at 4, and a number, at 5, of which the
    caller keeps a reference; 5 and 4 are given away several times. *)
Definition tally (l : list (nat * content)) (h : heap) : heap :=
  fold_left (fun h e => set_cell (fresh_heap h (snd e)) (nxt h) (Some (mkcell (fst e) false false (snd e)))) l h.
Definition some_heap : heap :=
  tally [(1, KNum 5); (1, KNum 6); (1, KNil); (1, KPair 1 2); (4, KPair 0 3); (7, KNum 9)] empty.
Definition history : list hop :=
  [HSet (nm "d") 4; HSet (nm "b") 5; HSet (nm "a") 5; HUpd (nm "b") 4; HSet (nm "f") 5; HUpd (nm "zz") 4;
   HSet (nm "e") 5; HGet (nm "a"); HSet (nm "d") 5; HSet (nm "g") 4; HSet (nm "c") 5; HGet (nm "q")].
Example C97_example : correct some_heap (given history ++ [5%N]) /\ List.length history < 20.
Proof.
  split; [|vm_compute; repeat constructor]. constructor.
  - intros a A. unfold alive in A. change (nxt some_heap) with 6%N. destruct (N.ltb_spec a 6) as [L|L]; auto. exfalso. apply A.
    unfold some_heap, tally. cbn [fold_left snd fst]. repeat (rewrite set_other by (cbn; lia); rewrite fresh_old by (cbn; lia)). reflexivity.
  - intros a c E. assert (L : (a < 6)%N).
    { destruct (N.ltb_spec a 6) as [L|L]; auto. exfalso. 
      unfold some_heap, tally in E. cbn [fold_left snd fst] in E. repeat (rewrite set_other in E by (cbn; lia); rewrite fresh_old in E by (cbn; lia)). discriminate. }
    assert (Ca : a = 0%N \/ a = 1%N \/ a = 2%N \/ a = 3%N \/ a = 4%N \/ a = 5%N) by lia.
    destruct Ca as [->|[->|[->|[->|[->| ->]]]]]; vm_compute in E; injection E as <-; vm_compute; split; auto; lia.
  - intros a H. assert (Ca : a = 0%N \/ a = 1%N \/ a = 2%N \/ a = 3%N \/ a = 4%N \/ a = 5%N).
    { assert (I : In a (edges some_heap ++ (given history ++ [5%N]))) by (apply cnt_in; rewrite cnt_app; lia).
      vm_compute in I. repeat (destruct I as [<-|I]; [tauto|]). destruct I. }
    destruct Ca as [->|[->|[->|[->|[->| ->]]]]]; vm_compute; discriminate.
Qed.
Definition found (h : heap) (r : N) : option (option N) :=
  match cells h r with
  | Some c => match body c with KNil => Some None | KPair _ v => Some (Some v) | _ => None end
  | None => None
  end.
Definition cells_left (h : heap) : list (N * nat) :=
  flat_map (fun a => match cells h a with Some c => [(a, refs c)] | None => [] end) (addresses h).
(** The lookups after the history; the number of cells; the cells left when the tree is
    dropped, with their counts: the number the caller kept. *)
Example C97_lookup_example :
  match hglobals 20 history some_heap with
  | Done (root, cl) h =>
      (map (fun k => match hget 20 root (nm k) h with Done r h2 => found h2 r | _ => None end) ["a"; "b"; "c"; "d"; "e"; "f"; "g"; "zz"; "q"],
       List.length (cells_left h), match X root h with Done _ h2 => cells_left h2 | _ => [] end)
  | _ => ([], 0, [])
  end = ([Some (Some 5); Some (Some 4); Some (Some 5); Some (Some 5); Some (Some 5); Some (Some 5); Some (Some 4); Some None; Some None]%N,
         50, [(5%N, 1)]).
Proof. vm_compute. reflexivity. Qed.
(** What the history means. *)
Example C97_means_example : map (fun k => means history (nm k)) ["a"; "b"; "d"; "zz"] = [Some 5; Some 4; Some 5; None]%N.
Proof. vm_compute. reflexivity. Qed.
(** The list, at 4, and its last number, at 1, are given back. *)
Example C97_values_example : only_given some_heap [5%N] 4 /\ only_given some_heap [5%N] 1.
Proof.
  assert (O : forall p a, In a (fields_at some_heap p) -> p = 3%N /\ (a = 1%N \/ a = 2%N) \/ p = 4%N /\ (a = 0%N \/ a = 3%N)).
  { intros p a H. destruct (N.lt_ge_cases p 6) as [L|L].
    - assert (Ca : p = 0%N \/ p = 1%N \/ p = 2%N \/ p = 3%N \/ p = 4%N \/ p = 5%N) by lia.
      destruct Ca as [->|[->|[->|[->|[->| ->]]]]]; vm_compute in H; intuition.
    - exfalso. destruct C97_example as [C _]. unfold fields_at in H. destruct (cells some_heap p) eqn:E; auto.
      assert (X : (p < nxt some_heap)%N) by (apply (bounded _ _ C); unfold alive; congruence). change (nxt some_heap) with 6%N in X. lia. }
  assert (O4 : only_given some_heap [5%N] 4) by (constructor; [intros [E|[]]; discriminate|intros p H; destruct (O _ _ H) as [[_ [E|E]]|[_ [E|E]]]; discriminate]).
  split; auto. constructor; [intros [E|[]]; discriminate|]. intros p H. destruct (O _ _ H) as [[-> _]|[_ [E|E]]]; try discriminate.
  constructor; [intros [E|[]]; discriminate|]. intros q H'. destruct (O _ _ H') as [[_ [E|E]]|[-> _]]; try discriminate. auto.
Qed.
