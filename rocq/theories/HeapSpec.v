(** * HeapSpec: what it means for reference counts to be correct. *)
From Verif Require Import Value Heap.
Open Scope nat_scope.

(** How often [a] occurs in a list of references. *)
Definition is (x a : N) : nat := if N.eqb x a then 1 else 0.
Fixpoint cnt (a : N) (l : list N) : nat :=
  match l with [] => 0 | x :: r => is x a + cnt a r end.

(** The references a cell holds: both fields of a pair, except the CAR of a pair
    marked weak. *)
Definition fields (c : cell) : list N :=
  match body c with
  | KPair x y => if weak c then [y] else [x; y]
  | _ => []
  end.
Definition fields_at (h : heap) (a : N) : list N :=
  match cells h a with Some c => fields c | None => [] end.
Definition addresses (h : heap) : list N := map N.of_nat (seq 0 (N.to_nat (nxt h))).

(** Every reference held by a cell of the heap. *)
Definition edges (h : heap) : list N := flat_map (fields_at h) (addresses h).

Definition alive (h : heap) (a : N) : Prop := cells h a <> None.

(** Counts are correct when the program holds exactly the references [roots]: a
    cell is in use exactly if it is referred to, and its count is the number of
    references to it. *)
Record correct (h : heap) (roots : list N) : Prop := mkcorrect {
  bounded : forall a, alive h a -> (a < nxt h)%N;
  counted : forall a c, cells h a = Some c -> refs c = cnt a (edges h) + cnt a roots /\ 0 < refs c;
  present : forall a, 0 < cnt a (edges h) + cnt a roots -> alive h a
}.

(** What a cell stores, apart from its count. *)
Definition stored (c : cell) := (body c, tail c, weak c).

(** Reachable through counted references. *)
Inductive reach (h : heap) (roots : list N) : N -> Prop :=
| reach_root : forall a, In a roots -> reach h roots a
| reach_step : forall a b, reach h roots a -> In b (fields_at h a) -> reach h roots b.

(** No cell refers to itself, however indirectly: some measure decreases along
    every reference. *)
Definition acyclic (h : heap) : Prop :=
  exists rank : N -> nat, forall a b, In b (fields_at h a) -> rank b < rank a.

(** No pair is marked weak: only tree nodes are. *)
Definition strong (h : heap) : Prop := forall a c, cells h a = Some c -> weak c = false.

(** An operation that runs from a heap [h] with [P h] where the program holds [pre]
    (and, besides, any [frame]) touches no freed cell, and when it returns the
    program holds exactly [post] and the frame. *)
Definition neutral_when {A} (P : heap -> Prop) (pre : list N) (m : HM A) (post : A -> list N) : Prop :=
  forall h frame, P h -> correct h (pre ++ frame) -> strong h ->
  match m h with
  | Done r h' => correct h' (post r ++ frame) /\ strong h' /\ aux h' = aux h
  | Freed => False
  | _ => True
  end.
Definition neutral {A} : list N -> HM A -> (A -> list N) -> Prop := neutral_when (fun _ => True).

(** The same, and it does return. *)
Definition returns {A} (P : heap -> Prop) (pre : list N) (m : HM A) (post : A -> list N) : Prop :=
  forall h frame, P h -> correct h (pre ++ frame) -> strong h ->
  exists r h', m h = Done r h' /\ correct h' (post r ++ frame) /\ strong h' /\ aux h' = aux h.
(** An operation of the model with a large enough budget. *)
Definition returns_eventually {A} (P : heap -> Prop) (pre : list N) (m : nat -> HM A) (post : A -> list N) : Prop :=
  forall h frame, P h -> correct h (pre ++ frame) -> strong h ->
  exists n0, forall n, n0 <= n -> exists r h', m n h = Done r h' /\ correct h' (post r ++ frame) /\ strong h' /\ aux h' = aux h.

(** The cell [a] stands for the value [v]. *)
Inductive reads (h : heap) : N -> atom -> Prop :=
| reads_nil : forall a c, cells h a = Some c -> body c = KNil -> reads h a Nil
| reads_true : forall a c, cells h a = Some c -> body c = KTrue -> reads h a Tru
| reads_wild : forall a c, cells h a = Some c -> body c = KWild -> reads h a Value.Wild
| reads_char : forall a c z, cells h a = Some c -> body c = KChar z -> reads h a (Chr z)
| reads_num : forall a c z, cells h a = Some c -> body c = KNum z -> reads h a (Num z)
| reads_sym : forall a c s, cells h a = Some c -> body c = KSym s -> reads h a (Sym (tail c) s)
| reads_pair : forall a c x y v w, cells h a = Some c -> body c = KPair x y ->
    reads h x v -> reads h y w -> reads h a (Pair (tail c) v w).

(** The list [v] with [w] in place of what ends it. *)
Fixpoint joined (v w : atom) : atom :=
  match v with Pair t x y => Pair t x (joined y w) | _ => w end.

(** [p] is the last pair of the list at [a]; [x] is one of its elements. *)
Inductive last_of (h : heap) : N -> N -> Prop :=
| last_here : forall a c x y cy, cells h a = Some c -> body c = KPair x y ->
    cells h y = Some cy -> is_pair_c cy = false -> last_of h a a
| last_next : forall a c x y p, cells h a = Some c -> body c = KPair x y -> last_of h y p -> last_of h a p.
Inductive element (h : heap) : N -> N -> Prop :=
| element_here : forall a c x y, cells h a = Some c -> body c = KPair x y -> element h a x
| element_next : forall a c x y e, cells h a = Some c -> body c = KPair x y -> element h y e -> element h a e.

(** A list that ends. *)
Inductive ends (h : heap) : N -> Prop :=
| ends_here : forall a c, cells h a = Some c -> is_pair_c c = false -> ends h a
| ends_next : forall a c x y, cells h a = Some c -> body c = KPair x y -> ends h y -> ends h a.

(** Data of finite size: no cycle. *)
Inductive finite (h : heap) : N -> Prop :=
| finite_leaf : forall a c, cells h a = Some c -> is_pair_c c = false -> finite h a
| finite_pair : forall a c x y, cells h a = Some c -> body c = KPair x y -> finite h x -> finite h y -> finite h a.

(** Dropping references one after the other. *)
Fixpoint drop_all (l : list N) : HM unit :=
  match l with [] => done tt | a :: r => hbind_ (X a) (fun _ => drop_all r) end.

(** Building a value in the heap. *)
Definition flag (t : bool) (a : N) : HM N :=
  if t then hbind_ (rd a) (fun c => hbind_ (wr a (with_tail c)) (fun _ => done a)) else done a.
Fixpoint plant (v : atom) : HM N :=
  match v with
  | Nil => alloc KNil
  | Tru => alloc KTrue
  | Value.Wild => alloc KWild
  | Chr z => alloc (KChar z)
  | Num z => alloc (KNum z)
  | Sym t s => hbind_ (alloc (KSym s)) (flag t)
  | Pair t x y => hbind_ (plant x) (fun a => hbind_ (plant y) (fun b => hbind_ (hcons a b) (flag t)))
  end.
Definition no_rest : rest := mkrest [] 0 0 0 [] [] [] 0.
Definition empty : heap := mkheap (fun _ => None) 0 no_rest.

(** A (NAME . VALUE) pair, and a list of them that ends with NIL. *)
Definition entry (h : heap) (e : N) : Prop :=
  exists c k v ck s, cells h e = Some c /\ body c = KPair k v /\ cells h k = Some ck /\ body ck = KSym s.
Inductive environment (h : heap) : N -> Prop :=
| environment_nil : forall a c, cells h a = Some c -> body c = KNil -> environment h a
| environment_cons : forall a c x y, cells h a = Some c -> body c = KPair x y -> entry h x -> environment h y -> environment h a.
