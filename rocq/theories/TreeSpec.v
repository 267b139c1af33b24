(** * Specification of the globals tree, independent of its algorithms. *)
From Verif Require Import Value ValueSpec Tree Cache.
From Coq Require Import Sorting.Sorted.
Open Scope N_scope.

(** What a history of definitions and updates means: a partial map. *)
Definition gmap := symbol -> option atom.
Definition gset (m : gmap) (k : symbol) (v : atom) : gmap :=
  fun k' => if list_eq_dec N.eq_dec k' k then Some v else m k'.
Definition meaning1 (m : gmap) (o : top) : gmap :=
  match o with
  | TSet k v => gset m k v
  | TUpd k v => match m k with Some _ => gset m k v | None => m end
  end.
Definition meaning (h : list top) : gmap := fold_left meaning1 h (fun _ => None).

(** [linked s p x ks]: from address [x] with parent [p], memory [s] holds a finite,
    correctly linked search tree whose in-order keys are [ks]. *)
Inductive linked (s : mem) : N -> N -> list symbol -> Prop :=
| linked_nil : forall p x, kind s x = NilC -> linked s p x []
| linked_node : forall p x a b, kind s x = NodeC -> pf s x = p ->
    linked s x (lf s x) a -> linked s x (rf s x) b ->
    linked s p x (a ++ dkey s (dat s x) :: b).

(** [tall s x n]: some path from [x] down to a NIL has [n] nodes. *)
Inductive tall (s : mem) : N -> nat -> Prop :=
| tall_nil : forall x, kind s x = NilC -> tall s x 0
| tall_left : forall x n, kind s x = NodeC -> tall s (lf s x) n -> tall s x (S n)
| tall_right : forall x n, kind s x = NodeC -> tall s (rf s x) n -> tall s x (S n).

(** [below s x y]: [y] is a node reachable from [x]. *)
Inductive below (s : mem) : N -> N -> Prop :=
| below_here : forall x, kind s x = NodeC -> below s x x
| below_left : forall x y, kind s x = NodeC -> below s (lf s x) y -> below s x y
| below_right : forall x y, kind s x = NodeC -> below s (rf s x) y -> below s x y.

(** What each lookup of a run must return: the first binding of the name in the
    closure, or else the meaning of the definitions so far, or else NIL. *)
Inductive answers (name : N -> symbol) : gmap -> list cop -> list atom -> Prop :=
| ans_nil : forall m, answers name m [] []
| ans_def : forall m t r vs, answers name (meaning1 m t) r vs -> answers name m (CDef t :: r) vs
| ans_look : forall m o c r v vs,
    (forall before w after, c = before ++ (name o, w) :: after -> ~ In (name o) (map fst before) -> v = w) ->
    (~ In (name o) (map fst c) -> v = match m (name o) with Some w => w | None => Nil end) ->
    answers name m r vs -> answers name m (CLook o c :: r) (v :: vs).
