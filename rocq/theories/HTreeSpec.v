(** * HTreeSpec: what a history of definitions leaves in memory. *)
From Verif Require Import Value ValueSpec Heap HeapSpec HTree.
From Coq Require Import Sorting.Sorted.

(** What a history means: a partial map to the values, cells. *)
Definition nmap := symbol -> option N.
Definition nset (m : nmap) (k : symbol) (v : N) : nmap :=
  fun k' => if list_eq_dec N.eq_dec k' k then Some v else m k'.
Definition means1 (m : nmap) (o : hop) : nmap :=
  match o with
  | HSet k v => nset m k v
  | HUpd k v => match m k with Some _ => nset m k v | None => m end
  | HGet _ => m
  end.
(** The references a history gives away. *)
Definition given1 (o : hop) : list N := match o with HSet _ v => [v] | HUpd _ v => [v] | HGet _ => [] end.
Definition given (os : list hop) : list N := flat_map given1 os.
Definition means (os : list hop) : nmap := fold_left means1 os (fun _ => None).

(** The address [a] holds a pair of [x] and [y], weak or not; a NIL; a symbol. *)
Definition pair_at (h : heap) (a x y : N) (w : bool) : Prop :=
  exists c, cells h a = Some c /\ body c = KPair x y /\ weak c = w.
Definition nil_at (h : heap) (a : N) : Prop := exists c, cells h a = Some c /\ body c = KNil.
Definition sym_at (h : heap) (a : N) (k : symbol) : Prop := exists c, cells h a = Some c /\ body c = KSym k.
(** The pair (KEY . VALUE), the value the cell [v]. *)
Definition binding_at (h : heap) (a : N) (k : symbol) (v : N) : Prop :=
  exists kc, pair_at h a kc v false /\ sym_at h kc k.
(** The cells below [b] that are left hold what they held. *)
Definition unaltered (b : N) (h h' : heap) : Prop :=
  forall a c', (a < b)%N -> cells h' a = Some c' ->
    exists c, cells h a = Some c /\ body c' = body c /\ tail c' = tail c /\ weak c' = weak c.

(** [tree_at h par w a l]: the cells at [a] are a tree (DATA . (LEFT . (PARENT . RIGHT)))
    whose bindings in order are [l]; the parent of [a] is [par], a weak reference if [w];
    all parents below are weak references. *)
Inductive tree_at (h : heap) : N -> bool -> N -> list (symbol * N) -> Prop :=
| at_nil : forall par w a, nil_at h a -> tree_at h par w a []
| at_node : forall par w a d b2 l b1 r k v ll lr,
    pair_at h a d b2 false -> pair_at h b2 l b1 false -> pair_at h b1 par r w -> binding_at h d k v ->
    tree_at h a true l ll -> tree_at h a true r lr -> tree_at h par w a (ll ++ (k, v) :: lr).
(** The tree at [root] holds exactly the bindings of [m], in order. *)
Definition holds_map (h : heap) (root : N) (m : nmap) : Prop :=
  exists sent l, nil_at h sent /\ tree_at h sent false root l /\ StronglySorted sym_lt (map fst l) /\
    forall k v, In (k, v) l <-> m k = Some v.
(** Nothing but the history refers to [a], directly or through other cells, and [a] is
    on no cycle: [R] are the other references of the caller. *)
Inductive only_given (h : heap) (R : list N) (a : N) : Prop :=
| og : ~ In a R -> (forall p, In a (fields_at h p) -> only_given h R p) -> only_given h R a.
