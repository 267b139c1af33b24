(** * HEvalSpec: what the interpreter holds between two evaluations. *)
From Verif Require Import Value Heap HeapSpec.
Open Scope nat_scope.

(** The references held by struct lisp (include/mnml/lisp.h:28-39): the globals and
    the channels; and the references the C code has forgotten. *)
Definition held_by_lisp (r : rest) : list N := map snd (binds r) ++ [ichan r; ochan r] ++ lost r.

(** The program holds exactly the references [R] besides those of struct lisp:
    counts are correct, a global is a (NAME . VALUE) pair, a cached global is a
    global, and once the standard channels are open the channel lists are not
    empty. *)
Record holds (h : heap) (R : list N) : Prop := mkholds {
  h_correct : correct h (R ++ held_by_lisp (aux h));
  h_strong : strong h;
  h_globals : forall s kv, In (s, kv) (binds (aux h)) -> exists c k v ck,
    cells h kv = Some c /\ body c = KPair k v /\ cells h k = Some ck /\ body ck = KSym s;
  h_caches : forall a e, In (a, e) (caches (aux h)) -> In e (map snd (binds (aux h)));
  h_chans : opens (aux h) <> 0%N -> forall a, a = ichan (aux h) \/ a = ochan (aux h) ->
    exists c, cells h a = Some c /\ is_pair_c c = true
}.

(** Every cell in use can be reached from what the program and struct lisp hold. *)
Definition no_garbage (h : heap) (R : list N) : Prop :=
  forall a, alive h a -> reach h (R ++ held_by_lisp (aux h)) a.

(** [kv] is the first (NAME . VALUE) pair of the scope [c] whose name is [s]. *)
Inductive innermost (h : heap) (s : symbol) : N -> N -> Prop :=
| inner_here : forall c cc kv d ckv k v ck, cells h c = Some cc -> body cc = KPair kv d ->
    cells h kv = Some ckv -> body ckv = KPair k v -> cells h k = Some ck -> body ck = KSym s ->
    innermost h s c kv
| inner_next : forall c cc kv' d ckv k v ck s' kv, cells h c = Some cc -> body cc = KPair kv' d ->
    cells h kv' = Some ckv -> body ckv = KPair k v -> cells h k = Some ck -> body ck = KSym s' -> s' <> s ->
    innermost h s d kv -> innermost h s c kv.
