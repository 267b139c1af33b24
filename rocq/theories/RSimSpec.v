(** * RSimSpec: what is read from memory that is used again.  Specification of
    [RHeap.v] and [REval.v], independent of the functions defined there. *)
From Verif Require Import Value Heap HEvalSpec.
From Verif Require Slab SlabProofs RHeap HEval Eval.
Open Scope N_scope.
Module R := RHeap.

(** The value at an address. *)
Inductive held (m : N -> option cell) : N -> atom -> Prop :=
| held_nil : forall a c, m a = Some c -> body c = KNil -> held m a Nil
| held_true : forall a c, m a = Some c -> body c = KTrue -> held m a Tru
| held_wild : forall a c, m a = Some c -> body c = KWild -> held m a Value.Wild
| held_char : forall a c z, m a = Some c -> body c = KChar z -> held m a (Chr z)
| held_num : forall a c z, m a = Some c -> body c = KNum z -> held m a (Num z)
| held_sym : forall a c s, m a = Some c -> body c = KSym s -> held m a (Sym (tail c) s)
| held_pair : forall a c x y v w, m a = Some c -> body c = KPair x y ->
    held m x v -> held m y w -> held m a (Pair (tail c) v w).

(** A channel list: its entries start with the handle. *)
Inductive handles (m : N -> option cell) : N -> list N -> Prop :=
| handles_nil : forall a c, m a = Some c -> body c = KNil -> handles m a []
| handles_cons : forall a c e d ce k x ck n l, m a = Some c -> body c = KPair e d ->
    m e = Some ce -> body ce = KPair k x -> m k = Some ck -> body ck = KNum (Z.of_N n) ->
    handles m d l -> handles m a (n :: l).

(** The pair of the global named [s]. *)
Definition bound_at (r : R.heap) (s : symbol) : option N := HEval.assq (fun k => sym_match k s) (binds (R.aux r)).

(** Memory holds the result [v] at [a] and the state [w] of the evaluator over values. *)
Record shows (r : R.heap) (a : N) (v : atom) (w : Eval.world) : Prop := mkshows {
  sh_result : held (R.cells r) a v;
  sh_bound : forall s u, env_get (Eval.globals w) s = Some u -> exists kv c k x,
    bound_at r s = Some kv /\ R.cells r kv = Some c /\ body c = KPair k x /\ held (R.cells r) x u;
  sh_unbound : forall s, env_get (Eval.globals w) s = None -> bound_at r s = None;
  sh_outs : outs (R.aux r) = Eval.outs w;
  sh_opens : opens (R.aux r) = Eval.opens w;
  sh_ichan : handles (R.cells r) (ichan (R.aux r)) (Eval.ichan w);
  sh_ochan : handles (R.cells r) (ochan (R.aux r)) (Eval.ochan w) }.

(** Every cell of the 64 MB is in use. *)
Definition full (r : R.heap) : Prop := forall b, b < Slab.SLAB_SIZE / Slab.ATOM_SIZE -> R.cells r b <> None.

(** The cells a cell refers to, what is reached from some cells, and memory without
    cycles. *)
Definition fields (m : N -> option cell) (a : N) : list N :=
  match m a with Some c => match body c with KPair x y => [x; y] | _ => [] end | None => [] end.
Inductive reached (m : N -> option cell) (roots : list N) : N -> Prop :=
| reached_root : forall a, In a roots -> reached m roots a
| reached_step : forall a b, reached m roots a -> In b (fields m a) -> reached m roots b.
Definition loop_free (m : N -> option cell) : Prop := exists rank : N -> nat, forall a b, In b (fields m a) -> (rank b < rank a)%nat.
(** What struct lisp refers to. *)
Definition roots_of (r : rest) : list N := map snd (binds r) ++ [ichan r; ochan r].

(** The allocator's memory [s], of which the program has been given the cells [hl],
    holds the cells of [r], each written as [enc] says. *)
Record linked (enc : cell -> Slab.cell) (r : R.heap) (s : Slab.slab) (hl : list N) : Prop := mklinked {
  k_pages : Slab.n_pages s = R.pages r;
  k_served : Slab.n_alloc s = R.served r;
  k_free : SlabProofs.chain (Slab.entries s) (Slab.first s) (R.free r);
  k_given : forall b, In b hl <-> R.cells r b <> None;
  k_bytes : forall b c, R.cells r b = Some c -> Slab.entries s b = enc c }.
