(** * Cc6Spec: what is stated of the counting of references (share/mnml/cps.l:113-126). *)
From Verif Require Import Base Value ValueSpec Tails Eval EvalSpec BuiltinSpec Lib LibSpec Install CcSpec.
Open Scope nat_scope.

(** Association lists that give each name a count between 0 and [m]. *)
Definition counts (m : Z) (l : list (atom * atom)) : Prop :=
  Forall (fun p => (exists k, fst p = Symb k) /\ exists z, (0 <= z <= m)%Z /\ snd p = Num z) l.
(** How often the name [k] is used in [es]; uses of the continuation [kv] count zero. *)
Inductive uses (kv k : symbol) : list atom -> Z -> Prop :=
| uses_nil : uses kv k [] 0
| uses_here : forall es z, k <> kv -> uses kv k es z -> uses kv k (Symb k :: es) (z + 1)
| uses_cont : forall es z, k = kv -> uses kv k es z -> uses kv k (Symb k :: es) z
| uses_else : forall e es z, e <> Symb k -> uses kv k es z -> uses kv k (e :: es) z.
(** What a call refers to: its operands, and its head if that is an argument of the function. *)
Inductive refers (args : list atom) (op : atom) (es : list atom) : list atom -> Prop :=
| refers_head : (exists a, In a args /\ same a op) -> refers args op es (op :: es)
| refers_rest : ~ (exists a, In a args /\ same a op) -> refers args op es es.
