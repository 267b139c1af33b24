(** * Cc2Spec: what is stated of the marking of types (share/mnml/cps.l:169-192)
    and of the types taken together (share/mnml/cps.l:359-373). *)
From Verif Require Import Base Value ValueSpec Tails Eval EvalSpec BuiltinSpec Lib LibSpec Install CcSpec.
Open Scope nat_scope.

(** Association lists that give each name a list of types, as cps:type:mark builds them
    (share/mnml/cps.l:185-192). *)
Definition typed (l : list (atom * atom)) : Prop :=
  Forall (fun p => (exists k, fst p = Symb k) /\ exists ts, snd p = mk_list (map (Sym false) ts)) l.
(** Marks made one after the other, beginning with NIL. *)
Inductive marked (O : oracle) (c : env) (w : world) : list (symbol * symbol) -> atom -> Prop :=
| marked_nil : marked O c w [] Nil
| marked_snoc : forall ms k t a b, marked O c w ms a ->
    applied O c (lib5 "cps:type:mark") [Symb k; Symb t; a] w (Ret b w) -> marked O c w (ms ++ [(k, t)]) b.
(** The types given to [k], the last one first. *)
Inductive types_of (k : symbol) : list (symbol * symbol) -> list symbol -> Prop :=
| types_none : types_of k [] []
| types_same : forall ms t ts, types_of k ms ts -> types_of k (ms ++ [(k, t)]) (t :: ts)
| types_other : forall ms j t ts, j <> k -> types_of k ms ts -> types_of k (ms ++ [(j, t)]) ts.
(** What the types of a name, the last one marked first, give together: the type if they
    agree after any number of open ones, ERROR otherwise. *)
Inductive outcome : list symbol -> atom -> Prop :=
| outcome_none : outcome [] Nil
| outcome_type : forall t n m, outcome (repeat t (S n) ++ repeat (sy "UNDEF") m) (Symb t)
| outcome_error : forall ts, ts <> [] -> (forall t n m, ts <> repeat t (S n) ++ repeat (sy "UNDEF") m) -> outcome ts (Symb (sy "ERROR")).
(** The type of an operand, given the types marked so far (cps:type:get,
    share/mnml/cps.l:175-183): that of a name is what its marks give together. *)
Inductive operand (l : list (atom * atom)) : atom -> atom -> Prop :=
| operand_nil : operand l Nil (Symb (sy "ATOM"))
| operand_num : forall z, operand l (Num z) (Symb (sy "NUMBER"))
| operand_text : forall v, v <> Nil -> text_value v -> operand l v (Symb (sy "STRING"))
| operand_free : forall k, finds (Symb k) l Nil -> operand l (Symb k) (Symb (sy "ATOM"))
| operand_name : forall k ts r, ts <> [] -> finds (Symb k) l (mk_list (map (Sym false) ts)) -> outcome ts r -> operand l (Symb k) r
| operand_pair : forall t a d, ~ text_value (Pair t a d) -> operand l (Pair t a d) (Symb (sy "ATOM"))
| operand_true : operand l Tru (Symb (sy "ATOM"))
| operand_wild : operand l Wild (Symb (sy "ATOM"))
| operand_chr : forall z, operand l (Chr z) (Symb (sy "ATOM")).
