(** * Independent specifications used by the value-level properties.

    Nothing here refers to the functions of [Value.v]. *)
From Verif Require Import Value.

(** Structural identity of values: the tail-call mark (an interpreter-internal
    annotation invisible to [car], [cdr] and printing) is ignored. *)
Inductive same : atom -> atom -> Prop :=
| same_nil : same Nil Nil
| same_true : same Tru Tru
| same_wild : same Wild Wild
| same_chr : forall c, same (Chr c) (Chr c)
| same_num : forall z, same (Num z) (Num z)
| same_sym : forall t u s, same (Sym t s) (Sym u s)
| same_pair : forall t u a b c d,
    same a c -> same b d -> same (Pair t a b) (Pair u c d).

(** Template instantiation: every wildcard replaced by some value. *)
Inductive instance : atom -> atom -> Prop :=
| inst_wild : forall v, instance Wild v
| inst_nil : instance Nil Nil
| inst_true : instance Tru Tru
| inst_chr : forall c, instance (Chr c) (Chr c)
| inst_num : forall z, instance (Num z) (Num z)
| inst_sym : forall t u s, instance (Sym t s) (Sym u s)
| inst_pair : forall t u a b c d,
    instance a c -> instance b d -> instance (Pair t a b) (Pair u c d).

(** Positions: [false] goes to the head, [true] to the tail. *)
Definition path := list bool.

(** The part of a value at a position, NIL when there is none. *)
Fixpoint part (v : atom) (p : path) {struct p} : atom :=
  match p with
  | [] => v
  | b :: r => match v with Pair _ x y => part (if b then y else x) r | _ => Nil end
  end.

(** [occurs pat p k]: the pattern has the variable [k] at position [p]. *)
Fixpoint occurs (pat : atom) (p : path) (k : symbol) {struct p} : Prop :=
  match p with
  | [] => exists t, pat = Sym t k
  | b :: r => match pat with Pair _ x y => occurs (if b then y else x) r k | _ => False end
  end.

(** Reading a scope: the first pair with that name. *)
Inductive shows : env -> symbol -> option atom -> Prop :=
| shows_empty : forall k, shows [] k None
| shows_here : forall k v e, shows ((k, v) :: e) k (Some v)
| shows_later : forall k k' v e r, k' <> k -> shows e k r -> shows ((k', v) :: e) k r.

(** Last value of a name in a binding list. *)
Inductive last_of : env -> symbol -> option atom -> Prop :=
| last_none : forall k, last_of [] k None
| last_snoc_eq : forall l k v, last_of (l ++ [(k, v)]) k (Some v)
| last_snoc_ne : forall l k k' v r, k' <> k -> last_of l k r ->
    last_of (l ++ [(k', v)]) k r.

(** Names are ordered as byte strings: dictionary order on the first difference. *)
Inductive sym_lt : symbol -> symbol -> Prop :=
| sym_lt_prefix : forall y b, sym_lt [] (y :: b)
| sym_lt_head : forall x y a b, (x < y)%N -> sym_lt (x :: a) (y :: b)
| sym_lt_tail : forall x a b, sym_lt a b -> sym_lt (x :: a) (x :: b).

(** A scope with strictly increasing names. *)
Inductive increasing : env -> Prop :=
| incr_nil : increasing []
| incr_one : forall p, increasing [p]
| incr_cons : forall k v k' v' e, sym_lt k k' -> increasing ((k', v') :: e) ->
    increasing ((k, v) :: (k', v') :: e).

(** Argument lists: [n] entries then a tail. *)
Fixpoint arg_list (entries : list atom) (tail : atom) : atom :=
  match entries with [] => tail | x :: r => Cons x (arg_list r tail) end.

(** Escapes: text on the left, meaning on the right. *)
Inductive unescape : list Z -> list Z -> Prop :=
| un_end : unescape [] []
| un_lone : unescape [92%Z] []
| un_plain : forall c s r, c <> 92%Z -> unescape s r -> unescape (c :: s) (c :: r)
| un_newline : forall s r, unescape s r -> unescape (92 :: 110 :: s)%Z (10%Z :: r)
| un_tab : forall s r, unescape s r -> unescape (92 :: 116 :: s)%Z (9%Z :: r)
| un_other : forall c s r, c <> 110%Z -> c <> 116%Z -> unescape s r ->
    unescape (92%Z :: c :: s) (c :: r).

(** The name of a C string: everything before the first NUL, 16 bytes at most. *)
Inductive name16 : bytes -> nat -> bytes -> Prop :=
| n16_full : forall s, name16 s 0 []
| n16_end : forall n, name16 [] n []
| n16_nul : forall s n, name16 (0%N :: s) n []
| n16_cons : forall b s n r, b <> 0%N -> name16 s n r -> name16 (b :: s) (S n) (b :: r).
