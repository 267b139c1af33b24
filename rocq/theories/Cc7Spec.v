(** * Cc7Spec: what is stated of the placeholders of a call (share/mnml/cps.l:23-32). *)
From Verif Require Import Base Value ValueSpec Tails Eval EvalSpec BuiltinSpec Lib LibSpec Install CcSpec.
Open Scope nat_scope.

(** The placeholder of a number: an underscore and its numeral (share/mnml/cps.l:15-17). *)
Definition placeholder (i : Z) (a : atom) : Prop := exists l, writes_number i l /\ a = sym_of (mk_chars (95%Z :: l)).
(** [swaps c es k n r]: the elements [es] of a call, numbered from [c], with the tail [k].
    Elements that are no lists stay; a list, NIL among them, is exchanged for the
    placeholder of the next number, and those inside it take the numbers after that; the
    elements are taken from the right. [n] is the next number not used. *)
Inductive swaps : Z -> list atom -> list atom -> Z -> list atom -> Prop :=
| swaps_nil : forall c k, swaps c [] k c k
| swaps_atom : forall c e es k i r, e <> Nil -> (forall t a d, e <> Pair t a d) -> swaps c es k i r -> swaps c (e :: es) k i (e :: r)
| swaps_list : forall c es1 es k i r n r1 p, swaps c es k i r -> placeholder i p -> swaps (i + 1) es1 k n r1 ->
    swaps c (mk_list es1 :: es) k n (p :: r).
(** The same, counting only: [nested es m] says that [es] contains [m] lists, those inside
    others counted too. *)
Inductive nested : list atom -> Z -> Prop :=
| nested_nil : nested [] 0
| nested_atom : forall e es m, e <> Nil -> (forall t a d, e <> Pair t a d) -> nested es m -> nested (e :: es) m
| nested_list : forall es1 es m1 m, nested es1 m1 -> nested es m -> nested (mk_list es1 :: es) (m + 1 + m1).
(** [stand k es is r]: [r] is [es] with its lists exchanged for the placeholders of the
    numbers [is], followed by [k]. *)
Inductive stand (k : list atom) : list atom -> list Z -> list atom -> Prop :=
| stand_nil : stand k [] [] k
| stand_atom : forall e es is r, e <> Nil -> (forall t a d, e <> Pair t a d) -> stand k es is r -> stand k (e :: es) is (e :: r)
| stand_list : forall l es i is p r, placeholder i p -> stand k es is r -> stand k (mk_list l :: es) (i :: is) (p :: r).

(** The name [x] stands somewhere in a term. *)
Inductive mentioned (x : symbol) : atom -> Prop :=
| mentioned_here : mentioned x (Symb x)
| mentioned_car : forall t a d, mentioned x a -> mentioned x (Pair t a d)
| mentioned_cdr : forall t a d, mentioned x d -> mentioned x (Pair t a d).
(** The name [x] stands in a term where no enclosing lambda binds it. *)
Inductive unbound (x : symbol) : atom -> Prop :=
| unbound_here : unbound x (Symb x)
| unbound_car : forall t a d, a <> Symb (sy "\") -> unbound x a -> unbound x (Pair t a d)
| unbound_cdr : forall t a d, a <> Symb (sy "\") -> unbound x d -> unbound x (Pair t a d)
| unbound_under : forall t t' ps body, ~ mentioned x ps -> unbound x body -> unbound x (Pair t (Symb (sy "\")) (Pair t' ps body)).

(** [lifts c b k n r]: [b], whose calls are no conditionals, with the continuation [k] and
    numbers from [c] on, becomes [r]; [n] is the next number not used.  The operands of a
    call that are lists are wrapped around it, from the right ([wraps]). *)
Inductive lifts : Z -> atom -> list atom -> Z -> list atom -> Prop :=
| lifts_atom : forall c b k, b <> Nil -> (forall t a d, b <> Pair t a d) -> lifts c b k c (k ++ [b])
| lifts_call : forall c o es k m sw n r, o <> sy "if" -> o <> sy "unless" -> o <> sy "when" ->
    swaps c (Symb o :: es) k m sw -> wraps c es sw n r -> lifts c (mk_list (Symb o :: es)) k n r
with wraps : Z -> list atom -> list atom -> Z -> list atom -> Prop :=
| wraps_nil : forall c sw, wraps c [] sw c sw
| wraps_atom : forall c e es sw i r, e <> Nil -> (forall t a d, e <> Pair t a d) -> wraps c es sw i r -> wraps c (e :: es) sw i r
| wraps_list : forall c es1 es sw i r p n r1, wraps c es sw i r -> placeholder i p ->
    lifts (i + 1) (mk_list es1) [mk_list [Symb (sy "\"); mk_list [p]; mk_list r]] n r1 -> wraps c (mk_list es1 :: es) sw n r1.
(** Expressions without conditionals: the head of each call is a name other than [if],
    [unless] and [when], each operand a value that is no list, or such a call; [m] counts
    the calls among the operands, at every depth. *)
Inductive plain : atom -> Z -> Prop :=
| plain_atom : forall b, b <> Nil -> (forall t a d, b <> Pair t a d) -> plain b 0
| plain_call : forall o es m, o <> sy "if" -> o <> sy "unless" -> o <> sy "when" -> plains es m -> plain (mk_list (Symb o :: es)) m
with plains : list atom -> Z -> Prop :=
| plains_nil : plains [] 0
| plains_atom : forall e es m, e <> Nil -> (forall t a d, e <> Pair t a d) -> plains es m -> plains (e :: es) m
| plains_call : forall es1 es m1 m, plain (mk_list es1) m1 -> plains es m -> plains (mk_list es1 :: es) (m + 1 + m1).
