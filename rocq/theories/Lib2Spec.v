(** * Lib2Spec: what the properties of the files of [Lib2.v] are stated with. *)
From Verif Require Import Base Value ValueSpec Tails Eval EvalSpec Lib LibSpec Lib2.
Open Scope nat_scope.

(** The names of [Lib2.v] that the functions rely on, besides those of [ready]. *)
Definition given2 : list string :=
  ["match"; "iter"; "iter2"; "whitespace?"; "triml"; "trimr"; "trim"; "args:skip"]%string.
Definition ready2 (c : env) (w : world) : Prop :=
  ready c w /\ forall s, In s given2 -> means c w (sy s) (lib2 s).

(** A function argument that leaves these alone as well. *)
Definition acts2 (O : oracle) (c : env) (hid : list string) (f : atom) (F : behaviour) : Prop :=
  acts O c hid f F /\ forall vs w b w', F vs w b w' -> ready2 c w -> ready2 c w'.

(** ** Iteration *)

(** Each element in turn; [v] is the last answer, NIL if there is none.  The answers
    are values that [let] binds as they are. *)
Inductive visits (F : behaviour) : list atom -> world -> atom -> world -> Prop :=
| visits_none : forall w, visits F [] w Nil w
| visits_last : forall a w b w1, F [a] w b w1 -> kept "rslt" b -> visits F [a] w b w1
| visits_next : forall a a' l w b w1 v w2, F [a] w b w1 -> kept "rslt" b ->
    visits F (a' :: l) w1 v w2 -> visits F (a :: a' :: l) w v w2.
(** Two lists together, up to the end of the shorter. *)
Inductive visits2 (F : behaviour) : list atom -> list atom -> world -> atom -> world -> Prop :=
| visits2_none1 : forall l w, visits2 F [] l w Nil w
| visits2_none2 : forall l w, visits2 F l [] w Nil w
| visits2_last : forall a b l m w r w1, F [a; b] w r w1 -> kept "rslt" r ->
    kept "car1" a -> kept "car2" b -> kept "cdr1" (mk_list l) -> kept "cdr2" (mk_list m) ->
    l = [] \/ m = [] -> visits2 F (a :: l) (b :: m) w r w1
| visits2_next : forall a b l m w r w1 v w2, F [a; b] w r w1 -> kept "rslt" r ->
    kept "car1" a -> kept "car2" b -> kept "cdr1" (mk_list l) -> kept "cdr2" (mk_list m) ->
    l <> [] -> m <> [] -> visits2 F l m w1 v w2 -> visits2 F (a :: l) (b :: m) w v w2.

(** ** Texts *)

Definition white (z : Z) : Prop := (z = 32 \/ z = 9 \/ z = 10 \/ z = 13)%Z.
(** The lists [ls] with [x] between them. *)
Inductive joined (x : atom) : list (list atom) -> list atom -> Prop :=
| joined_none : joined x [] []
| joined_one : forall l, joined x [l] l
| joined_more : forall l ls r, ls <> [] -> joined x ls r -> joined x (l :: ls) (l ++ x :: r).

(** ** Merging *)

(** The elements of the first list put in one after the other, then the result gone
    through once. *)
Definition merged (I D : behaviour) (a : list atom) (z : atom) (w : world) (v : atom) (w' : world) : Prop :=
  exists r w1, folds_left (fun vs => match vs with [acc; e] => I [e; acc] | _ => fun _ _ _ => False end) a z w r w1 /\
    D [r] w1 v w'.
(** From the right: each element against the first of what there is so far.  An
    answer that is not one of the three commands drops everything. *)
Definition cmd (s : string) (v : atom) : atom := Cons (Symb (sy s)) v.
Inductive deduped (F : behaviour) : list atom -> world -> list atom -> world -> Prop :=
| dd_none : forall w, deduped F [] w [] w
| dd_first : forall a l w w1, deduped F l w [] w1 -> deduped F (a :: l) w [a] w1
| dd_append : forall a l w b r w1 v w2, deduped F l w (b :: r) w1 -> F [a; b] w1 (cmd "APPEND" v) w2 ->
    deduped F (a :: l) w (v :: b :: r) w2
| dd_replace : forall a l w b r w1 v w2, deduped F l w (b :: r) w1 -> F [a; b] w1 (cmd "REPLACE" v) w2 ->
    deduped F (a :: l) w (v :: r) w2
| dd_skip : forall a l w b r w1 v w2, deduped F l w (b :: r) w1 -> F [a; b] w1 (cmd "SKIP" v) w2 ->
    deduped F (a :: l) w (b :: r) w2
| dd_other : forall a l w b r w1 t x v w2, deduped F l w (b :: r) w1 -> F [a; b] w1 (Pair t x v) w2 ->
    (forall u s, In s ["APPEND"; "REPLACE"; "SKIP"]%string -> x <> Sym u (sy s)) ->
    deduped F (a :: l) w [] w2.

(** ** Skipping *)

(** The list without its first [z] elements; nothing is left when [z] is negative. *)
Inductive skipped : Z -> list atom -> list atom -> Prop :=
| skipped_zero : forall l, skipped 0 l l
| skipped_nil : forall z, z <> 0%Z -> skipped z [] []
| skipped_cons : forall z a l r, z <> 0%Z -> skipped (z - 1) l r -> skipped z (a :: l) r.
