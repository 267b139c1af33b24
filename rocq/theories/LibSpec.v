(** * LibSpec: what the properties of the library are stated with. *)
From Verif Require Import Base Value ValueSpec Tails Eval EvalSpec Lib.
From Coq Require Import Sorted Permutation.
Open Scope nat_scope.

(** The builtins the library uses and the functions it provides, by name. *)
Definition used : list string :=
  ["if"; "lst?"; "nil?"; "car"; "cdr"; "cons"; "and"; "not"; "or"; "="; "<"; ">"; "+"; "-"; "*"; "/"; "%";
   "\"; "let"; "list"; "eval"; "when"; "|>"; "quote"]%string.
Definition given : list string :=
  ["foldl"; "foldr"; "map"; "map2"; "zip"; "rev"; "filter"; "append"; "$+"; "has"; "assoc"; "caar"; "cadr";
   "cdar"; "cddr"; "caddr"; "last"; "rep"; "truncl"; "truncr"; "erase"; "replc"; "aton"; "ntoa"; "isort";
   "insert"; "<|>"; "strlt"]%string.
(** All these names have, in scope [c] and state [w], the value they have when the
    library has been loaded. *)
Definition ready (c : env) (w : world) : Prop :=
  forall s, In s (used ++ given) -> means c w (sy s) (lib s).

(** [answers O S h f vs w o]: a call whose head is the name [h], which denotes [f]
    when the call starts, and whose arguments evaluate to [vs] and leave the state
    [w], ends with [o].  [applied]: whatever the name. *)
Definition answers (O : oracle) (S : env) (h : symbol) (f : atom) (vs : list atom) (w : world) (o : out atom) : Prop :=
  forall t es w0, means S w0 h f -> runs_list O S es w0 (Ret vs w) ->
    runs O S (Pair t (Symb h) (mk_list es)) w0 o.
Definition applied (O : oracle) (S : env) (f : atom) (vs : list atom) (w : world) (o : out atom) : Prop :=
  forall h, answers O S h f vs w o.

(** The scopes [c] and [S] agree except on the names [hid]. *)
Definition apart (hid : list string) (c S : env) : Prop :=
  forall k r, (forall s, In s hid -> k <> sy s) -> (shows S k r <-> shows c k r).

(** A function argument is described by a relation [F vs w b w']: called on [vs]
    from [w] it returns [b] and leaves [w'].  [acts]: it does so in every scope that
    agrees with [c] except on the names [hid] (the parameters of the library
    function), it returns no interpreter-internal value, and leaves the library
    alone. *)
Definition behaviour := list atom -> world -> atom -> world -> Prop.
Definition acts (O : oracle) (c : env) (hid : list string) (f : atom) (F : behaviour) : Prop :=
  (forall S vs w b w', increasing S -> apart hid c S -> ready c w -> F vs w b w' ->
     applied O S f vs w (Ret b w')) /\
  (forall vs w b w', F vs w b w' -> is_tail_call b = false /\ (ready c w -> ready c w')).

(** ** The list functions *)

(** Each element in turn, from the left. *)
Inductive maps (F : behaviour) : list atom -> world -> list atom -> world -> Prop :=
| maps_nil : forall w, maps F [] w [] w
| maps_cons : forall a l w b w1 bs w2, F [a] w b w1 -> maps F l w1 bs w2 ->
    maps F (a :: l) w (b :: bs) w2.
(** Two lists together, up to the end of the shorter. *)
Inductive maps2 (F : behaviour) : list atom -> list atom -> world -> list atom -> world -> Prop :=
| maps2_nil1 : forall l w, maps2 F [] l w [] w
| maps2_nil2 : forall l w, maps2 F l [] w [] w
| maps2_cons : forall a1 l1 a2 l2 w b w1 bs w2, F [a1; a2] w b w1 -> maps2 F l1 l2 w1 bs w2 ->
    maps2 F (a1 :: l1) (a2 :: l2) w (b :: bs) w2.
(** ((z . a1) . a2) ... *)
Inductive folds_left (F : behaviour) : list atom -> atom -> world -> atom -> world -> Prop :=
| fl_nil : forall z w, folds_left F [] z w z w
| fl_cons : forall a l z w z1 w1 r w2, F [z; a] w z1 w1 -> folds_left F l z1 w1 r w2 ->
    folds_left F (a :: l) z w r w2.
(** a1 . (a2 . ... z) *)
Inductive folds_right (F : behaviour) (z : atom) : list atom -> world -> atom -> world -> Prop :=
| fr_nil : forall w, folds_right F z [] w z w
| fr_cons : forall a l w r w1 b w2, folds_right F z l w r w1 -> F [a; r] w1 b w2 ->
    folds_right F z (a :: l) w b w2.
(** The elements for which the test is NIL, the test being run from the right. *)
Inductive filters (F : behaviour) : list atom -> world -> list atom -> world -> Prop :=
| filters_nil : forall w, filters F [] w [] w
| filters_out : forall a l w r w1 b w2, filters F l w r w1 -> F [a] w1 b w2 -> b <> Nil ->
    filters F (a :: l) w r w2
| filters_in : forall a l w r w1 w2, filters F l w r w1 -> F [a] w1 Nil w2 ->
    filters F (a :: l) w (a :: r) w2.

(** A function that only computes: [b] from [vs], the state unchanged. *)
Definition pure (P : list atom -> atom -> Prop) : behaviour := fun vs w b w' => P vs b /\ w' = w.

(** The value of the first key equal to [k], NIL if there is none. *)
Inductive finds (k : atom) : list (atom * atom) -> atom -> Prop :=
| finds_none : finds k [] Nil
| finds_here : forall k1 v l, same k1 k -> finds k ((k1, v) :: l) v
| finds_later : forall k1 v l r, ~ same k1 k -> finds k l r -> finds k ((k1, v) :: l) r.
(** An association list as a value. *)
Definition alist (l : list (atom * atom)) : atom := mk_list (map (fun p => Cons (fst p) (snd p)) l).
(** The entries whose key is not [k]. *)
Inductive erased (k : atom) : list (atom * atom) -> list (atom * atom) -> Prop :=
| erased_nil : erased k [] []
| erased_out : forall k1 v l r, same k k1 -> erased k l r -> erased k ((k1, v) :: l) r
| erased_in : forall k1 v l r, ~ same k k1 -> erased k l r -> erased k ((k1, v) :: l) ((k1, v) :: r).
(** The same entries with the value of [k] changed. *)
Inductive replaced (k x : atom) : list (atom * atom) -> list (atom * atom) -> Prop :=
| replaced_nil : replaced k x [] []
| replaced_yes : forall k1 v l r, same k k1 -> replaced k x l r -> replaced k x ((k1, v) :: l) ((k, x) :: r)
| replaced_no : forall k1 v l r, ~ same k k1 -> replaced k x l r -> replaced k x ((k1, v) :: l) ((k1, v) :: r).

(** Chains of [car] and [cdr], the last of the list applied first. *)
Inductive halves : list string -> atom -> atom -> Prop :=
| halves_nil : forall v, halves [] v v
| halves_cons : forall s l v u r, halves l v u -> (s = "car"%string /\ r = car u \/ s = "cdr"%string /\ r = cdr u) ->
    halves (s :: l) v r.
Definition chains : list (string * list string) :=
  [("caar", ["car"; "car"]); ("cadr", ["car"; "cdr"]); ("cdar", ["cdr"; "car"]); ("cddr", ["cdr"; "cdr"]);
   ("caddr", ["car"; "cdr"; "cdr"])]%string.

(** The scopes [c] and [S] agree except on the names [hid], and on the names [low] when
    [c] does not have them. *)
Definition beside (hid low : list string) (c S : env) : Prop :=
  forall k r, (forall s, In s hid -> k <> sy s) ->
    (exists v, shows c k (Some v)) \/ (forall s, In s low -> k <> sy s) -> (shows S k r <-> shows c k r).
(** Expressions evaluated in turn, whose values are lists, in whatever scope that
    agrees with [c] in this sense; [l] is the concatenation. *)
Inductive joins (O : oracle) (c : env) (hid low : list string) : list atom -> world -> list atom -> world -> Prop :=
| joins_nil : forall w, joins O c hid low [] w [] w
| joins_cons : forall e es w l w1 r w2,
    (forall S, increasing S -> beside hid low c S -> runs O S e w (Ret (mk_list l) w1)) -> ready c w1 ->
    joins O c hid low es w1 r w2 -> joins O c hid low (e :: es) w (l ++ r) w2.

(** ** Sorting *)

(** A comparator: on the values of [dom] it returns [cmp x y] and has no effect; a
    value other than NIL means that [x] goes before [y]. *)
Definition compares (dom : atom -> Prop) (cmp : atom -> atom -> atom) : behaviour :=
  pure (fun vs b => exists x y, vs = [x; y] /\ dom x /\ dom y /\ b = cmp x y).
(** [y] need not go before [x]. *)
Definition fine (cmp : atom -> atom -> atom) (x y : atom) : Prop := cmp y x = Nil.
(** Neither goes before the other. *)
Definition tied (cmp : atom -> atom -> atom) (x y : atom) : bool := is_null (cmp x y) && is_null (cmp y x).
(** A strict weak order on [dom]. *)
Definition weak_order (dom : atom -> Prop) (cmp : atom -> atom -> atom) : Prop :=
  (forall x y, dom x -> dom y -> cmp x y <> Nil -> cmp y x = Nil) /\
  (forall x y z, dom x -> dom y -> dom z -> cmp x y = Nil -> cmp y z = Nil -> cmp x z = Nil).
(** The same elements, each as often, in order, tied elements in their first order. *)
Definition sorts (cmp : atom -> atom -> atom) (l l' : list atom) : Prop :=
  Permutation l l' /\ StronglySorted (fine cmp) l' /\
  forall x, In x l -> filter (tied cmp x) l' = filter (tied cmp x) l.
(** [let] keeps the value as it is when it binds it to the name: it does not have
    the shape of a function with a call of that name in tail position. *)
Definition kept (s : string) (v : atom) : Prop :=
  is_func v = false \/ mark_body (sy s) (car v) (cdr (cdr v)) = Some (cdr (cdr v)).
(** [e] goes in before the first element it must precede. *)
Inductive inserts (cmp : atom -> atom -> atom) (e : atom) : list atom -> list atom -> Prop :=
| inserts_end : inserts cmp e [] [e]
| inserts_here : forall y l, cmp e y <> Nil -> inserts cmp e (y :: l) (e :: y :: l)
| inserts_next : forall y l l', cmp e y = Nil -> inserts cmp e l l' -> inserts cmp e (y :: l) (y :: l').

(** Dictionary order. *)
Inductive dictionary : list Z -> list Z -> Prop :=
| dict_end : forall y b, dictionary [] (y :: b)
| dict_lt : forall x a y b, (x < y)%Z -> dictionary (x :: a) (y :: b)
| dict_eq : forall x a b, dictionary a b -> dictionary (x :: a) (x :: b).

(** ** Numerals *)

Definition digit (d : Z) : Prop := (48 <= d <= 57)%Z.
(** The number written [l]. *)
Inductive reads : list Z -> Z -> Prop :=
| reads_nil : reads [] 0
| reads_snoc : forall l n d, digit d -> reads l n -> reads (l ++ [d]) (10 * n + (d - 48)).
(** The way of writing [n]: its digits, the first one not 0, or "0". *)
Definition writes_number (n : Z) (l : list Z) : Prop :=
  reads l n /\ (n = 0%Z /\ l = [48%Z] \/ exists d r, l = d :: r /\ d <> 48%Z).
