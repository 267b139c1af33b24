(** * InstallSpec: the names a function uses. *)
From Verif Require Import Base Value Eval Path Load Install.
Open Scope nat_scope.
Open Scope list_scope.

(** Symbols of a value. *)
Fixpoint mentions (x : atom) : list symbol :=
  match x with Sym _ s => [s] | Pair _ a b => mentions a ++ mentions b | _ => [] end.
(** Symbols of the patterns of a list of pairs (pattern . rest). *)
Fixpoint patterns (x : atom) : list symbol :=
  match x with Pair _ (Pair _ p _) r => mentions p ++ patterns r | _ => [] end.
(** Names bound by a construct: the parameters of a function, the patterns of [let]
    and of [match]. *)
Definition binds (h : symbol) (args : atom) : list symbol :=
  match args with
  | Pair _ x r =>
      if beq h (sy "\") then mentions x
      else if beq h (sy "let") then patterns x
      else if beq h (sy "match") then patterns r
      else []
  | _ => []
  end.
Fixpoint binders (x : atom) : list symbol :=
  match x with
  | Pair _ a b => (match a with Sym _ h => binds h b | _ => [] end) ++ binders a ++ binders b
  | _ => []
  end.
(** The names the value of a function, (parameters closure . body), takes from
    elsewhere; a name bound somewhere in the function counts as local. *)
Definition uses (v : atom) (s : symbol) : Prop :=
  match v with
  | Pair _ ps (Pair _ clo body) =>
      In s (mentions body) /\ ~ In s (mentions ps) /\ ~ In s (binders body)
  | _ => False
  end.
(** The text of a call of [load] on one library file. *)
Definition load_form (f : string) : bytes := bs "(load ""@lib/" ++ bs f ++ bs """)".
