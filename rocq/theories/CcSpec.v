(** * CcSpec: the functions of cps.l and cc.l that number arguments, and what is stated of them. *)
From Verif Require Import Base Value ValueSpec Tails Eval EvalSpec BuiltinSpec Lib LibSpec Install.
Open Scope nat_scope.

(** The value a name has once all the files of share/mnml are loaded ([Install.library3]). *)
Definition lib5 (s : string) : atom :=
  match env_get (globals library3) (sy s) with Some v => v | None => Nil end.
(** The names the functions rely on, besides those of [ready]: share/mnml/cps.l:15-32, share/mnml/cps.l:58-106, share/mnml/cps.l:113-126,
    share/mnml/cps.l:169-192, share/mnml/cps.l:359-373 and share/mnml/cc.l:50-72. *)
Definition used5 : list string := ["chr"; "sym"; "str"; "sym?"; "num?"; "str?"; "cond"; "match"; "len"]%string.
Definition given5 : list string := ["cps:symbol"; "cc:replace"; "cc:arg:idx"; "cc:arg:get"; "cc:ref:idx"; "cps:replace"; "cps:type:mark"; "cps:type:fold1"; "cps:type:fold"; "cps:type:get"; "cps:getrefs"; "cps:swap"; "cps:lift"; "cps:lift-any"]%string.
Definition ready5 (c : env) (w : world) : Prop :=
  ready c w /\ forall s, In s (used5 ++ given5) -> means c w (sy s) (lib5 s).

(** The place, counted from [z], of the first element that is the same as [x]; NIL if
    there is none. *)
Inductive indexed (x : atom) : Z -> list atom -> atom -> Prop :=
| indexed_none : forall z, indexed x z [] Nil
| indexed_here : forall z a l, same a x -> indexed x z (a :: l) (Num z)
| indexed_later : forall z a l r, ~ same a x -> indexed x (z + 1) l r -> indexed x z (a :: l) r.
