(** * Lib2: more of the bundled library. *)
From Verif Require Import Base Value Tails Parser Eval Lib LibText2.
Open Scope nat_scope.

(** Loaded as in [Lib.v], after the files loaded there. *)
Definition texts2 : list string := [iter_l; iter2_l; trim_l; join_l; merge_l; dedup_l; args_l].
Definition library2 : world := match load_all texts2 library with Some w => w | None => world0 end.
Definition lib2 (s : string) : atom :=
  match env_get (globals library2) (sy s) with Some v => v | None => Nil end.
