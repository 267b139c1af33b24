(** * Lib3: the test framework of the bundled library. *)
From Verif Require Import Base Value Tails Parser Eval Lib LibText2 LibText3 Lib2.
Open Scope nat_scope.

(** Loaded as in [Lib.v], after the files loaded there and in [Lib2.v]; with a larger
    budget. *)
Fixpoint load_more (texts : list string) (w : world) : option world :=
  match texts with
  | [] => Some w
  | t :: r => match load_text 40 160 [] (bs t) w with Some w' => load_more r w' | None => None end
  end.
Definition texts3 : list string := [split_l; term_l; test_l].
Definition library4 : world := match load_more texts3 library2 with Some w => w | None => world0 end.
Definition lib4 (s : string) : atom :=
  match env_get (globals library4) (sy s) with Some v => v | None => Nil end.
