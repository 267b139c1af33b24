(** * InputSpec: the expressions of an input. *)
From Verif Require Import Value LexerSpec ReadSpec HostSpec.
From Verif Require Eval.

(** [sheet rd w t vs w']: the text [t], made of pieces that are read in one go (lines
    that fit the buffer, HostSpec.v) and blank lines, writes the expressions [vs]. *)
Inductive sheet (rd : atom -> Eval.world -> atom -> Eval.world -> Prop) : Eval.world -> bytes -> list atom -> Eval.world -> Prop :=
| sheet_blank : forall w t, blank t -> sheet rd w t [] w
| sheet_piece : forall w t x l w1 r vs w2, piece rd w t (x :: l) w1 -> sheet rd w1 r vs w2 ->
    sheet rd w (t ++ r) (x :: l ++ vs) w2.

(** Pieces only: the text ends with the line of its last expression. *)
Inductive pieces (rd : atom -> Eval.world -> atom -> Eval.world -> Prop) : Eval.world -> bytes -> list atom -> Eval.world -> Prop :=
| pieces_nil : forall w, pieces rd w [] [] w
| pieces_cons : forall w t x l w1 r vs w2, piece rd w t (x :: l) w1 -> pieces rd w1 r vs w2 ->
    pieces rd w (t ++ r) (x :: l ++ vs) w2.
