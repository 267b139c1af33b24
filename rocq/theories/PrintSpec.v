(** * Independent specification of the textual forms. *)
From Verif Require Import Value ValueSpec.

(** Decimal numerals: value of a digit string, and the canonical text of an
    integer (no leading zero, minus sign for negative numbers). *)
Definition is_digit (b : byte) : Prop := (48 <= b <= 57)%N.
Definition dec_value (ds : bytes) : N :=
  fold_left (fun a d => 10 * a + (d - 48))%N ds 0%N.
Definition canonical_digits (ds : bytes) : Prop :=
  Forall is_digit ds /\ (ds = [48%N] \/ exists d r, ds = d :: r /\ d <> 48%N).
Inductive decimal : Z -> bytes -> Prop :=
| decimal_pos : forall n ds, canonical_digits ds -> dec_value ds = n ->
    decimal (Z.of_N n) ds
| decimal_neg : forall n ds, canonical_digits ds -> dec_value ds = n -> n <> 0%N ->
    decimal (- Z.of_N n) (45%N :: ds).

(** A character after the caret: four control characters have a letter. *)
Inductive glyph : byte -> bytes -> Prop :=
| glyph_esc : glyph 27%N (bs "\e")
| glyph_nl : glyph 10%N (bs "\n")
| glyph_cr : glyph 13%N (bs "\r")
| glyph_tab : glyph 9%N (bs "\t")
| glyph_other : forall b, b <> 27%N -> b <> 10%N -> b <> 13%N -> b <> 9%N -> glyph b [b].

(** The literal form of a value. *)
Inductive literal : atom -> bytes -> Prop :=
| lit_nil : literal Nil (bs "NIL")
| lit_true : literal Tru (bs "T")
| lit_wild : literal Wild (bs "_")
| lit_chr : forall c g, glyph (Z.to_N (c mod 256)) g -> literal (Chr c) (bs "^" ++ g)
| lit_num : forall z t, decimal z t -> literal (Num z) t
| lit_sym : forall t s nm, name16 s 16 nm -> literal (Sym t s) nm
| lit_pair : forall t a d x, items a d x -> literal (Pair t a d) (bs "(" ++ x ++ bs ")")
with items : atom -> atom -> bytes -> Prop :=
| items_last : forall a x, literal a x -> items a Nil x
| items_more : forall t a b d x y, literal a x -> items b d y ->
    items a (Pair t b d) (x ++ bs " " ++ y)
| items_dot : forall a d x y, literal a x -> d <> Nil ->
    (forall t p q, d <> Pair t p q) -> literal d y -> items a d (x ++ bs " . " ++ y).

(** The texts of the leaves of a value in order; NIL contributes nothing. *)
Inductive leaves : atom -> bytes -> Prop :=
| lv_nil : leaves Nil []
| lv_true : leaves Tru (bs "T")
| lv_wild : leaves Wild (bs "_")
| lv_chr : forall c, leaves (Chr c) [Z.to_N (c mod 256)]
| lv_num : forall z t, decimal z t -> leaves (Num z) t
| lv_sym : forall t s nm, name16 s 16 nm -> leaves (Sym t s) nm
| lv_pair : forall t a d x y, leaves a x -> leaves d y -> leaves (Pair t a d) (x ++ y).

(** Values of the C types: 64-bit numbers, 8-bit characters, 16-byte names. *)
Fixpoint c_value (a : atom) : Prop :=
  match a with
  | Num z => (- 2 ^ 63 <= z < 2 ^ 63)%Z
  | Chr c => (-128 <= c < 128)%Z
  | Sym _ s => length s = 16%nat /\ Forall (fun b => (b < 256)%N) s
  | Pair _ a d => c_value a /\ c_value d
  | _ => True
  end.

(** No element of a list inside the value is NIL. *)
Fixpoint no_nil_element (a : atom) : Prop :=
  match a with
  | Pair _ x d => x <> Nil /\ no_nil_element x /\ no_nil_element d
  | _ => True
  end.
