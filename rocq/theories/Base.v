(** * Base: bytes, C strings and symbols.

    Definitions only; proofs are in [BaseProofs.v]. *)
From Coq Require Export ZArith NArith Lia Bool String Ascii List.
Export ListNotations.
Open Scope list_scope.

(** A C [unsigned char] value, kept in [N]; text is a list of bytes.
    Simplification: the range 0..255 is not enforced by the type; functions that
    depend on it say so. *)
Definition byte := N.
Definition bytes := list N.

(** Coq string literal to bytes (notation helper for examples; no C code). *)
Fixpoint bs (s : string) : bytes :=
  match s with
  | EmptyString => []
  | String c r => N_of_ascii c :: bs r
  end.

(** The prefix of a byte array up to its first NUL: what [strlen]/[strncpy] see
    of their source argument (C library; used by include/mnml/lisp.h:128-148). *)
Fixpoint cstr (s : bytes) : bytes :=
  match s with
  | [] => []
  | b :: r => if N.eqb b 0 then [] else b :: cstr r
  end.

(** [strncpy(dst, s, n)] into a zeroed destination of [n] bytes
    (include/mnml/lisp.h:128-148): at most [n] bytes of [s] up to its NUL, then
    zero padding. *)
Fixpoint strncpy (n : nat) (s : bytes) : bytes :=
  match n with
  | O => []
  | S n' =>
      match s with
      | [] => 0%N :: strncpy n' []
      | b :: r => if N.eqb b 0 then 0%N :: strncpy n' [] else b :: strncpy n' r
      end
  end.

(** include/mnml/types.h:59 LISP_SYMBOL_LENGTH. *)
Definition symbol_length : nat := 16.

(** include/mnml/types.h:61-65: a symbol is a 16-byte array. *)
Definition symbol := bytes.

(** include/mnml/lisp.h:128-131 MAKE_SYMBOL_STATIC / 139-142 _DYNAMIC. *)
Definition mk_symbol (s : bytes) : symbol := strncpy symbol_length s.

(** include/mnml/lisp.h:133-137 MAKE_SYMBOL_STATIC_N / 144-148 _DYNAMIC_N: the
    source is [n] bytes long; the destination tag is zeroed first. *)
Definition mk_symbol_n (s : bytes) (n : nat) : symbol :=
  let l := Nat.min n symbol_length in
  strncpy l s ++ repeat 0%N (symbol_length - l).

(** [memcmp] on two byte arrays, as the sign of the first difference
    (include/mnml/utils.h:107-129).  Both arrays have 16 bytes in the C code; the
    model orders a strict prefix first so that it is total on all lists. *)
Fixpoint memcmp (a b : bytes) : comparison :=
  match a, b with
  | [], [] => Eq
  | [], _ :: _ => Lt
  | _ :: _, [] => Gt
  | x :: a', y :: b' =>
      match N.compare x y with
      | Eq => memcmp a' b'
      | c => c
      end
  end.

(** include/mnml/utils.h:107-116 lisp_symbol_match ([memcmp == 0]; the SSE
    variant at 110-112 computes the same 16-byte equality). *)
Definition sym_match (a b : symbol) : bool :=
  match memcmp a b with Eq => true | _ => false end.

(** include/mnml/utils.h:125-129 lisp_symbol_compare. *)
Definition sym_compare (a b : symbol) : comparison := memcmp a b.

(** Symbol literal: the symbol the C code makes from a static name
    (include/mnml/lisp.h:128-131). *)
Definition sy (s : string) : symbol := mk_symbol (bs s).

(** The bytes of a symbol up to its terminator: [strnlen(val, 16)]
    (lib/core/print.c:121-122). *)
Definition sym_text (s : symbol) : bytes := cstr s.

(** Conversion between a byte and the signed [char] stored in an atom
    (include/mnml/lisp.h:154-164, [R->number = (int64_t)c]); [char] is signed on
    the supported targets. *)
Definition schar (b : byte) : Z :=
  let z := Z.of_N b in if (z <? 128)%Z then z else (z - 256)%Z.
Definition byte_of_char (c : Z) : byte := Z.to_N (c mod 256).

(** The usual C character literals, by name. *)
Definition ch (a : ascii) : byte := N_of_ascii a.
Definition chz (a : ascii) : Z := Z.of_N (N_of_ascii a).

(** Proof helper: split conjunctions only. *)
Ltac ands := repeat match goal with |- _ /\ _ => split end.
