(** * LexerSpec: the tokens of the language, without reference to the scanner. *)
From Verif Require Import Value PrintSpec Lexer.
Open Scope N_scope.

(** Characters. *)
Definition Letter (c : byte) : Prop := 65 <= c <= 90 \/ 97 <= c <= 122.
Definition Mark (c : byte) : Prop := In c (bs "!@$%&*_+-={}[]:;|\<>?,./").
Definition Printing (c : byte) : Prop := 32 <= c <= 126.
Definition Blank (c : byte) : Prop := 9 <= c <= 13 \/ c = 32.

(** Text between the quotes of a string: a quote only after a backslash. *)
Inductive string_body : bytes -> Prop :=
| body_nil : string_body []
| body_char : forall c s, c <> 34 -> string_body s -> string_body (c :: s)
| body_quote : forall s, string_body s -> string_body (92 :: 34 :: s).

(** Names: at most 16 characters, not starting with a digit. *)
Inductive symbol_text : bytes -> Prop :=
| symbol_chars : forall c s, Letter c \/ Mark c ->
    Forall (fun d => Letter d \/ is_digit d \/ Mark d) s -> (length s <= 15)%nat ->
    symbol_text (c :: s).
Inductive number_text : bytes -> Prop :=
| number_plain : forall s, s <> [] -> Forall is_digit s -> number_text s
| number_minus : forall s, s <> [] -> Forall is_digit s -> number_text (45 :: s).

(** The texts of each kind of token. *)
Inductive is_token : kind -> bytes -> Prop :=
| tok_open : is_token KOpen (bs "(")
| tok_close : is_token KClose (bs ")")
| tok_dot : is_token KDot (bs ".")
| tok_number : forall s, number_text s -> is_token KNumber s
| tok_char : forall c, Printing c -> c <> 92 -> is_token KChar [94; c]
| tok_escape : forall c, In c (bs "\enrt") -> is_token KChar [94; 92; c]
| tok_string : forall s, string_body s -> is_token KString (34 :: s ++ [34])
| tok_nil : is_token KNil (bs "NIL")
| tok_true : is_token KTrue (bs "T")
| tok_wild : is_token KWild (bs "_")
| tok_symbol : forall s, symbol_text s -> is_token KSymbol s
| tok_popen : forall p, is_token (KPOpen p) (prefix_byte p :: bs "(")
| tok_psymbol : forall p s, symbol_text s -> is_token (KPSymbol p) (prefix_byte p :: s)
| tok_pnumber : forall p s, number_text s -> is_token (KPNumber p) (prefix_byte p :: s)
| tok_comment : forall s, ~ In 10 s -> is_token KComment (35 :: s)
| tok_space : forall c, Blank c -> is_token KSpace [c].

(** A text may be a token of two kinds; the special one has precedence over a
    name, and a quoted name over a quoted number. *)
Inductive outranks : kind -> kind -> Prop :=
| over_symbol : forall k, In k [KDot; KNumber; KNil; KTrue; KWild] -> outranks k KSymbol
| over_number : forall p, outranks (KPSymbol p) (KPNumber p).
Definition wins (k : kind) (t : bytes) : Prop :=
  is_token k t /\ forall k', is_token k' t -> k' = k \/ outranks k k'.

(** [longest s k t r]: [s] starts with the token [t], followed by [r]; no longer
    part of [s] is a token. *)
Definition longest (s : bytes) (k : kind) (t r : bytes) : Prop :=
  s = t ++ r /\ wins k t /\
  forall k' t' r', s = t' ++ r' -> is_token k' t' -> (length t' <= length t)%nat.
Definition no_token (s : bytes) : Prop := forall k t r, s = t ++ r -> ~ is_token k t.

(** Splitting a text into tokens. *)
Inductive splits : bytes -> list (kind * bytes) -> ending -> Prop :=
| splits_done : splits [] [] Done
| splits_token : forall s k t r l e, t <> [] -> longest s k t r -> splits r l e ->
    splits s ((k, t) :: l) e
| splits_wait : forall s, no_token (34 :: s) -> splits (34 :: s) [] (Waits (34 :: s))
| splits_purge : forall c s, c <> 34 -> no_token (c :: s) ->
    splits (c :: s) [] (Purged (c :: s)).
