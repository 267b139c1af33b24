(** * ReadSpec: what a text means, without reference to the parser's stack. *)
From Verif Require Import Value ValueSpec PrintSpec Lexer LexerSpec.
Open Scope N_scope.

(** The integer a numeral writes, and the closest 64-bit integer. *)
Inductive numeral : bytes -> Z -> Prop :=
| numeral_plain : forall ds, ds <> [] -> Forall is_digit ds ->
    numeral ds (Z.of_N (dec_value ds))
| numeral_minus : forall ds, ds <> [] -> Forall is_digit ds ->
    numeral (45 :: ds) (- Z.of_N (dec_value ds)).
Definition closest (z : Z) : Z := Z.max (- 2 ^ 63) (Z.min z (2 ^ 63 - 1)).

(** A name of at most 16 bytes, padded with zeros. *)
Definition padded (nm : bytes) (s : symbol) : Prop :=
  exists k, s = nm ++ repeat 0 k /\ length s = 16%nat.

(** The value of one token. *)
Inductive plain : kind -> bytes -> atom -> Prop :=
| plain_number : forall t z, numeral t z -> plain KNumber t (Num (closest z))
| plain_char : forall c, c < 128 -> c <> 92 -> plain KChar [94; c] (Chr (Z.of_N c))
| plain_backslash : plain KChar (bs "^\\") (Chr 92)
| plain_esc : plain KChar (bs "^\e") (Chr 27)
| plain_newline : plain KChar (bs "^\n") (Chr 10)
| plain_return : plain KChar (bs "^\r") (Chr 13)
| plain_tab : plain KChar (bs "^\t") (Chr 9)
| plain_string : forall s r, Forall (fun c => 0 < c < 128) s -> unescape (map Z.of_N s) r ->
    plain KString (34 :: s ++ [34]) (mk_list (map Chr r))
| plain_nil : plain KNil (bs "NIL") Nil
| plain_true : plain KTrue (bs "T") Tru
| plain_wild : plain KWild (bs "_") Wild
| plain_symbol : forall nm s, symbol_text nm -> padded nm s -> plain KSymbol nm (Symb s).

(** Tokens without meaning. *)
Definition filler (t : kind * bytes) : Prop := fst t = KSpace \/ fst t = KComment.

Section Forms.

(** Evaluation at read time: [runs a w v w']. *)
Variable W : Type.
Variable runs : atom -> W -> atom -> W -> Prop.

(** [form w l v w']: the tokens [l] write the value [v]; [body first w l v w']: the
    tokens after an opening parenthesis, up to the closing one; [first] holds as
    long as no element came. *)
Inductive form : W -> list (kind * bytes) -> atom -> W -> Prop :=
| form_plain : forall w k t v, plain k t v -> form w [(k, t)] v w
| form_list : forall w l v w', body true w l v w' -> form w ((KOpen, bs "(") :: l) v w'
| form_quote_list : forall w l v w', body true w l v w' ->
    form w ((KPOpen Quote, bs "'(") :: l) (Cons (Symb (sy "quote")) v) w'
| form_quote_symbol : forall w nm s, symbol_text nm -> padded nm s ->
    form w [(KPSymbol Quote, 39 :: nm)] (Cons (Symb (sy "quote")) (Symb s)) w
| form_quote_number : forall w t z, numeral t z ->
    form w [(KPNumber Quote, 39 :: t)] (Cons (Symb (sy "quote")) (Num (closest z))) w
| form_back_list : forall w l a w1 v w2, body true w l a w1 -> runs a w1 v w2 ->
    form w ((KPOpen Backtick, bs "`(") :: l) v w2
| form_back_symbol : forall w nm s v w', symbol_text nm -> padded nm s -> runs (Symb s) w v w' ->
    form w [(KPSymbol Backtick, 96 :: nm)] v w'
| form_back_number : forall w t z v w', numeral t z -> runs (Num (closest z)) w v w' ->
    form w [(KPNumber Backtick, 96 :: t)] v w'
with body : bool -> W -> list (kind * bytes) -> atom -> W -> Prop :=
| body_close : forall b w, body b w [(KClose, bs ")")] Nil w
| body_filler : forall b w t l v w', filler t -> body b w l v w' -> body b w (t :: l) v w'
| body_item : forall b w l1 x w1 l2 d w2, form w l1 x w1 -> body false w1 l2 d w2 ->
    body b w (l1 ++ l2) (Cons x d) w2
| body_dot : forall w f1 l x f2 w', Forall filler f1 -> form w l x w' -> Forall filler f2 ->
    body false w ((KDot, bs ".") :: f1 ++ l ++ f2 ++ [(KClose, bs ")")]) x w'
| body_splice : forall w l1 a w1 xs w2 l2 d w3, body true w l1 a w1 ->
    runs a w1 (mk_list xs) w2 -> body false w2 l2 d w3 ->
    body false w ((KPOpen Tilde, bs "~(") :: l1 ++ l2) (arg_list xs d) w3.

(** A sequence of forms. *)
Inductive program : W -> list (kind * bytes) -> list atom -> W -> Prop :=
| program_end : forall w, program w [] [] w
| program_filler : forall w t l vs w', filler t -> program w l vs w' -> program w (t :: l) vs w'
| program_form : forall w l1 v w1 l2 vs w2, form w l1 v w1 -> program w1 l2 vs w2 ->
    program w (l1 ++ l2) (v :: vs) w2.

End Forms.

(** Values whose printed text can be read back: no flagged names, names the lexer
    takes for names, printing characters other than the backslash. *)
Definition readable_name (nm : bytes) : Prop :=
  symbol_text nm /\ ~ number_text nm /\ ~ In nm [bs "."; bs "NIL"; bs "T"; bs "_"].
Inductive readable : atom -> Prop :=
| rd_nil : readable Nil
| rd_true : readable Tru
| rd_wild : readable Wild
| rd_num : forall z, (- 2 ^ 63 <= z < 2 ^ 63)%Z -> readable (Num z)
| rd_chr : forall c, (32 <= c <= 126)%Z \/ In c [27; 10; 13; 9]%Z -> c <> 92%Z -> readable (Chr c)
| rd_sym : forall nm s, readable_name nm -> padded nm s -> readable (Symb s)
| rd_pair : forall a d, readable a -> readable d -> readable (Cons a d).

(** Bytes that end a token of letters, digits and marks. *)
Definition delimiter (c : byte) : Prop := ~ (Letter c \/ is_digit c \/ Mark c).

(** Parentheses opened minus parentheses closed. *)
Definition nesting (l : list (kind * bytes)) : Z :=
  fold_right (fun t n => match fst t with KOpen | KPOpen _ => n + 1 | KClose => n - 1 | _ => n end)%Z 0%Z l.

(** A line that fits the read buffer (1023 bytes with its newline). *)
Definition short_line (t : bytes) : Prop :=
  (length t <= 1022)%nat /\ Forall (fun c => c <> 10 /\ c <> 0) t.
