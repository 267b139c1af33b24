(** * Lexer: the scanner of lib/grammar/lexer.rl.

    Definitions only; proofs are in [LexerProofs.v].

    lexer.rl is the input of the Ragel generator; the model follows the meaning
    Ragel documents for a scanner block ([main := |* ... *|], lexer.rl:182-218):
    the longest text that matches one of the patterns is taken, and the first
    pattern listed wins when several match that text. *)
From Verif Require Import Value.
Open Scope N_scope.

(** ** Regular expressions, as written in lexer.rl:166-177 *)
Inductive re :=
| Empty                            (* no text *)
| Eps                              (* the empty text *)
| Cls (f : byte -> bool)           (* one byte of a class *)
| Alt (a b : re)
| Cat (a b : re)
| Star (a : re).

(** Whether the empty text matches (the final states of the automaton generated from
    lexer.rl:166-218). *)
Fixpoint nullable (r : re) : bool :=
  match r with
  | Empty | Cls _ => false
  | Eps | Star _ => true
  | Alt a b => nullable a || nullable b
  | Cat a b => nullable a && nullable b
  end.

(** Simplifying constructors (no C code). *)
Definition alt (a b : re) : re :=
  match a, b with
  | Empty, _ => b
  | _, Empty => a
  | _, _ => Alt a b
  end.
Definition cat (a b : re) : re :=
  match a, b with
  | Empty, _ => Empty
  | _, Empty => Empty
  | Eps, _ => b
  | _, _ => Cat a b
  end.

(** The texts that may follow byte [c]: one step of the automaton generated
    from lexer.rl:182-218. *)
Fixpoint deriv (c : byte) (r : re) : re :=
  match r with
  | Empty | Eps => Empty
  | Cls f => if f c then Eps else Empty
  | Alt a b => alt (deriv c a) (deriv c b)
  | Cat a b =>
      if nullable a then alt (cat (deriv c a) b) (deriv c b) else cat (deriv c a) b
  | Star a => cat (deriv c a) (Star a)
  end.

(** No text can match any more: the error state of the automaton. *)
Definition is_empty (r : re) : bool := match r with Empty => true | _ => false end.

(** ** Byte classes.  [alpha], [alnum], [digit], [print], [space] are Ragel's
    builtin classes over [char]. *)
Definition between (a b : byte) (c : byte) : bool := (a <=? c) && (c <=? b).
Definition one (a : byte) (c : byte) : bool := a =? c.
Definition digit (c : byte) : bool := between 48 57 c.
Definition alpha (c : byte) : bool := between 65 90 c || between 97 122 c.
Definition alnum (c : byte) : bool := alpha c || digit c.
Definition printing (c : byte) : bool := between 32 126 c.
Definition space (c : byte) : bool := between 9 13 c || one 32 c.
Definition among (l : bytes) (c : byte) : bool := existsb (N.eqb c) l.
(** lexer.rl:175. *)
Definition marks : byte -> bool := among (bs "!@$%&*_+-={}[]:;|\<>?,./").

(** A fixed text, an optional pattern, and [r{,n}] (lexer.rl:166-177). *)
Fixpoint text (s : bytes) : re :=
  match s with [] => Eps | c :: r => Cat (Cls (one c)) (text r) end.
Definition opt_re (r : re) : re := Alt Eps r.
Fixpoint up_to (n : nat) (r : re) : re :=
  match n with O => Eps | S n' => opt_re (Cat r (up_to n' r)) end.

(** lexer.rl:166-177, one definition per line. *)
Definition popen_re := text (bs "(").
Definition pclose_re := text (bs ")").
Definition dot_re := text (bs ".").
Definition number_re := Cat (opt_re (text (bs "-"))) (Cat (Cls digit) (Star (Cls digit))).
Definition char_re :=
  Cat (text (bs "^"))
      (Alt (Cls (fun c => printing c && negb (one 92 c)))
      (Alt (text (bs "\\")) (Alt (text (bs "\e")) (Alt (text (bs "\n"))
      (Alt (text (bs "\r")) (text (bs "\t"))))))).
Definition string_re :=
  Cat (Cls (one 34))
      (Cat (Star (Alt (Cls (fun c => negb (one 34 c))) (text [92; 34]))) (Cls (one 34))).
Definition symbol_re :=
  Cat (Cls (fun c => alpha c || marks c)) (up_to 15 (Cls (fun c => alnum c || marks c))).
Definition comment_re := Cat (text (bs "#")) (Star (Cls (fun c => negb (one 10 c)))).

(** lexer.rl:169-171: the three prefixes. *)
Inductive prefix := Quote | Backtick | Tilde.
Definition prefix_byte (p : prefix) : byte :=
  match p with Quote => 39 | Backtick => 96 | Tilde => 126 end.

(** What a pattern stands for (the tokens of lexer.rl:182-218). *)
Inductive kind :=
| KOpen | KClose | KDot | KNumber | KChar | KString | KNil | KTrue | KWild | KSymbol
| KPOpen (p : prefix) | KPSymbol (p : prefix) | KPNumber (p : prefix)
| KComment | KSpace.

(** lexer.rl:166-177: a pattern behind one of the three prefixes. *)
Definition prefixed (p : prefix) (r : re) : re := Cat (Cls (one (prefix_byte p))) r.

(** lexer.rl:182-218, in order.  Simplification: for a prefixed symbol of 16
    characters that goes on as a prefixed negative number, Ragel runs the leaving
    action of the symbol pattern on the way; that is not represented (such a text
    is a quoted negative number of more than 15 digits). *)
Definition rules : list (re * kind) :=
  [ (popen_re, KOpen); (pclose_re, KClose); (dot_re, KDot); (number_re, KNumber);
    (char_re, KChar); (string_re, KString); (text (bs "NIL"), KNil); (text (bs "T"), KTrue);
    (text (bs "_"), KWild); (symbol_re, KSymbol);
    (prefixed Quote popen_re, KPOpen Quote); (prefixed Backtick popen_re, KPOpen Backtick);
    (prefixed Tilde popen_re, KPOpen Tilde);
    (prefixed Quote symbol_re, KPSymbol Quote); (prefixed Backtick symbol_re, KPSymbol Backtick);
    (prefixed Tilde symbol_re, KPSymbol Tilde);
    (prefixed Quote number_re, KPNumber Quote); (prefixed Backtick number_re, KPNumber Backtick);
    (prefixed Tilde number_re, KPNumber Tilde);
    (comment_re, KComment); (Cls space, KSpace) ].

(** ** Scanning one token *)

(** The first pattern that accepts here, and one step of all patterns (the automaton
    generated from lexer.rl:182-218). *)
Definition accepts (rs : list (re * kind)) : option kind :=
  option_map snd (find (fun r => nullable (fst r)) rs).
Definition advance (c : byte) (rs : list (re * kind)) : list (re * kind) :=
  filter (fun r => negb (is_empty (fst r))) (map (fun r => (deriv c (fst r), snd r)) rs).

(** What the scanner does at the start of a token.  [Taken k n]: a token of [n]
    bytes.  [Wait]: the input ends inside a string and nothing was accepted: the
    bytes are kept for the next call (lexer.rl:254-260).  [Purge]: no pattern can
    match; an error action runs and the rest of the input is thrown away
    (lexer.rl:34-44, 179).  The error action of the prefixed patterns covers their
    start state, which is the start state of the scanner, and error actions also run
    when the input ends in a state that is not final.  Assumption: when the input
    ends right after a complete token, that token is taken. *)
Inductive verdict := Taken (k : kind) (n : nat) | Wait | Purge.

(** The longest token accepted so far (ts and te of the Ragel scanner, lexer.rl:244-262). *)
Definition best_of (best : option (kind * nat)) (none : verdict) : verdict :=
  match best with Some (k, n) => Taken k n | None => none end.
(** Whether the scanner is inside a string literal (lexer.rl:254-260). *)
Definition in_string (rs : list (re * kind)) : bool :=
  existsb (fun r => match snd r with KString => true | _ => false end) rs.

(** lexer.rl:182-218: longest match, the first pattern listed wins. *)
Fixpoint scan (rs : list (re * kind)) (s : bytes) (n : nat) (best : option (kind * nat)) : verdict :=
  let best := match accepts rs with Some k => Some (k, n) | None => best end in
  match s with
  | [] => best_of best (if in_string rs then Wait else Purge)
  | c :: s' =>
      match advance c rs with
      | [] => best_of best Purge
      | rs' => scan rs' s' (S n) best
      end
  end.
Definition scan_token (s : bytes) : verdict := scan rules s 0 None.

(** Splitting a whole input (lexer.rl:242-263): the tokens with their texts, and what stopped it.
    Each token has at least one byte, so [length s] turns are enough. *)
Inductive ending := Done | Waits (s : bytes) | Purged (s : bytes) | Unfinished.
Fixpoint split_tokens (fuel : nat) (s : bytes) : list (kind * bytes) * ending :=
  match s with
  | [] => ([], Done)
  | _ =>
      match fuel with
      | O => ([], Unfinished)
      | S f =>
          match scan_token s with
          | Taken k n =>
              let (l, e) := split_tokens f (skipn n s) in ((k, firstn n s) :: l, e)
          | Wait => ([], Waits s)
          | Purge => ([], Purged s)
          end
      end
  end.
Definition tokens (s : bytes) : list (kind * bytes) * ending := split_tokens (length s) s.

(** ** The value of a token *)

(** [strtoll(val, NULL, 10)] (lexer.rl:83): white space, sign, digits; clamped to
    the 64-bit range (C library). *)
Definition clamp (z : Z) : Z :=
  if (z <? - 2 ^ 63)%Z then (- 2 ^ 63)%Z else if (2 ^ 63 - 1 <? z)%Z then (2 ^ 63 - 1)%Z else z.
Fixpoint digits_value (s : bytes) (acc : Z) : Z :=
  match s with
  | c :: r => if digit c then digits_value r (10 * acc + Z.of_N (c - 48))%Z else acc
  | [] => acc
  end.
Fixpoint skip_space (s : bytes) : bytes :=
  match s with c :: r => if space c then skip_space r else s | [] => [] end.
Definition strtoll (s : bytes) : Z :=
  match skip_space s with
  | c :: r =>
      if one 45 c then clamp (- digits_value r 0)
      else if one 43 c then clamp (digits_value r 0)
      else clamp (digits_value (c :: r) 0)
  | [] => 0%Z
  end.

(** lexer.rl:18 UNPREFIX: only [']  and [`] are removed. *)
Definition unprefix (s : bytes) : bytes :=
  match s with c :: r => if one 39 c || one 96 c then r else s | [] => [] end.

(** lexer.rl:88-116 tok_char. *)
Definition char_value (s : bytes) : byte :=
  match s with
  | [_; _; c] =>
      if one (ch "e") c then 27 else if one (ch "n") c then 10
      else if one (ch "r") c then 13 else if one (ch "t") c then 9 else c
  | _ :: c :: _ => c
  | _ => 0
  end.

(** lexer.rl:118-128 tok_string: the text between the quotes, as a C string. *)
Definition string_value (s : bytes) : bytes := cstr (firstn (length s - 2) (skipn 1 s)).
