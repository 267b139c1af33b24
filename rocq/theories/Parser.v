(** * Parser: lib/grammar/parser.y driven by lib/grammar/lexer.rl, and the reading
    loop of lib/core/read.c.

    Definitions only; proofs are in [ParserProofs.v].

    parser.y is the input of the Lemon generator.  The grammar is LR(0), so the
    model reduces as soon as a right-hand side is on the stack; Lemon may wait for
    the next token, which changes the moment of a reduction but not the order of
    the reductions.  A token that cannot be shifted is reported and thrown away
    (Lemon's behaviour for a grammar without an error symbol). *)
From Verif Require Import Value Lexer.
Open Scope N_scope.

(** The terminals (parser.y:33-123). *)
Inductive terminal :=
| POPEN | PCLOSE | DOT | CQUOTE | BACKTICK | TILDE
| NUMBER (z : Z) | CHAR (c : byte) | STRING (s : bytes) | SYMBOL (s : symbol)
| C_NIL | C_TRUE | C_WILDCARD.

(** lib/core/lisp.c:137-159 lisp_conc and lib/core/utils.c:106-111 lisp_append, on
    lists the parser owns alone. *)
Fixpoint conc (a b : atom) : atom :=
  match a with
  | Pair t x d => match d with Pair _ _ _ => Pair t x (conc d b) | _ => Pair t x b end
  | _ => b
  end.
Definition append (l x : atom) : atom := conc l (Cons x Nil).

(** The parser stack (lib/grammar/parser.y:28-123), top first: terminals waiting for the rest of a rule and the
    nonterminals [items] and [prefix] with their value. *)
Inductive entry :=
| SOpen | SDot | STilde | SQuote | SBack | SItems (a : atom) | SPrefix (a : atom).

Section Read.

(** Read-time evaluation (parser.y:66-71, 83-88: lisp_eval with an empty scope), on
    a state [W].  [None]: it does not return. *)
Variable W : Type.
Variable ev : atom -> W -> option (atom * W).

(** Rules [items ::= ...] and [list ::= POPEN items DOT prefix . PCLOSE]
    (parser.y:48-71), when a [prefix] with value [a] is complete. *)
Definition prefix_done (a : atom) (st : list entry) (w : W) : option (list entry * W) :=
  match st with
  | SOpen :: _ => Some (SItems (Cons a Nil) :: st, w)
  | SItems l :: r => Some (SItems (append l a) :: r, w)
  | STilde :: SItems l :: r =>
      match ev a w with Some (v, w') => Some (SItems (conc l v) :: r, w') | None => None end
  | _ => Some (SPrefix a :: st, w)
  end.

(** Rules [prefix ::= ...] (parser.y:73-88), when an [item] is complete. *)
Definition item_done (a : atom) (st : list entry) (w : W) : option (list entry * W) :=
  match st with
  | SQuote :: r => prefix_done (Cons (Symb (sy "quote")) a) r w
  | SBack :: r =>
      match ev a w with Some (v, w') => prefix_done v r w' | None => None end
  | _ => prefix_done a st w
  end.

(** Where an [item] may start, and where a [prefix] may start (parser.y:28-80). *)
Definition item_here (st : list entry) : bool :=
  match st with SPrefix _ :: _ => false | _ => true end.
Definition prefix_here (st : list entry) : bool :=
  match st with SPrefix _ :: _ | SQuote :: _ | SBack :: _ => false | _ => true end.

(** The value of a terminal that is an [item] (parser.y:90-123). *)
Definition item_of (t : terminal) : option atom :=
  match t with
  | NUMBER z => Some (Num z)
  | CHAR c => Some (Chr (schar c))
  | STRING s => Some (make_string s)
  | SYMBOL s => Some (Symb s)
  | C_NIL => Some Nil
  | C_TRUE => Some Tru
  | C_WILDCARD => Some Wild
  | _ => None
  end.

(** [Parse(parser, t, ...)] for parser.y:28-123: shift and reduce, or throw the token
    away. *)
Definition feed (t : terminal) (st : list entry) (w : W) : option (list entry * W) :=
  match item_of t with
  | Some a => if item_here st then item_done a st w else Some (st, w)
  | None =>
      match t with
      | POPEN => Some (if item_here st then SOpen :: st else st, w)
      | CQUOTE => Some (if prefix_here st then SQuote :: st else st, w)
      | BACKTICK => Some (if prefix_here st then SBack :: st else st, w)
      | DOT => Some (match st with SItems _ :: _ => SDot :: st | _ => st end, w)
      | TILDE => Some (match st with SItems _ :: _ => STilde :: st | _ => st end, w)
      | _ =>
          match st with
          | SOpen :: r => item_done Nil r w
          | SItems l :: SOpen :: r => item_done l r w
          | SPrefix c :: SDot :: SItems l :: SOpen :: r => item_done (conc l c) r w
          | _ => Some (st, w)
          end
      end
  end.

(** [Parse(parser, 0, ...)], rule [root ::= prefix] (parser.y:26-31): the value goes
    to the consumer.  Otherwise the parse fails and the stack is emptied. *)
Definition feed_end (st : list entry) : option atom :=
  match st with [SPrefix a] => Some a | _ => None end.

(** The lexer (lexer.rl:224-235): nesting depth, parser stack, values given to the consumer (latest
    last). *)
Record lstate := mkl { depth : nat; stack : list entry; got : list atom; env_w : W }.

(** lexer.rl:22-28 lisp_consume_token. *)
Definition consume (l : lstate) : lstate :=
  match depth l with
  | O => mkl O [] (got l ++ match feed_end (stack l) with Some a => [a] | None => [] end) (env_w l)
  | _ => l
  end.
Definition push_tok (t : terminal) (l : lstate) : option lstate :=
  match feed t (stack l) (env_w l) with
  | Some (st, w) => Some (mkl (depth l) st (got l) w)
  | None => None
  end.
Definition value_tok (t : terminal) (l : lstate) : option lstate :=
  option_map consume (push_tok t l).
Definition open_tok (l : lstate) : option lstate :=
  option_map (fun l => mkl (S (depth l)) (stack l) (got l) (env_w l)) (push_tok POPEN l).

(** The terminal of a prefix (lexer.rl:66-79 tok_quote, tok_backt, tok_tilde). *)
Definition prefix_terminal (p : prefix) : terminal :=
  match p with Quote => CQUOTE | Backtick => BACKTICK | Tilde => TILDE end.

(** The token actions, lexer.rl:46-164.  [None]: read-time evaluation did not
    return.  [Some None]: a closing parenthesis at depth 0, an error (lexer.rl:54-57). *)
Definition act (k : kind) (s : bytes) (l : lstate) : option (option lstate) :=
  let sym s := SYMBOL (mk_symbol_n s (length s)) in
  let after p f :=
    match push_tok (prefix_terminal p) l with Some l' => option_map Some (f l') | None => None end in
  match k with
  | KOpen => option_map Some (open_tok l)
  | KClose =>
      match depth l with
      | O => Some None
      | S d =>
          match push_tok PCLOSE l with
          | Some l' => Some (Some (consume (mkl d (stack l') (got l') (env_w l'))))
          | None => None
          end
      end
  | KDot => option_map Some (push_tok DOT l)
  | KNumber => option_map Some (value_tok (NUMBER (strtoll (unprefix s))) l)
  | KChar => option_map Some (value_tok (CHAR (char_value s)) l)
  | KString => option_map Some (value_tok (STRING (string_value s)) l)
  | KNil => option_map Some (value_tok C_NIL l)
  | KTrue => option_map Some (value_tok C_TRUE l)
  | KWild => option_map Some (value_tok C_WILDCARD l)
  | KSymbol => option_map Some (value_tok (sym (unprefix s)) l)
  | KPOpen p => after p open_tok
  | KPSymbol p => after p (value_tok (sym (unprefix s)))
  | KPNumber p => after p (value_tok (NUMBER (strtoll (unprefix s))))
  | KComment | KSpace => Some (Some l)
  end.

(** How a call to lexer_parse (lexer.rl:242-263) leaves the scanner: everything consumed, some bytes
    kept because a string is not finished, or an error (rest of the input thrown
    away). *)
Inductive left := LDone | LWait (s : bytes) | LPurged.

(** lexer.rl:242-263 lexer_parse, on the kept bytes followed by the new ones. *)
Fixpoint lex (fuel : nat) (s : bytes) (l : lstate) : option (lstate * left) :=
  match s with
  | [] => Some (l, LDone)
  | _ =>
      match fuel with
      | O => None
      | S f =>
          match scan_token s with
          | Taken k n =>
              match act k (firstn n s) l with
              | Some (Some l') => lex f (skipn n s) l'
              | Some None => Some (l, LPurged)
              | None => None
              end
          | Wait => Some (l, LWait s)
          | Purge => Some (l, LPurged)
          end
      end
  end.
Definition lexer_parse (s : bytes) (l : lstate) : option (lstate * left) := lex (length s) s l.

(** ** lib/core/read.c *)

(** [fgets(p, n, handle)] (C library): at most [n - 1] bytes, up to and including a
    newline; [None] is NULL (end of file and nothing read).  With [n = 1] nothing
    is read and the result is the empty string. *)
Fixpoint take_line (n : nat) (s : bytes) : bytes * bytes :=
  match n, s with
  | S n', c :: r =>
      if one 10 c then ([c], r) else let (a, b) := take_line n' r in (c :: a, b)
  | _, _ => ([], s)
  end.
Definition fgets (n : nat) (s : bytes) : option (bytes * bytes) :=
  match n, s with
  | S O, _ => Some ([], s)
  | _, [] => None
  | _, _ => Some (take_line (n - 1) s)
  end.

(** read.c:10 RBUFLEN. *)
Definition RBUFLEN : nat := 1024.

(** Outcome of lisp_read: a value and the values left in the channel, the rest of
    the stream; end of file (NULL); an input error (not modelled further); read-time
    evaluation that does not return; turns exhausted. *)
Inductive read_result :=
| Value (a : atom) (more : list atom) (rest : bytes) (w : W)
| Eof (w : W) | Trouble | Diverges | Again.

(** read.c:58-75, the loop; [kept]: the bytes held for the next turn. *)
Fixpoint read_loop (fuel : nat) (kept : bytes) (stream : bytes) (l : lstate) : read_result :=
  match fuel with
  | O => Again
  | S f =>
      let finish stream l :=
        match got l with [] => Eof (env_w l) | a :: r => Value a r stream (env_w l) end in
      match fgets (RBUFLEN - length kept) stream with
      | None => finish stream l
      | Some (line, stream') =>
          match lexer_parse (kept ++ cstr line) l with
          | None => Diverges
          | Some (l', e) =>
              match e with
              | LDone =>
                  match got l', depth l' with
                  | _ :: _, O => finish stream' l'
                  | _, _ => read_loop f [] stream' l'
                  end
              | LWait k => read_loop f k stream' l'
              | LPurged => Trouble
              end
          end
      end
  end.

(** read.c:38-76 lisp_read: a value left over from before, else the loop. *)
Definition lisp_read (fuel : nat) (vals : list atom) (stream : bytes) (w : W) : read_result :=
  match vals with
  | a :: r => Value a r stream w
  | [] => read_loop fuel [] stream (mkl O [] [] w)
  end.

End Read.
