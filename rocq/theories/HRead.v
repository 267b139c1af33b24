(** * HRead: the reader on the heap (lib/grammar/parser.y, lib/grammar/lexer.rl,
    lib/core/read.c).

    Definitions only; proofs are in [HReadProofs.v] and [HReadSim.v].  The functions of
    [Parser.v], with the cells the actions of parser.y make, join and drop.  Besides the
    simplifications of [Parser.v]: the consumer of lib/core/read.c:12-17 is not called
    at once, the expressions read are listed in [got] ([hconsumer] is apart, at the end
    of this file). *)
From Verif Require Import Value Heap HEval Lexer Parser.
Open Scope heap_scope.

(** The parser stack (lib/grammar/parser.y:28-123), as [Parser.entry], with addresses. *)
Inductive slot :=
| HOpen | HDot | HTilde | HQuote | HBack | HItems (a : N) | HPrefix (a : N).

(** The references on the stack.  parser.y has no %destructor: when the stack is
    emptied after an error, or by ParseFree (lexer.rl:239), they are not dropped. *)
Definition slot_refs (s : slot) : list N := match s with HItems a | HPrefix a => [a] | _ => [] end.
Definition stack_refs (st : list slot) : list N := flat_map slot_refs st.

Section Reader.
Variable allowed : event -> bool.
Variable opened : N -> bool -> atom -> bool.
Variable pwd : atom.
(** The budget of read-time evaluation and of loops over lists. *)
Variable n : nat.

(** lib/core/lisp.c:76-83, the loop of lisp_make_string: from the last character. *)
Fixpoint hchars (l : list Z) : HM N :=
  match l with
  | [] => make_nil
  | z :: r => res <- hchars r ;; c <- alloc (Heap.KChar z) ;; hcons c res
  end.

(** lib/core/utils.c:306-351 lisp_process_escapes. *)
Fixpoint hescapes (k : nat) (cell : N) (esc : bool) (res : N) : HM N :=
  match k with
  | O => dry
  | S k' =>
      t <- test is_nil_c cell ;;
      if t : bool then X cell ;;; done res
      else
        car <- hcar cell ;;
        cdr <- hcdr cell ;;
        X cell ;;;
        z <- number_of car ;;
        if esc then
          car' <- (if Z.eqb z (chz "n") then X car ;;; alloc (Heap.KChar 10)
                   else if Z.eqb z (chz "t") then X car ;;; alloc (Heap.KChar 9)
                   else done car) ;;
          nxt <- happend n res car' ;;
          hescapes k' cdr false nxt
        else if Z.eqb z 92 then X car ;;; hescapes k' cdr true res
        else nxt <- happend n res car ;; hescapes k' cdr false nxt
  end.

(** lib/core/lisp.c:76-85 lisp_make_string. *)
Definition hmake_string (s : bytes) : HM N :=
  l <- hchars (map schar s) ;; z <- make_nil ;; hescapes n l false z.

(** parser.y:48-71: [Parser.prefix_done].  After a tilde the value of the expression
    itself is joined to the list. *)
Definition hprefix_done (a : N) (st : list slot) : HM (list slot) :=
  match st with
  | HOpen :: _ => z <- make_nil ;; l <- hcons a z ;; done (HItems l :: st)
  | HItems l :: r => l' <- happend n l a ;; done (HItems l' :: r)
  | HTilde :: HItems l :: r =>
      z <- make_nil ;;
      v <- heval allowed opened pwd n z a ;;
      l' <- hconc n l v ;;
      X z ;;;
      done (HItems l' :: r)
  | _ => done (HPrefix a :: st)
  end.

(** parser.y:73-88: [Parser.item_done]. *)
Definition hitem_done (a : N) (st : list slot) : HM (list slot) :=
  match st with
  | HQuote :: r => q <- alloc (KSym (sy "quote")) ;; c <- hcons q a ;; hprefix_done c r
  | HBack :: r =>
      z <- make_nil ;;
      v <- heval allowed opened pwd n z a ;;
      X z ;;;
      hprefix_done v r
  | _ => hprefix_done a st
  end.

(** Where an [item] may start, and where a [prefix] may start (parser.y:28-80). *)
Definition hitem_here (st : list slot) : bool :=
  match st with HPrefix _ :: _ => false | _ => true end.
Definition hprefix_here (st : list slot) : bool :=
  match st with HPrefix _ :: _ | HQuote :: _ | HBack :: _ => false | _ => true end.

(** parser.y:90-123: the cells of a terminal that is an [item]. *)
Definition hitem_of (t : terminal) : option (HM N) :=
  match t with
  | NUMBER z => Some (alloc (KNum z))
  | CHAR c => Some (alloc (Heap.KChar (schar c)))
  | STRING s => Some (hmake_string s)
  | SYMBOL s => Some (alloc (KSym s))
  | C_NIL => Some make_nil
  | C_TRUE => Some (alloc Heap.KTrue)
  | C_WILDCARD => Some (alloc Heap.KWild)
  | _ => None
  end.

(** [Parse(parser, t, ...)] for parser.y:28-123: [Parser.feed].  A terminal that is thrown away makes no
    cell. *)
Definition hfeed (t : terminal) (st : list slot) : HM (list slot) :=
  match hitem_of t with
  | Some m => if hitem_here st then a <- m ;; hitem_done a st else done st
  | None =>
      match t with
      | POPEN => done (if hitem_here st then HOpen :: st else st)
      | CQUOTE => done (if hprefix_here st then HQuote :: st else st)
      | BACKTICK => done (if hprefix_here st then HBack :: st else st)
      | DOT => done (match st with HItems _ :: _ => HDot :: st | _ => st end)
      | TILDE => done (match st with HItems _ :: _ => HTilde :: st | _ => st end)
      | _ =>
          match st with
          | HOpen :: r => z <- make_nil ;; hitem_done z r
          | HItems l :: HOpen :: r => hitem_done l r
          | HPrefix c :: HDot :: HItems l :: HOpen :: r => l' <- hconc n l c ;; hitem_done l' r
          | _ => done st
          end
      end
  end.

(** The lexer (lexer.rl:224-235), as [Parser.lstate].  [got]: the expressions given to the consumer;
    [spilt]: the references nothing will drop. *)
Record hlexer := mkh { hdepth : nat; hstack : list slot; got : list N; spilt : list N }.

(** lexer.rl:22-28 lisp_consume_token, parser.y:26-31. *)
Definition hconsume (l : hlexer) : hlexer :=
  match hdepth l with
  | O =>
      match hstack l with
      | [HPrefix a] => mkh O [] (got l ++ [a]) (spilt l)
      | st => mkh O [] (got l) (spilt l ++ stack_refs st)
      end
  | _ => l
  end.
Definition hpush_tok (t : terminal) (l : hlexer) : HM hlexer :=
  st <- hfeed t (hstack l) ;; done (mkh (hdepth l) st (got l) (spilt l)).
Definition hvalue_tok (t : terminal) (l : hlexer) : HM hlexer :=
  l' <- hpush_tok t l ;; done (hconsume l').
Definition hopen_tok (l : hlexer) : HM hlexer :=
  l' <- hpush_tok POPEN l ;; done (mkh (S (hdepth l')) (hstack l') (got l') (spilt l')).

(** The token actions, lexer.rl:46-164: [Parser.act]. *)
Definition hact (k : kind) (s : bytes) (l : hlexer) : HM (option hlexer) :=
  let sym s := SYMBOL (mk_symbol_n s (length s)) in
  let some m := l' <- m ;; done (Some l') in
  let after p (f : hlexer -> HM hlexer) := l' <- hpush_tok (prefix_terminal p) l ;; some (f l') in
  match k with
  | KOpen => some (hopen_tok l)
  | KClose =>
      match hdepth l with
      | O => done None
      | S d => l' <- hpush_tok PCLOSE l ;; done (Some (hconsume (mkh d (hstack l') (got l') (spilt l'))))
      end
  | KDot => some (hpush_tok DOT l)
  | KNumber => some (hvalue_tok (NUMBER (strtoll (unprefix s))) l)
  | Lexer.KChar => some (hvalue_tok (CHAR (char_value s)) l)
  | KString => some (hvalue_tok (STRING (string_value s)) l)
  | Lexer.KNil => some (hvalue_tok C_NIL l)
  | Lexer.KTrue => some (hvalue_tok C_TRUE l)
  | Lexer.KWild => some (hvalue_tok C_WILDCARD l)
  | KSymbol => some (hvalue_tok (sym (unprefix s)) l)
  | KPOpen p => after p hopen_tok
  | KPSymbol p => after p (hvalue_tok (sym (unprefix s)))
  | KPNumber p => after p (hvalue_tok (NUMBER (strtoll (unprefix s))))
  | KComment | KSpace => done (Some l)
  end.

(** lexer.rl:242-263 lexer_parse: [Parser.lex]. *)
Fixpoint hlex (fuel : nat) (s : bytes) (l : hlexer) : HM (hlexer * left) :=
  match s with
  | [] => done (l, LDone)
  | _ =>
      match fuel with
      | O => dry
      | S f =>
          match scan_token s with
          | Taken k j =>
              o <- hact k (firstn j s) l ;;
              match o with
              | Some l' => hlex f (skipn j s) l'
              | None => done (l, LPurged)
              end
          | Wait => done (l, LWait s)
          | Purge => done (l, LPurged)
          end
      end
  end.
Definition hlexer_parse (s : bytes) (l : hlexer) : HM (hlexer * left) := hlex (length s) s l.

(** ** The channel (lib/core/read.c) *)

(** read.c:12-17 lisp_consumer: the channel is (HANDLE PWD V1 V2 ...). *)
Definition hconsumer (cell : N) : HM unit :=
  r <- get_aux ;;
  chn <- CAR (ichan r) ;;
  d <- CDR chn ;;
  l <- happend n d cell ;;
  set_cdr chn l.

(** read.c:19-35 lisp_read_pop. *)
Definition hread_pop : HM N :=
  r <- get_aux ;;
  chn <- CAR (ichan r) ;;
  x <- CDR chn ;;
  vls <- CDR x ;;
  v <- CAR vls ;;
  res <- up v ;;
  d <- CDR vls ;;
  d' <- up d ;;
  set_cdr x d' ;;;
  X vls ;;;
  done res.

(** The consumer is called for each expression of a text, in order
    (lexer.rl:22-28, parser.y:26-31); later calls of lisp_read take them out again
    (read.c:51-53, 74). *)
Fixpoint hdeliver (l : list N) : HM unit :=
  match l with [] => done tt | a :: r => hconsumer a ;;; hdeliver r end.
Fixpoint hpops (k : nat) : HM (list N) :=
  match k with O => done [] | S k' => a <- hread_pop ;; r <- hpops k' ;; done (a :: r) end.

End Reader.
