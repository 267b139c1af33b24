(** * Sexp: notation helper to write programs in examples (no C code; the reader
    of lib/grammar is modelled in [Lexer.v] and [Parser.v]). *)
From Verif Require Import Value.
Open Scope string_scope.

(** Tokens of the notation; no C code, as everything in this file. *)
Inductive tok := TL | TR | TD | TQ | TA (s : string).

Definition delim (c : ascii) : bool :=
  match c with
  | " "%char | "("%char | ")"%char | "'"%char => true
  | _ => Ascii.eqb c "010" || Ascii.eqb c "009"
  end.

Definition flush (acc : string) (l : list tok) : list tok :=
  match acc with "" => l | "." => TD :: l | _ => TA acc :: l end.

Fixpoint toks (s acc : string) : list tok :=
  match s with
  | EmptyString => flush acc []
  | String c r =>
      if delim c then
        flush acc
          (if Ascii.eqb c "(" then TL :: toks r ""
           else if Ascii.eqb c ")" then TR :: toks r ""
           else if Ascii.eqb c "'" then TQ :: toks r ""
           else toks r "")
      else toks r (acc ++ String c EmptyString)
  end.

Fixpoint digits_of (s : string) (acc : Z) : option Z :=
  match s with
  | EmptyString => Some acc
  | String c r =>
      let d := (Z.of_N (N_of_ascii c) - 48)%Z in
      if (0 <=? d)%Z && (d <=? 9)%Z then digits_of r (10 * acc + d)%Z else None
  end.
Definition atom_of (s : string) : atom :=
  if String.eqb s "NIL" then Nil
  else if String.eqb s "T" then Tru
  else if String.eqb s "_" then Wild
  else match s with
       | String "^" (String c EmptyString) => Chr (schar (N_of_ascii c))
       | String "-" (String _ _ as r) =>
           match digits_of r 0 with Some z => Num (- z) | None => Symb (sy s) end
       | _ => match digits_of s 0 with Some z => Num z | None => Symb (sy s) end
       end.

(** Stack of open lists (elements in reverse); a quote is an open list too. *)
Inductive frame := FL (l : list atom) (tl : option atom) (dot : bool) | FQ.
Definition close (l : list atom) (tl : option atom) : atom :=
  fold_left (fun d a => Cons a d) l (match tl with Some a => a | None => Nil end).
Fixpoint push (a : atom) (st : list frame) : list frame :=
  match st with
  | FQ :: r => push (Cons (Symb (sy "quote")) a) r
  | FL l tl dot :: r => if dot then FL l (Some a) dot :: r else FL (a :: l) tl dot :: r
  | [] => []
  end.
Fixpoint parse (ts : list tok) (st : list frame) : list frame :=
  match ts with
  | [] => st
  | TL :: r => parse r (FL [] None false :: st)
  | TR :: r =>
      match st with FL l tl _ :: st' => parse r (push (close l tl) st') | _ => [] end
  | TD :: r => match st with FL l tl _ :: st' => parse r (FL l tl true :: st') | _ => [] end
  | TQ :: r => parse r (FQ :: st)
  | TA s :: r => parse r (push (atom_of s) st)
  end.

(** All the expressions of a text, as a Lisp list; and the first one. *)
Definition rds (s : string) : atom :=
  match parse (toks s "") [FL [] None false] with
  | [FL l tl _] => close l tl
  | _ => Nil
  end.
Definition rd (s : string) : atom := car (rds s).
