(** * Print: lib/core/print.c with its 1024-byte staging buffer.

    Definitions only; proofs are in [PrintProofs.v]. *)
From Verif Require Import Value.
Open Scope N_scope.

(** lib/core/print.c:5. *)
Definition IO_BUFFER_LEN : N := 1024.

(** The stream contents written so far and the staging buffer
    ([char buffer[IO_BUFFER_LEN]], print.c:134) as a function of the offset. *)
Record pstate := mkp { out : bytes; buf : N -> byte }.

(** print.c:25 [memcpy(&buf[p], data, len)]; [None] when a byte would land outside. *)
Fixpoint memcpy (m : N -> byte) (p : N) (data : bytes) : option (N -> byte) :=
  match data with
  | [] => Some m
  | b :: r =>
      if p <? IO_BUFFER_LEN
      then memcpy (fun j => if N.eqb j p then b else m j) (p + 1) r
      else None
  end.

(** First [k] bytes from offset [p] (no C code of its own). *)
Fixpoint slice (m : N -> byte) (p : N) (k : nat) : bytes :=
  match k with O => [] | S k' => m p :: slice m (p + 1) k' end.

(** print.c:19, 32 [fwrite(buf, 1, n, handle)]: reads [n] bytes of the buffer; [None] when it
    reads outside.  The stream accepts every byte (short writes not modelled). *)
Definition fwrite (st : pstate) (n : N) : option pstate :=
  if IO_BUFFER_LEN <? n then None
  else Some (mkp (out st ++ slice (buf st) 0 (N.to_nat n)) (buf st)).

(** lib/core/print.c:10-27 lisp_write. *)
Definition lisp_write (st : pstate) (idx : N) (data : bytes) : option (pstate * N) :=
  let len := N.of_nat (length data) in
  let flushed :=
    if IO_BUFFER_LEN <=? idx + len
    then match fwrite st idx with Some st' => Some (st', 0) | None => None end
    else Some (st, idx) in
  match flushed with
  | None => None
  | Some (st1, pidx) =>
      match memcpy (buf st1) pidx data with
      | Some m => Some (mkp (out st1) m, pidx + len)
      | None => None
      end
  end.

(** [sprintf(buffer, "%ld", n)] (print.c:113): C library decimal rendering. *)
Fixpoint digits (fuel : nat) (n : N) (acc : bytes) : bytes :=
  match fuel with
  | O => acc
  | S f =>
      let acc' := (48 + n mod 10) :: acc in
      if n / 10 =? 0 then acc' else digits f (n / 10) acc'
  end.
Definition dec_N (n : N) : bytes := digits (S (N.size_nat n)) n [].
Definition dec (z : Z) : bytes :=
  match z with
  | Zneg p => 45 :: dec_N (Npos p)
  | _ => dec_N (Z.to_N z)
  end.

(** print.c:76-97: the bytes after [^] for a character in literal mode. *)
Definition char_literal (c : byte) : bytes :=
  if c =? 27 then bs "\e"
  else if c =? 10 then bs "\n"
  else if c =? 13 then bs "\r"
  else if c =? 9 then bs "\t"
  else [c].

(** Sequencing of two printing steps (the [nxt = ...] chains). *)
Definition pthen (r : option (pstate * N)) (k : pstate -> N -> option (pstate * N)) :=
  match r with Some (st, i) => k st i | None => None end.

(** lib/core/print.c:36-128, lisp_prin_pair ([inpair = true]) and lisp_prin_atom
    ([inpair = false]) as one recursion on the cell.  Returns the state and the
    next buffer index.  [sprintf] writes at most 24 bytes in [buffer] (113): the
    bound is a theorem. *)
Fixpoint prin_cell (inpair s : bool) (cell : atom) (st : pstate) (idx : N)
  : option (pstate * N) :=
  match cell with
  | Nil => if s then lisp_write st idx (bs "NIL") else Some (st, 0)
  | Tru => lisp_write st idx (bs "T")
  | Chr c =>
      let b := byte_of_char c in
      if s then
        pthen (lisp_write st idx (bs "^")) (fun st i =>
        lisp_write st i (char_literal b))
      else lisp_write st idx [b]
  | Num z => lisp_write st idx (dec z)
  | Sym _ x => lisp_write st idx (sym_text x)
  | Wild => lisp_write st idx (bs "_")
  | Pair _ a d =>
      let body st idx :=
        pthen (prin_cell false s a st idx) (fun st nxt =>
        match d with
        | Nil => Some (st, nxt)
        | Pair _ _ _ =>
            pthen (if s then lisp_write st nxt (bs " ") else Some (st, nxt))
                  (fun st nxt => prin_cell true s d st nxt)
        | _ =>
            pthen (if s then lisp_write st nxt (bs " . ") else Some (st, nxt))
                  (fun st nxt => prin_cell false s d st nxt)
        end) in
      if inpair then body st idx
      else
        pthen (if s then lisp_write st idx (bs "(") else Some (st, idx))
              (fun st i => pthen (body st i)
              (fun st i => if s then lisp_write st i (bs ")") else Some (st, i)))
  end.

(** lib/core/print.c:130-137 lisp_prin (one atom on a stream, then flush).  [m] is
    the initial contents of the stack buffer; [written] what the stream holds. *)
Definition lisp_prin (written : bytes) (m : N -> byte) (cell : atom) (s : bool)
  : option bytes :=
  match prin_cell false s cell (mkp written m) 0 with
  | Some (st, idx) =>
      match fwrite st idx with Some st' => Some (out st') | None => None end
  | None => None
  end.
