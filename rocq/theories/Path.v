(** * Path: file names (lisp_get_fullpath, dirname, search paths). *)
From Verif Require Import Base.
Open Scope nat_scope.

(** limits.h PATH_MAX, the size of every path buffer (lib/mnml/io/in.c:18-20, load.c:41). *)
Definition PATH_MAX : nat := N.to_nat 4096.

(** What goes wrong in memory (no C code of its own): a store past the end of a buffer, a store before its
    start, a null pointer given to [strcpy]. *)
Inductive fault := Past | Before | Null.

(** [strcpy]/[strcat] into a buffer of [PATH_MAX] bytes: the resulting text, [None] if
    it does not fit with its terminator.  (Texts have no NUL byte.) *)
Definition fits (s : bytes) : option bytes := if Nat.ltb (length s) PATH_MAX then Some s else None.

(** [strncmp(s, p, strlen(p)) == 0]. *)
Fixpoint starts (p s : bytes) : bool :=
  match p, s with
  | [], _ => true
  | x :: p', y :: s' => N.eqb x y && starts p' s'
  | _, [] => false
  end.

(** The parts before and after the last '/' (the [strstr] loop of utils.c:623-626);
    [None]: there is none. *)
Fixpoint split_last (s : bytes) : option (bytes * bytes) :=
  match s with
  | [] => None
  | c :: r =>
      match split_last r with
      | Some (d, f) => Some (c :: d, f)
      | None => if N.eqb c 47 then Some ([], r) else None
      end
  end.

(** POSIX [dirname] of a path made by realpath: absolute, no '/' at the end. *)
Definition dirname (p : bytes) : bytes :=
  match split_last p with
  | Some ([], _) => [47%N]
  | Some (d, _) => d
  | None => [46%N]
  end.

(** The environment of the process: MNML_SCRIPT_PATH, HOME, PWD, the installation
    prefix (utils.c:54-80), and the file system as realpath sees it. *)
Record host := mkhost {
  script : option bytes;
  home : option bytes;
  pwd : option bytes;
  install : bytes;
  real : bytes -> option bytes
}.

(** Outcome of lisp_get_fullpath: the path, NULL, or a fault. *)
Inductive full := Full (p : bytes) | NoFull | Bad (f : fault).

Section Host.
Variable H : host.

(** utils.c:589-604. *)
Definition expand (name : bytes) : option bytes :=
  if starts (bs "@lib") name then
    fits (match script H with Some s => s | None => install H ++ bs "/share/mnml" end ++ skipn 4 name)
  else
    match name, home H with
    | 126%N :: r, Some h => fits (h ++ r)
    | _, _ => fits name
    end.

(** utils.c:580-640 lisp_get_fullpath; [inside]: there is an input channel. *)
Definition get_fullpath (inside : bool) (cwd name : bytes) : full :=
  match expand name with
  | None => Bad Past
  | Some e =>
      match fits (if negb (starts [47%N] e) && inside then cwd ++ 47%N :: e else e) with
      | None => Bad Past
      | Some t =>
          match real H t with
          | Some p => Full p
          | None =>
              match split_last t with
              | None => Bad Before
              | Some (d, f) =>
                  match real H d with
                  | None => NoFull
                  | Some p => match fits (p ++ 47%N :: f) with Some q => Full q | None => Bad Past end
                  end
              end
          end
      end
  end.

End Host.

(** include/mnml/utils.h:155-170 FOR_EACH_TOKEN with ":": the non-empty parts. *)
Fixpoint parts (acc : bytes) (s : bytes) : list bytes :=
  match s with
  | [] => match acc with [] => [] | _ => [rev acc] end
  | c :: r =>
      if N.eqb c 58 then match acc with [] => parts [] r | _ => rev acc :: parts [] r end
      else parts (c :: acc) r
  end.
Definition tokens (s : bytes) : list bytes := parts [] s.
