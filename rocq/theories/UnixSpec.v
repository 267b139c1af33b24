(** * UnixSpec: what the builtins that talk to the operating system should do, stated
    on the calls made and their answers. *)
From Verif Require Import Base Value Unix.
Open Scope Z_scope.

(** The string value of a text, and texts that C strings can hold. *)
Definition string_of (t : bytes) : atom := mk_list (map (fun b => Chr (schar b)) t).
Definition c_plain (t : bytes) : Prop := Forall (fun b => (b < 256)%N) t /\ ~ In 0%N t.

(** ** The ledger of a run *)

(** Descriptors received from the system and given back to it, in order. *)
Definition opened (t : trace) : list Z :=
  flat_map (fun p => match fst p with
                     | Socket | Accept _ | Dup _ => if 0 <=? rv (snd p) then [rv (snd p)] else []
                     | MakePipe => if rv (snd p) =? 0 then [out1 (snd p); out2 (snd p)] else []
                     | _ => [] end) t.
Definition closed (t : trace) : list Z :=
  flat_map (fun p => match fst p with Close fd => [fd] | _ => [] end) t.
(** Address lists likewise. *)
Definition granted (t : trace) : list Z :=
  flat_map (fun p => match fst p with Resolve _ _ => if rv (snd p) =? 0 then [out1 (snd p)] else [] | _ => [] end) t.
Definition freed (t : trace) : list Z :=
  flat_map (fun p => match fst p with FreeAddr ai => [ai] | _ => [] end) t.
(** The descriptor a result carries. *)
Definition carried (v : atom) : list Z := match v with Num fd => [fd] | _ => [] end.

(** A call that reports an error (POSIX: getaddrinfo by any number but 0, the others
    by a negative one; closing and freeing are not looked at). *)
Definition fails (p : call * reply) : Prop :=
  match fst p with
  | Close _ | FreeAddr _ => False
  | Resolve _ _ => rv (snd p) <> 0
  | Connect _ _ => rv (snd p) <> 0
  | _ => rv (snd p) < 0
  end.
(** A call that was made and succeeded. *)
Definition done (t : trace) (c : call) (r : reply) : Prop := In (c, r) t /\ ~ fails (c, r).

(** ** Operands evaluated and closed one after the other *)

Definition descriptor (n : Z) : Prop := 0 <= n < 2 ^ 31.
Inductive closing (ev : atom -> prog atom) : list atom -> trace -> list (Z * reply) -> Prop :=
| closing_nil : closing ev [] [] []
| closing_cons : forall e es t1 n r t2 l, plays (ev e) t1 (Returns (Num n)) -> closing ev es t2 l ->
    closing ev (e :: es) (t1 ++ (Close n, r) :: t2) ((n, r) :: l).

(** ** Ready descriptors *)

(** The callback is called on each descriptor of the list that is in the set, in
    order; NIL closes and removes it, another number adds that one before it. *)
Inductive serves (ev : atom -> prog atom) (cb : atom) (set : list Z) : list Z -> trace -> list Z -> Prop :=
| serves_nil : serves ev cb set [] [] []
| serves_idle : forall n l t k, ~ In n set -> serves ev cb set l t k -> serves ev cb set (n :: l) t (n :: k)
| serves_gone : forall n l t1 r t2 k, In n set -> plays (ev (mk_list [cb; Num n])) t1 (Returns Nil) ->
    serves ev cb set l t2 k -> serves ev cb set (n :: l) (t1 ++ (Close n, r) :: t2) k
| serves_new : forall n m l t1 t2 k, In n set -> plays (ev (mk_list [cb; Num n])) t1 (Returns (Num m)) -> m <> n ->
    serves ev cb set l t2 k -> serves ev cb set (n :: l) (t1 ++ t2) (m :: n :: k)
| serves_kept : forall n v l t1 t2 k, In n set -> plays (ev (mk_list [cb; Num n])) t1 (Returns v) ->
    v <> Nil -> (forall m, v = Num m -> m = n) ->
    serves ev cb set l t2 k -> serves ev cb set (n :: l) (t1 ++ t2) (n :: k).
(** One more than the greatest number of a list, 0 for the empty list. *)
Definition above (l : list Z) (n : Z) : Prop :=
  (l = [] /\ n = 0) \/ (In (n - 1) l /\ forall x, In x l -> x < n).

(** ** Lines *)

Definition line (l : bytes) : Prop := ~ In 10%N l.
(** A text in which every line ends. *)
Definition text_of (ls : list bytes) : bytes := concat (map (fun l => l ++ [10%N]) ls).
