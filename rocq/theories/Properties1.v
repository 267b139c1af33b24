(** * Property theorems, part 1: allocator, values, strings, printing.

    Every theorem is closed by a lemma of the corresponding proof file.  The
    examples show that the hypotheses are met by concrete, non-trivial cases. *)
From Verif Require Import Value ValueSpec ValueProofs Slab SlabProofs
  Print PrintSpec PrintProofs CString Closure CStringProofs.
From Coq Require Import Permutation.
Open Scope N_scope.

(** ** C01 *)
Theorem C01_alloc_fresh : forall h s held ok s' i,
  run h = Running s held ->
  slab_allocate ok s = Some (s', i) ->
  ~ In i held /\
  i * 32 + 32 <= n_pages s' * 4096 /\ n_pages s' * 4096 <= 64 * 1024 * 1024 /\
  entries s' i = zero_cell /\
  (forall j, In j held -> entries s' j = entries s j).
Proof. exact alloc_fresh. Qed.
Print Assumptions C01_alloc_fresh.

Definition c01_history : list op :=
  [OAlloc true; OAlloc true; OWrite 0 (mkcell 7 5 9); OAlloc true; OFree 0;
   OWrite 1 (mkcell 1 3 99)].
Example C01_example :
  match run c01_history with
  | Running s held =>
      held = [2; 1] /\ option_map snd (slab_allocate true s) = Some 0
      /\ c_data (entries s 1) = 99
  | _ => False
  end.
Proof. vm_compute. auto. Qed.

(** ** C02 *)
Theorem C02_accounting : forall h s held,
  run h = Running s held ->
  n_alloc s = n_free s + N.of_nat (length held) /\
  exists free cells,
    cells * 32 = n_pages s * 4096 /\
    chain (entries s) (first s) free /\
    NoDup (held ++ free) /\
    (forall i, In i (held ++ free) <-> i < cells).
Proof. exact accounting. Qed.
Print Assumptions C02_accounting.

Theorem C02_growth : forall h s held ok s' i,
  run h = Running s held -> slab_allocate ok s = Some (s', i) ->
  n_pages s' = n_pages s \/
  (n_pages s' = 2 * n_pages s /\ N.of_nat (length held) * 32 = n_pages s * 4096).
Proof. exact growth. Qed.
Print Assumptions C02_growth.

Theorem C02_abort_exact : forall h s held,
  run h = Running s held ->
  (slab_allocate true s = None <-> N.of_nat (length held) = 2097152).
Proof. exact abort_exact_run. Qed.
Print Assumptions C02_abort_exact.

Example C02_example :
  match run (repeat (OAlloc true) 2049) with
  | Running s held => n_pages s = 32 /\ length held = 2049%nat
  | _ => False
  end.
Proof. vm_compute. auto. Qed.
Example C02_example_refused :
  match run (repeat (OAlloc true) 2048 ++ [OAlloc false]) with
  | Aborted s held => n_pages s = 16 /\ length held = 2048%nat
  | _ => False
  end.
Proof. vm_compute. auto. Qed.

(** ** C07 *)
Theorem C07_equ_structural : forall a b, equ a b = true <-> same a b.
Proof. exact equ_same. Qed.
Print Assumptions C07_equ_structural.
Theorem C07_equ_equivalence :
  (forall a, equ a a = true) /\
  (forall a b, equ a b = true -> equ b a = true) /\
  (forall a b c, equ a b = true -> equ b c = true -> equ a c = true).
Proof. exact equ_equivalence. Qed.
Print Assumptions C07_equ_equivalence.
Theorem C07_equ_types : forall z, equ (Num z) (Chr z) = false.
Proof. exact equ_num_chr. Qed.
Print Assumptions C07_equ_types.
Example C07_example :
  equ (mk_list [Num 1; mk_chars [65%Z]; Sym true (sy "x")])
      (mk_list [Num 1; mk_chars [65%Z]; Sym false (sy "x")]) = true /\
  equ (mk_list [Num 1; Num 2]) (mk_list [Num 1]) = false.
Proof. vm_compute. auto. Qed.

(** ** C08 *)
Theorem C08_neq_negation : forall a b, neq a b = true <-> ~ same a b.
Proof. exact neq_same. Qed.
Print Assumptions C08_neq_negation.
Example C08_example : neq (mk_list [Num 1; Nil]) (mk_list [Num 1]) = true.
Proof. reflexivity. Qed.

(** ** C09 *)
Theorem C09_bind_part : forall pat val c k p,
  occurs pat p k -> (forall p', occurs pat p' k -> p' = p) ->
  shows (bind c pat val) k (Some (part val p)).
Proof. exact bind_part. Qed.
Print Assumptions C09_bind_part.
Theorem C09_bind_frame : forall pat val c k r,
  (forall p, ~ occurs pat p k) -> shows c k r -> shows (bind c pat val) k r.
Proof. exact bind_frame. Qed.
Print Assumptions C09_bind_frame.
(** ((a . b) c) against ((1 2 3)): b is (2 3), c is missing hence NIL. *)
Definition c09_pat := mk_list [Cons (Symb (sy "a")) (Symb (sy "b")); Symb (sy "c")].
Definition c09_val := mk_list [mk_list [Num 1; Num 2; Num 3]].
Example C09_example :
  occurs c09_pat [false; true] (sy "b") /\
  part c09_val [false; true] = mk_list [Num 2; Num 3] /\
  env_get (bind [(sy "z", Tru)] c09_pat c09_val) (sy "b") = Some (mk_list [Num 2; Num 3]) /\
  env_get (bind [(sy "z", Tru)] c09_pat c09_val) (sy "c") = Some Nil /\
  env_get (bind [(sy "z", Tru)] c09_pat c09_val) (sy "z") = Some Tru.
Proof. vm_compute. repeat split; eauto. Qed.

(** ** C10 *)
Theorem C10_merge_map : forall root alst k r,
  last_of alst k r ->
  shows (merge root alst) k (match r with Some v => Some v | None => env_get root k end).
Proof. exact merge_map. Qed.
Print Assumptions C10_merge_map.
Theorem C10_merge_sorted : forall root alst,
  increasing root -> increasing (merge root alst) /\ NoDup (map fst (merge root alst)).
Proof. exact merge_sorted. Qed.
Print Assumptions C10_merge_sorted.
(** Sorted scopes are canonical: same bindings, same list. *)
Theorem C10_sorted_canonical : forall a b, increasing a -> increasing b ->
  (forall k r, shows a k r <-> shows b k r) -> a = b.
Proof. exact sorted_canonical. Qed.
Print Assumptions C10_sorted_canonical.
Example C10_example :
  merge [(sy "b", Num 1); (sy "d", Num 2)]
        [(sy "c", Num 3); (sy "a", Num 4); (sy "b", Num 5); (sy "c", Num 6)]
  = [(sy "a", Num 4); (sy "b", Num 5); (sy "c", Num 6); (sy "d", Num 2)].
Proof. reflexivity. Qed.

(** ** C11 *)
Theorem C11_fixed : forall args vals,
  may_apply (arg_list args Nil) (mk_list vals) = true <-> (length vals <= length args)%nat.
Proof. exact may_apply_fixed_iff. Qed.
Print Assumptions C11_fixed.
Theorem C11_rest : forall args t s vals,
  may_apply (arg_list args (Sym t s)) (mk_list vals) = true.
Proof. exact may_apply_rest. Qed.
Print Assumptions C11_rest.
Example C11_example :
  may_apply (arg_list [Symb (sy "x"); Symb (sy "y")] Nil) (mk_list [Num 1; Num 2; Num 3]) = false
  /\ may_apply (arg_list [Symb (sy "x")] (Symb (sy "r"))) (mk_list [Num 1; Num 2; Num 3]) = true.
Proof. auto. Qed.

(** ** C12 *)
Theorem C12_escapes : forall s,
  unescape s (process_escapes s false []) /\
  (forall r, unescape s r -> r = process_escapes s false []).
Proof. exact escapes_exact. Qed.
Print Assumptions C12_escapes.
Theorem C12_plain : forall s, ~ In 92%Z s -> process_escapes s false [] = s.
Proof. exact process_escapes_plain. Qed.
Print Assumptions C12_plain.
Theorem C12_no_longer : forall s, (length (process_escapes s false []) <= length s)%nat.
Proof. exact escapes_length. Qed.
Print Assumptions C12_no_longer.
(** The same of a text of bytes: the string made is a list of the characters the text
    stands for. *)
Theorem C12_string : forall s, exists r, unescape (map schar s) r /\ make_string s = mk_chars r /\
  (length r <= length s)%nat /\ (~ In 92%Z (map schar s) -> r = map schar s).
Proof.
  intros s. exists (process_escapes (map schar s) false []). ands.
  - apply escapes_exact.
  - reflexivity.
  - rewrite <- (map_length schar s). apply escapes_length.
  - apply process_escapes_plain.
Qed.
Print Assumptions C12_string.
Example C12_example :
  process_escapes (map Z.of_N (bs "a\nb\\c\q\")) false [] = map Z.of_N (bs "a" ++ [10] ++ bs "b\cq").
Proof. reflexivity. Qed.

(** ** C13 *)
(** With one byte more than the stated capacity the conversion is safe and
    exact... *)
Theorem C13_cstring_partial : forall l size m len,
  (len < size)%nat ->
  exists m', make_cstring size (mk_chars l) m 0 len 0 = Some (m', Nat.min (length l) len) /\
    (forall i, (i < Nat.min (length l) len)%nat -> m' i = byte_of_char (nth i l 0%Z)) /\
    m' (Nat.min (length l) len) = 0 /\
    (forall j, (Nat.min (length l) len < j)%nat -> m' j = m j).
Proof. exact cstring_exact. Qed.
Print Assumptions C13_cstring_partial.
(** ... with exactly the stated capacity every long enough string overruns. *)
Theorem C13_cstring_refuted : forall l m len, (len <= length l)%nat ->
  make_cstring len (mk_chars l) m 0 len 0 = None.
Proof. exact cstring_overrun. Qed.
Print Assumptions C13_cstring_refuted.
(** A buffer of exactly the capacity is safe exactly for shorter strings. *)
Theorem C13_cstring_boundary : forall l m len,
  (make_cstring len (mk_chars l) m 0 len 0 <> None <-> (length l < len)%nat).
Proof. exact cstring_boundary. Qed.
Print Assumptions C13_cstring_boundary.
Example C13_example :
  match make_cstring 17 (mk_chars [104%Z; 105%Z]) (fun _ => 170) 0 16 0 with
  | Some (m, n) => n = 2%nat /\ map m [0%nat; 1%nat; 2%nat; 3%nat] = [104; 105; 0; 170]
  | None => False
  end /\
  make_cstring 4 (mk_chars [1; 2; 3; 4]%Z) (fun _ => 0) 0 4 0 = None.
Proof. vm_compute. auto. Qed.

(** ** C14 *)
Theorem C14_identity : forall s t r u, name16 s 16 r -> name16 t 16 u ->
  (mk_symbol s = mk_symbol t <-> r = u).
Proof. exact mk_symbol_name. Qed.
Print Assumptions C14_identity.
Theorem C14_match : forall a b, sym_match a b = true <-> a = b.
Proof. exact sym_match_eq. Qed.
Print Assumptions C14_match.
Theorem C14_order : forall a b,
  (sym_compare a b = Lt <-> sym_lt a b) /\
  (sym_compare a b = Eq <-> a = b) /\
  (sym_compare a b = Gt <-> sym_lt b a).
Proof. exact sym_compare_spec. Qed.
Print Assumptions C14_order.
Theorem C14_total_order :
  (forall a, ~ sym_lt a a) /\
  (forall a b c, sym_lt a b -> sym_lt b c -> sym_lt a c) /\
  (forall a b, a = b \/ sym_lt a b \/ sym_lt b a).
Proof. exact sym_total_order. Qed.
Print Assumptions C14_total_order.
Example C14_example :
  sy "abcdefghijklmnopQ" = sy "abcdefghijklmnopR" /\ sym_match (sy "ab") (sy "abc") = false
  /\ sym_compare (sy "ab") (sy "abc") = Lt.
Proof. vm_compute. auto. Qed.

(** ** C15 *)
Theorem C15_sym_str_partial : forall t name,
  Forall is_byte name -> Forall (fun b => b <> 0) name -> ~ In 92 name -> name <> [] ->
  exists s, str_of (Sym t (mk_symbol name)) = Some s /\ sym_of s = Symb (mk_symbol name).
Proof. exact sym_str_inverse. Qed.
Print Assumptions C15_sym_str_partial.
Theorem C15_str_sym_partial : forall l,
  Forall (fun c => -128 <= c < 128 /\ c <> 0 /\ c <> 92)%Z l ->
  (1 <= length l <= 16)%nat ->
  str_of (sym_of (mk_chars l)) = Some (mk_chars l).
Proof. exact str_sym_inverse. Qed.
Print Assumptions C15_str_sym_partial.
(** A backslash in the name breaks both directions. *)
Theorem C15_refuted :
  (exists s, str_of (Symb (sy "a\b")) = Some s /\ sym_of s <> Symb (sy "a\b")) /\
  (exists l, (1 <= length l <= 16)%nat /\ Forall (fun c => 0 < c < 128)%Z l /\
             str_of (sym_of (mk_chars l)) <> Some (mk_chars l)).
Proof. exact str_sym_refuted. Qed.
Print Assumptions C15_refuted.
Example C15_example : str_of (sym_of (mk_chars [104; 105]%Z)) = Some (mk_chars [104; 105]%Z).
Proof. reflexivity. Qed.

(** ** C16 (first half; clause selection is in the evaluator part) *)
Theorem C16_match_instance : forall a b, atom_match a b = true <-> instance a b.
Proof. exact atom_match_instance. Qed.
Print Assumptions C16_match_instance.
Example C16_example :
  atom_match (mk_list [Num 1; Wild; mk_list [Wild; Symb (sy "x")]])
             (mk_list [Num 1; mk_list [Tru; Nil]; mk_list [Nil; Symb (sy "x")]]) = true
  /\ atom_match (mk_list [Wild]) (mk_list [Num 1; Num 2]) = false.
Proof. auto. Qed.

(** ** C23 *)
Theorem C23_literal_print : forall written m v, c_value v ->
  exists t, literal v t /\ (forall t', literal v t' -> t' = t) /\
            lisp_prin written m v true = Some (written ++ t).
Proof. exact literal_print. Qed.
Print Assumptions C23_literal_print.
Example C23_example :
  lisp_prin (bs "> ") (fun _ => 0)
    (mk_list [Num (-120); Symb (sy "ab"); Chr 10%Z; Cons Tru Wild; Nil]) true
  = Some (bs "> (-120 ab ^\n (T . _) NIL)").
Proof. reflexivity. Qed.

(** ** C24 *)
Theorem C24_buffer_safe : forall written m v s, c_value v ->
  exists t, lisp_prin written m v s = Some t.
Proof. exact prin_safe. Qed.
Print Assumptions C24_buffer_safe.
(** The local number buffer (24 bytes) always has room for the terminator. *)
Theorem C24_number_buffer : forall z, (- 2 ^ 63 <= z < 2 ^ 63)%Z -> (length (dec z) < 24)%nat.
Proof. exact number_buffer. Qed.
Print Assumptions C24_number_buffer.
(** More than two buffers' worth of text. *)
Example C24_example :
  option_map (@length N) (lisp_prin [] (fun _ => 0) (mk_list (repeat (Num (-1000000)) 250)) true)
  = Some 2251%nat.
Proof. vm_compute. reflexivity. Qed.

(** ** C25 *)
(** Holds when NIL only terminates lists... *)
Theorem C25_symbolic_partial : forall written m v, c_value v -> no_nil_element v ->
  exists t, leaves v t /\ lisp_prin written m v false = Some (written ++ t).
Proof. exact prin_symbolic_partial. Qed.
Print Assumptions C25_symbolic_partial.
(** ... and fails for a NIL element: the text staged so far is lost. *)
Theorem C25_symbolic_refuted :
  exists v t, c_value v /\ leaves v t /\ lisp_prin [] (fun _ => 0) v false <> Some t.
Proof. exact prin_symbolic_refuted. Qed.
Print Assumptions C25_symbolic_refuted.
Example C25_example :
  lisp_prin [] (fun _ => 0) (mk_list [mk_chars [104; 105]%Z; Num 3]) false = Some (bs "hi3").
Proof. reflexivity. Qed.
Example C25_example_lost :
  lisp_prin [] (fun _ => 0) (mk_list [Num 1; Nil; Num 3]) false = Some (bs "3").
Proof. reflexivity. Qed.

(** ** C47 *)
Theorem C47_closure_partial : forall n h,
  (forall m, In (CGet m) h -> m = n) ->
  Forall (fun p => (snd p <= room (fst p))%nat) (snd (crun h)).
Proof. exact crun_same_size. Qed.
Print Assumptions C47_closure_partial.
Theorem C47_closure_refuted : exists h, ~ Forall (fun p => (snd p <= room (fst p))%nat) (snd (crun h)).
Proof. exact crun_refuted. Qed.
Print Assumptions C47_closure_refuted.
Example C47_example :
  length (snd (crun [CGet 3; CGet 3; CPut 0; CGet 3; CPut 1])) = 1%nat /\
  snd (crun [CGet 1; CPut 0; CGet 5]) = [(mkblock 0 1, 5%nat)].
Proof. auto. Qed.
