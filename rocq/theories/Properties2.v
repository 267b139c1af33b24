(** * Property theorems, part 2: the globals tree and the lookup cache. *)
From Verif Require Import Value ValueSpec ValueProofs Tree Cache TreeSpec TreeProofs.
From Coq Require Import Sorting.Sorted.
Open Scope N_scope.

(** ** C17 *)
Theorem C17_globals_map : forall h, exists st, trun h empty_tree = Ok st /\
  forall k, tlookup st k = Ok (meaning h k).
Proof. exact history_ok. Qed.
Print Assumptions C17_globals_map.

Definition c17_history : list top :=
  [TSet (sy "m") (Num 1); TSet (sy "c") (Num 2); TSet (sy "x") (Num 3); TSet (sy "a") (Num 4);
   TSet (sy "b") (Num 5); TSet (sy "m") (Num 6); TUpd (sy "c") (Num 7); TUpd (sy "q") (Num 8)].
Example C17_example :
  meaning c17_history (sy "m") = Some (Num 6) /\ meaning c17_history (sy "c") = Some (Num 7) /\
  meaning c17_history (sy "b") = Some (Num 5) /\ meaning c17_history (sy "q") = None /\
  match trun c17_history empty_tree with
  | Ok st => tlookup st (sy "m") = Ok (Some (Num 6)) /\ tlookup st (sy "q") = Ok None
  | _ => False
  end.
Proof. vm_compute. ands; reflexivity. Qed.

(** ** C18 *)
Theorem C18_insertion_safe : forall h, exists root s sent ks, trun h empty_tree = Ok (root, s) /\
  kind s sent = NilC /\ linked s sent root ks /\ StronglySorted sym_lt ks /\
  (kind s root = NodeC -> col s root = false) /\
  (forall k, In k ks <-> meaning h k <> None).
Proof. exact insertion_safe. Qed.
Print Assumptions C18_insertion_safe.

(** A history that both recolours and rotates. *)
Example C18_example :
  match trun (set_all ["a"; "b"; "c"; "d"; "e"; "f"]%string) empty_tree with
  | Ok (root, s) => dkey s (dat s root) = sy "b" /\ dkey s (dat s (rf s root)) = sy "d" /\
                    col s (rf s root) = true /\ pf s (rf s root) = root
  | _ => False
  end.
Proof. vm_compute. ands; reflexivity. Qed.

(** ** C19: false of the code.  A coloured node with a coloured parent, and a tree
    whose height is the number of names (12 names, height 12; any red-black tree of
    height 12 has at least 2^6 - 1 = 63 names). *)
Theorem C19_no_red_red_refuted : exists h root s x, trun h empty_tree = Ok (root, s) /\
  below s root x /\ col s x = true /\ kind s (pf s x) = NodeC /\ col s (pf s x) = true.
Proof. exact red_red. Qed.
Print Assumptions C19_no_red_red_refuted.

Theorem C19_height_refuted : exists h root s, trun h empty_tree = Ok (root, s) /\
  length h = 12%nat /\ tall s root 12.
Proof. exact unbalanced. Qed.
Print Assumptions C19_height_refuted.

(** What does hold: when each new name sorts before or after all names defined so far,
    only the outer cases of tree_add_check are taken, and the tree is balanced: no coloured
    node has a coloured parent, and a path of n nodes needs 2^n <= (names + 1)^2. *)
Theorem C19_ends_partial : forall h,
  (forall h1 k v h2, h = h1 ++ TSet k v :: h2 -> meaning h1 k = None ->
     (forall k', meaning h1 k' <> None -> sym_lt k' k) \/ (forall k', meaning h1 k' <> None -> sym_lt k k')) ->
  exists root s sent ks, trun h empty_tree = Ok (root, s) /\ linked s sent root ks /\
    (forall k, In k ks <-> meaning h k <> None) /\
    (forall x, below s root x -> col s x = true -> col s (pf s x) = false) /\
    (forall n, tall s root n -> (2 ^ n <= S (length ks) * S (length ks))%nat).
Proof. exact ends_even. Qed.
Print Assumptions C19_ends_partial.

(** Names at both ends, a redefinition and an update; the tree recolours and rotates. *)
Definition c19_history : list top :=
  set_all ["d"; "e"; "c"; "f"; "g"; "b"; "d"; "a"]%string ++ [TUpd (sy "c") Nil].
Example C19_ends_example : forall h1 k v h2, c19_history = h1 ++ TSet k v :: h2 -> meaning h1 k = None ->
  (forall k', meaning h1 k' <> None -> sym_lt k' k) \/ (forall k', meaning h1 k' <> None -> sym_lt k k').
Proof.
  intros h1 k v h2 E N. unfold c19_history, set_all in E. cbn [map app] in E.
  repeat (destruct h1 as [|? h1]; cbn [app] in E; [injection E as <- <- _|injection E as <- E]);
    try (apply (f_equal (@length _)) in E; rewrite app_length in E; cbn in E; lia);
    try discriminate; try (destruct h1 as [|? [|? ?]]; discriminate E);
    first [ left; intros k' H; unfold meaning in H; cbn [fold_left meaning1] in H; unfold gset in H;
            repeat match type of H with context[list_eq_dec ?d k' ?b] => destruct (list_eq_dec d k' b) as [->|_] end;
            solve [vm_compute; apply sym_lt_head; reflexivity | congruence]
          | right; intros k' H; unfold meaning in H; cbn [fold_left meaning1] in H; unfold gset in H;
            repeat match type of H with context[list_eq_dec ?d k' ?b] => destruct (list_eq_dec d k' b) as [->|_] end;
            solve [vm_compute; apply sym_lt_head; reflexivity | congruence]
          | exfalso; vm_compute in N; discriminate ].
Qed.

(** ** C20 *)
Theorem C20_update_in_place : forall h root s k v, trun h empty_tree = Ok (root, s) ->
  exists s',
    (forall o, meaning h k = Some o ->
       exists d kv, tree_get s root k = Ok (Some d) /\
         tree_upd (snd (new_pair s k v)) root (fst (new_pair s k v)) = Ok (Some kv, s') /\
         dkey s' kv = k /\ dval s' kv = o /\
         tree_get s' root k = Ok (Some d) /\ dval s' d = v) /\
    (meaning h k = None ->
       tree_upd (snd (new_pair s k v)) root (fst (new_pair s k v)) = Ok (None, s') /\
       tree_get s' root k = Ok None) /\
    (forall k', k' <> k -> tree_get s' root k' = tree_get s root k' /\
       tlookup (root, s') k' = tlookup (root, s) k').
Proof. exact update_ok. Qed.
Print Assumptions C20_update_in_place.

Example C20_example :
  match trun c17_history empty_tree with
  | Ok (root, s) =>
      let '(kv, s1) := new_pair s (sy "b") (Num 50) in
      match tree_upd s1 root kv with
      | Ok (Some kv, s2) => dval s2 kv = Num 5 /\ tlookup (root, s2) (sy "b") = Ok (Some (Num 50)) /\
                            tlookup (root, s2) (sy "a") = Ok (Some (Num 4))
      | _ => False
      end
  | _ => False
  end.
Proof. vm_compute. ands; reflexivity. Qed.

(** ** C21: false of the code in general. *)
Theorem C21_remove_crash_refuted : exists h root s k, trun h empty_tree = Ok (root, s) /\
  meaning h k <> None /\ tree_rem s root k = Ub.
Proof. exact remove_crash. Qed.
Print Assumptions C21_remove_crash_refuted.

Theorem C21_remove_loses_refuted : exists h root s k root' s' k', trun h empty_tree = Ok (root, s) /\
  tree_rem s root k = Ok (root', s') /\ k' <> k /\
  meaning h k' <> None /\ tlookup (root', s') k' = Ok None.
Proof. exact remove_loses. Qed.
Print Assumptions C21_remove_loses_refuted.

Theorem C21_remove_absent_refuted : exists h root s k root' s' k', trun h empty_tree = Ok (root, s) /\
  meaning h k = None /\ tree_rem s root k = Ok (root', s') /\
  meaning h k' <> None /\ tlookup (root', s') k' = Ok None.
Proof. exact remove_absent. Qed.
Print Assumptions C21_remove_absent_refuted.

(** What does hold: removing the key of a coloured node with a NIL child. *)
Theorem C21_remove_partial : forall h root s n, trun h empty_tree = Ok (root, s) ->
  below s root n -> col s n = true ->
  kind s (lf s n) = NilC \/ kind s (rf s n) = NilC ->
  exists root' s', tree_rem s root (dkey s (dat s n)) = Ok (root', s') /\
    tlookup (root', s') (dkey s (dat s n)) = Ok None /\
    forall k, k <> dkey s (dat s n) -> tlookup (root', s') k = Ok (meaning h k).
Proof. exact remove_coloured. Qed.
Print Assumptions C21_remove_partial.

Example C21_example :
  match trun (set_all ["b"; "a"; "c"]%string) empty_tree with
  | Ok (root, s) => let n := lf s root in
      kind s root = NodeC /\ kind s n = NodeC /\ col s n = true /\ kind s (lf s n) = NilC /\
      dkey s (dat s n) = sy "a"
  | _ => False
  end.
Proof. vm_compute. ands; reflexivity. Qed.

(** ** C22 *)
Theorem C22_cache_never_stale : forall name h, exists vs,
  crun name h empty_tree (fun _ => None) = Ok vs /\ answers name (fun _ => None) h vs.
Proof. exact cache_fresh. Qed.
Print Assumptions C22_cache_never_stale.

(** Occurrence 0 is looked up before the definition, then cached, then sees the
    redefinition, the update, and a shadowing closure. *)
Example C22_example :
  crun (fun _ => sy "f")
    [CLook 0 []; CDef (TSet (sy "f") (Num 1)); CLook 0 []; CDef (TSet (sy "a") (Num 9));
     CDef (TSet (sy "f") (Num 2)); CLook 0 []; CDef (TUpd (sy "f") (Num 3)); CLook 0 []; CLook 1 [];
     CLook 0 [(sy "f", Num 4)]] empty_tree (fun _ => None)
  = Ok [Nil; Num 1; Num 2; Num 3; Num 3; Num 4].
Proof. vm_compute. reflexivity. Qed.
