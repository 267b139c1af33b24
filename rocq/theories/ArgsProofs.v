(** * ArgsProofs: the arguments a builtin takes are those of the call. *)
From Verif Require Import Base Value ValueProofs Eval Args ArgsSpec.
Open Scope nat_scope.

Lemma declare_list : forall xs, xs <> [] -> declare (xs ++ ["NIL"%string]) = mk_list (map (fun x => Symb (sy x)) xs).
Proof.
  induction xs as [|x xs IH]; intro N; [congruence|]. destruct xs as [|y xs]; [reflexivity|].
  specialize (IH ltac:(discriminate)). cbn [app map mk_list] in *.
  change (declare (x :: y :: (xs ++ ["NIL"%string]))) with
    (match (xs ++ ["NIL"%string]) with
     | [] => if String.eqb y "NIL" then Cons (Symb (sy x)) Nil else Cons (Symb (sy x)) (Symb (sy y))
     | _ => Cons (Symb (sy x)) (declare (y :: xs ++ ["NIL"%string])) end).
  rewrite IH. destruct (xs ++ ["NIL"%string]) eqn:E; [destruct xs; discriminate|]. reflexivity.
Qed.

Lemma eval_args_list : forall ev c xs es w vs w' acc, length es = length xs -> evaluated ev c es w vs w' ->
  eval_args ev c acc (mk_list (map (fun x => Symb (sy x)) xs)) (mk_list es) w =
  Ret (rev (combine (map sy xs) vs) ++ acc, Nil) w'.
Proof.
  intros ev c xs. induction xs as [|x xs IH]; intros [|e es] w vs w' acc L H; try discriminate L.
  - inversion H; subst. reflexivity.
  - inversion H as [|? ? ? v w1 vs0 ? Ev Es]; subst. cbn [map mk_list eval_args car cdr]. unfold mbind at 1. rewrite Ev.
    injection L as L. rewrite (IH es w1 vs0 w' _ L Es). cbn [combine rev bind]. rewrite <- app_assoc. reflexivity.
Qed.

(** The values bound last come first: [take] undoes the binding. *)
Lemma take_rev : forall names ks vs scope, length ks = length names -> length vs = length names ->
  take names (rev (combine ks vs) ++ scope) = Some (vs, scope).
Proof.
  induction names as [|n names IH]; intros [|k ks] [|v vs] scope L1 L2; try discriminate; [reflexivity|].
  cbn [combine rev take]. rewrite <- app_assoc. cbn [length] in L1, L2. rewrite IH by lia. reflexivity.
Qed.
Lemma evaluated_length : forall ev c es w vs w', evaluated ev c es w vs w' -> length vs = length es.
Proof. induction 1; cbn; auto. Qed.

Lemma receives_take : forall ev c decl asked es w vs w' scope, receives ev c decl es w vs w' ->
  length asked = length vs ->
  exists b, eval_args ev c [] (declare decl) (mk_list es) w = Ret (b, Nil) w' /\
    take asked (b ++ scope) = Some (vs, scope).
Proof.
  intros ev c decl asked es w vs w' scope R L. destruct R as [x es w|x e es w v w1 E|xs es w vs w' N Le E].
  - exists [(sy x, mk_list es)]. split.
    + cbn [declare]. destruct es; reflexivity.
    + apply (take_rev asked [sy x] [mk_list es]); auto.
  - exists [(sy "REM", mk_list es); (sy x, v)]. split.
    + cbn [declare]. change (String.eqb "REM" "NIL") with false. cbn [mk_list eval_args car cdr].
      unfold mbind. rewrite E. cbn [bind]. destruct es; reflexivity.
    + apply (take_rev asked [sy x; sy "REM"] [v; mk_list es]); auto.
  - exists (rev (combine (map sy xs) vs)). rewrite declare_list by auto. split.
    + rewrite (eval_args_list ev c xs es w vs w' [] Le E). rewrite app_nil_r. reflexivity.
    + apply evaluated_length in E. apply take_rev; rewrite ?map_length; lia.
Qed.
