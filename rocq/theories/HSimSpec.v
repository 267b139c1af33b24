(** * HSimSpec: when a heap stands for a state of the value evaluator. *)
From Verif Require Import Value Tails Heap HeapSpec HEval HEvalSpec.
From Verif Require Eval.
Open Scope nat_scope.

(** A channel list on the heap: its entries start with the handle. *)
Inductive chans (h : heap) : N -> list N -> Prop :=
| chans_nil : forall a c, cells h a = Some c -> body c = KNil -> chans h a []
| chans_cons : forall a c e d ce k x ck n l, cells h a = Some c -> body c = KPair e d ->
    cells h e = Some ce -> body ce = KPair k x -> cells h k = Some ck -> body ck = KNum (Z.of_N n) ->
    chans h d l -> chans h a (n :: l).

(** The pair of the global named [s]. *)
Definition global_at (h : heap) (s : symbol) : option N := assq (fun k => sym_match k s) (binds (aux h)).

(** The struct lisp of [h] stands for the world [w]: every global has its value,
    in a pair nothing else refers to; a cache holds what a search would find; same
    output, same channels. *)
Record lisp (h : heap) (w : Eval.world) : Prop := mklisp {
  g_bound : forall s v, env_get (Eval.globals w) s = Some v -> exists kv c k x,
    global_at h s = Some kv /\ cells h kv = Some c /\ body c = KPair k x /\ reads h x v;
  g_unbound : forall s, env_get (Eval.globals w) s = None -> global_at h s = None;
  g_alone : forall s kv, In (s, kv) (binds (aux h)) -> exists c, cells h kv = Some c /\ refs c = 1;
  g_cached : forall a e, assq (N.eqb a) (caches (aux h)) = Some e ->
    (a < nxt h)%N /\ forall c s, cells h a = Some c -> body c = KSym s -> global_at h s = Some e;
  g_outs : outs (aux h) = Eval.outs w;
  g_opens : opens (aux h) = Eval.opens w;
  g_ichan : chans h (ichan (aux h)) (Eval.ichan w);
  g_ochan : chans h (ochan (aux h)) (Eval.ochan w)
}.

(** If the heap computation [m] returns, then the value computation [M] returns
    related results, or stops because the value evaluator leaves the operation out
    ([Shared]); it has no undefined behaviour and does not run out of budget. *)
Definition sim {A B} (m : HM A) (M : Eval.M B) (Q : A -> B -> heap -> Eval.world -> Prop)
  (h : heap) (w : Eval.world) : Prop :=
  match m h with
  | Done a h' =>
      match M w with
      | Eval.Ret v w' => Q a v h' w'
      | Eval.Stop Eval.Shared => True
      | _ => False
      end
  | _ => True
  end.

(** Everything reachable from [R] is as it was. *)
Definition kept (R : list N) (h h' : heap) : Prop :=
  forall a, reach h R a -> exists c c', cells h a = Some c /\ cells h' a = Some c' /\ stored c' = stored c.

(** The heap [h] stands for the world [w] while the program holds the references
    [L], each reading the value beside it. *)
Record stands (h : heap) (w : Eval.world) (L : list (N * atom)) : Prop := mkstands {
  s_holds : holds h (map fst L);
  s_reads : forall a v, In (a, v) L -> reads h a v;
  s_lisp : lisp h w
}.

(** The result [r] in heap [h] is what the outcome [o] says, and the references [L]
    read what they read; nothing is said when the evaluator over values stops at an
    operation it leaves out ([Shared]). *)
Definition answers (o : Eval.out atom) (r : N) (h : heap) (L : list (N * atom)) : Prop :=
  match o with
  | Eval.Ret v w => stands h w ((r, v) :: L)
  | Eval.Stop Eval.Shared => True
  | _ => False
  end.
