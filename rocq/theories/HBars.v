(** * HBars: only the events that are not allowed stop a computation on the heap. *)
From Verif Require Import Value Print Heap HeapSpec HEval HEvalBoot.
From Verif Require Eval.
Import Eval(prim(..)).

Section Bars.
Variable allowed : event -> bool.
Definition bars {A} (m : HM A) : Prop := forall h e, m h = Barred e -> allowed e = false.
Lemma b_bind : forall A B (m : HM A) (k : A -> HM B), bars m -> (forall a, bars (k a)) -> bars (hbind_ m k).
Proof.
  intros A B m k P K h e H. unfold hbind_ in H. destruct (m h) as [a h'| | | |x|] eqn:E; try discriminate.
  - eapply K; eauto.
  - injection H as <-. eapply P; eauto.
Qed.
Lemma b_done : forall A (a : A), bars (done a).
Proof. intros A a h e H. discriminate. Qed.
Lemma b_rd : forall a, bars (rd a).
Proof. intros a h e. unfold rd. destruct (cells h a); discriminate. Qed.
Lemma b_wr : forall a c, bars (wr a c).
Proof. intros a c h e. unfold wr. destruct (cells h a); discriminate. Qed.
Lemma b_release : forall a, bars (release a).
Proof. intros a h e. unfold release. destruct (cells h a); discriminate. Qed.
Lemma b_alloc : forall b, bars (alloc b).
Proof. intros b h e. discriminate. Qed.
Lemma b_get : bars get_aux.
Proof. intros h e. discriminate. Qed.
Lemma b_set : forall f, bars (set_aux f).
Proof. intros f h e. discriminate. Qed.
Create HintDb brs discriminated.
Hint Resolve b_done b_rd b_wr b_release b_alloc b_get b_set : brs.
Ltac brs :=
  repeat (cbv beta; cbv zeta;
    lazymatch goal with
    | |- bars (hbind_ _ _) => apply b_bind; [|intro]
    | |- bars wild => intros ? ?; discriminate
    | |- bars dry => intros ? ?; discriminate
    | |- bars (match ?x with _ => _ end) => destruct x eqn:?
    | |- bars (fun _ => Freed) => intros ? ?; discriminate
    | |- bars (fun _ => Forged) => intros ? ?; discriminate
    | |- bars (fun _ => Barred _) => intros ? ? [= <-]; assumption
    | |- bars _ => solve [eauto 3 with brs]
    end).
Lemma b_make_nil : bars (make_nil).
Proof. intros. unfold make_nil. brs. Qed.
Hint Resolve b_make_nil : brs.
Lemma b_hcons : forall x y, bars (hcons x y).
Proof. intros. unfold hcons. brs. Qed.
Hint Resolve b_hcons : brs.
Lemma b_up : forall a, bars (up a).
Proof. intros. unfold up. brs. Qed.
Hint Resolve b_up : brs.
Lemma b_drop : forall n a, bars (drop n a).
Proof. induction n as [|n IH]; intros; cbn [drop]; brs. Qed.
Hint Resolve b_drop : brs.
Lemma b_X : forall a, bars (X a).
Proof. intros a h e. unfold X. apply b_drop. Qed.
Hint Resolve b_X : brs.
Lemma b_CAR : forall a, bars (CAR a).
Proof. intros. unfold CAR. brs. Qed.
Hint Resolve b_CAR : brs.
Lemma b_CDR : forall a, bars (CDR a).
Proof. intros. unfold CDR. brs. Qed.
Hint Resolve b_CDR : brs.
Lemma b_test : forall f a, bars (test f a).
Proof. intros. unfold test. brs. Qed.
Hint Resolve b_test : brs.
Lemma b_hcar : forall a, bars (hcar a).
Proof. intros. unfold hcar. brs. Qed.
Hint Resolve b_hcar : brs.
Lemma b_hcdr : forall a, bars (hcdr a).
Proof. intros. unfold hcdr. brs. Qed.
Hint Resolve b_hcdr : brs.
Lemma b_last_pair : forall n a, bars (last_pair n a).
Proof. induction n as [|n IH]; intros; cbn [last_pair]; brs. Qed.
Hint Resolve b_last_pair : brs.
Lemma b_hconc : forall n a b, bars (hconc n a b).
Proof. intros. unfold hconc. brs. Qed.
Hint Resolve b_hconc : brs.
Lemma b_happend : forall n l e, bars (happend n l e).
Proof. intros. unfold happend. brs. Qed.
Hint Resolve b_happend : brs.
Lemma b_hdup : forall n a, bars (hdup n a).
Proof. induction n as [|n IH]; intros; cbn [hdup]; brs. Qed.
Hint Resolve b_hdup : brs.
Lemma b_hbind : forall n clos arg val, bars (hbind n clos arg val).
Proof. induction n as [|n IH]; intros; cbn [hbind]; brs. Qed.
Hint Resolve b_hbind : brs.
Lemma b_symbol_of : forall a, bars (symbol_of a).
Proof. intros. unfold symbol_of. brs. Qed.
Hint Resolve b_symbol_of : brs.
Lemma b_hsss : forall n root kv, bars (hsss n root kv).
Proof. induction n as [|n IH]; intros; cbn [hsss]; brs. Qed.
Hint Resolve b_hsss : brs.
Lemma b_hmerge_loop : forall n root elt, bars (hmerge_loop n root elt).
Proof. induction n as [|n IH]; intros; cbn [hmerge_loop]; brs. Qed.
Hint Resolve b_hmerge_loop : brs.
Lemma b_hmerge : forall n root alst, bars (hmerge n root alst).
Proof. intros. unfold hmerge. brs. Qed.
Hint Resolve b_hmerge : brs.
Lemma b_set_cdr : forall a y, bars (set_cdr a y).
Proof. intros. unfold set_cdr. brs. Qed.
Hint Resolve b_set_cdr : brs.
Lemma b_set_tail : forall a, bars (set_tail a).
Proof. intros. unfold set_tail. brs. Qed.
Hint Resolve b_set_tail : brs.
Lemma b_key_is : forall a s, bars (key_is a s).
Proof. intros. unfold key_is. brs. Qed.
Hint Resolve b_key_is : brs.
Lemma b_same_key : forall a b, bars (same_key a b).
Proof. intros. unfold same_key. brs. Qed.
Hint Resolve b_same_key : brs.
Lemma b_number_of : forall a, bars (number_of a).
Proof. intros. unfold number_of. brs. Qed.
Hint Resolve b_number_of : brs.
Lemma b_value_at : forall n a, bars (value_at n a).
Proof. induction n as [|n IH]; intros; cbn [value_at]; brs. Qed.
Hint Resolve b_value_at : brs.
Lemma b_make_truth : forall b, bars (make_truth b).
Proof. intros. unfold make_truth. brs. Qed.
Hint Resolve b_make_truth : brs.
Lemma b_hequ : forall n a b, bars (hequ n a b).
Proof. induction n as [|n IH]; intros; cbn [hequ]; brs. Qed.
Hint Resolve b_hequ : brs.
Lemma b_hneq : forall n a b, bars (hneq n a b).
Proof. induction n as [|n IH]; intros; cbn [hneq]; brs. Qed.
Hint Resolve b_hneq : brs.
Lemma b_hmatch : forall n a b, bars (hmatch n a b).
Proof. induction n as [|n IH]; intros; cbn [hmatch]; brs. Qed.
Hint Resolve b_hmatch : brs.
Lemma b_hmay_apply : forall n args vals, bars (hmay_apply n args vals).
Proof. induction n as [|n IH]; intros; cbn [hmay_apply]; brs. Qed.
Hint Resolve b_hmay_apply : brs.
Lemma b_hlen : forall n a, bars (hlen n a).
Proof. induction n as [|n IH]; intros; cbn [hlen]; brs. Qed.
Hint Resolve b_hlen : brs.
Lemma b_his_func : forall a, bars (his_func a).
Proof. intros. unfold his_func. brs. Qed.
Hint Resolve b_his_func : brs.
Lemma b_global : forall s, bars (global s).
Proof. intros. unfold global. brs. Qed.
Hint Resolve b_global : brs.
Lemma b_cached : forall a, bars (cached a).
Proof. intros. unfold cached. brs. Qed.
Hint Resolve b_cached : brs.
Lemma b_remember : forall a kv, bars (remember a kv).
Proof. intros. unfold remember. brs. Qed.
Hint Resolve b_remember : brs.
Lemma b_forget : forall a, bars (forget a).
Proof. intros. unfold forget. brs. Qed.
Hint Resolve b_forget : brs.
Lemma b_abandon : forall a, bars (abandon a).
Proof. intros. unfold abandon. brs. Qed.
Hint Resolve b_abandon : brs.
Lemma b_scan : forall n c s, bars (scan n c s).
Proof. induction n as [|n IH]; intros; cbn [scan]; brs. Qed.
Hint Resolve b_scan : brs.
Lemma b_find_local : forall n c s, bars (find_local n c s).
Proof. intros. unfold find_local. brs. Qed.
Hint Resolve b_find_local : brs.
Lemma b_hlookup : forall n c x, bars (hlookup n c x).
Proof. intros. unfold hlookup. brs. Qed.
Hint Resolve b_hlookup : brs.
Lemma b_hmix : forall n c e, bars (hmix n c e).
Proof. intros. unfold hmix. brs. Qed.
Hint Resolve b_hmix : brs.
Lemma b_plant : forall v, bars (plant v).
Proof. assert (F : forall t a, bars (flag t a)) by (intros; unfold flag; brs). induction v; cbn [plant]; brs. Qed.
Hint Resolve b_plant : brs.
Lemma b_hcollect_assoc : forall col n a, (forall b, bars (col b)) -> bars (hcollect_assoc col n a).
Proof. intros col n a C. revert a. induction n as [|n IH]; intros; cbn [hcollect_assoc]; brs. Qed.
Hint Resolve b_hcollect_assoc : brs.
Lemma b_wrap : forall cell, bars (wrap cell).
Proof. intros. unfold wrap. brs. Qed.
Hint Resolve b_wrap : brs.
Lemma b_hcollect : forall n a, bars (hcollect n a).
Proof. induction n as [|n IH]; intros; cbn [hcollect]; brs. Qed.
Hint Resolve b_hcollect : brs.
Lemma b_hmark_loop : forall n symb args pt, bars (hmark_loop n symb args pt).
Proof. induction n as [|n IH]; intros; cbn [hmark_loop]; brs. Qed.
Hint Resolve b_hmark_loop : brs.
Lemma b_hmark : forall n symb args bdy, bars (hmark n symb args bdy).
Proof. intros. unfold hmark. brs. Qed.
Hint Resolve b_hmark : brs.
Lemma b_hemit : forall b, bars (hemit b).
Proof. intros. unfold hemit. brs. Qed.
Hint Resolve b_hemit : brs.
Lemma b_hprint : forall n a literal, bars (hprint n a literal).
Proof. intros. unfold hprint. brs. Qed.
Hint Resolve b_hprint : brs.
Lemma b_bar : forall e, bars (bar allowed e).
Proof. intros. unfold bar. brs. Qed.
Hint Resolve b_bar : brs.
Lemma b_bar_any : forall s, bars (bar_any allowed s).
Proof. intros. unfold bar_any. brs. Qed.
Lemma b_watch : forall e n a ok, bars (watch allowed e n a ok).
Proof. intros. unfold watch. brs. Qed.
Lemma b_watch_marks : forall ow n s a b, bars (watch_marks allowed ow n s a b).
Proof.
  intros. unfold watch_marks. brs. intros h e. destruct (ow h); [discriminate|]. intros [= <-]. assumption.
Qed.
Hint Resolve b_bar_any b_watch b_watch_marks : brs.
Lemma b_swap_values : forall data kv, bars (swap_values data kv).
Proof. intros. unfold swap_values. brs. Qed.
Hint Resolve b_swap_values : brs.
Lemma b_hsetq : forall pair, bars (hsetq allowed pair).
Proof. intros. unfold hsetq. brs. Qed.
Hint Resolve b_hsetq : brs.
Section Oracle.
Variable opened : N -> bool -> atom -> bool.
Variable pwd : atom.
Section Rec.
Variable ev : N -> N -> HM N.
Hypothesis EV : forall c x, bars (ev c x).
Variable budget : nat.
Lemma b_heval_args : forall n c acc args vals, bars (heval_args allowed ev n c acc args vals).
Proof. induction n as [|n IH]; intros; cbn [heval_args]; brs. Qed.
Hint Resolve b_heval_args : brs.
Lemma b_hprog : forall n c cell result, bars (hprog ev n c cell result).
Proof. induction n as [|n IH]; intros; cbn [hprog]; brs. Qed.
Hint Resolve b_hprog : brs.
Lemma b_htail_loop : forall n cls0 symb bdy bscl, bars (htail_loop allowed ev n cls0 symb bdy bscl).
Proof. induction n as [|n IH]; intros; cbn [htail_loop]; brs. Qed.
Hint Resolve b_htail_loop : brs.
Lemma b_hcond : forall n c cell mtch, bars (hcond ev n c cell mtch).
Proof. induction n as [|n IH]; intros; cbn [hcond]; brs. Qed.
Hint Resolve b_hcond : brs.
Lemma b_hmatch_loop : forall n c v mtch, bars (hmatch_loop ev n c v mtch).
Proof. induction n as [|n IH]; intros; cbn [hmatch_loop]; brs. Qed.
Hint Resolve b_hmatch_loop : brs.
Lemma b_hlist : forall n c cell, bars (hlist ev n c cell).
Proof. induction n as [|n IH]; intros; cbn [hlist]; brs. Qed.
Hint Resolve b_hlist : brs.
Lemma b_hlet_bind : forall n c env cell, bars (hlet_bind allowed ev n c env cell).
Proof. induction n as [|n IH]; intros; cbn [hlet_bind]; brs. Qed.
Hint Resolve b_hlet_bind : brs.
Lemma b_hlet : forall c cell, bars (hlet allowed ev budget c cell).
Proof. intros. unfold hlet. brs. Qed.
Hint Resolve b_hlet : brs.
Lemma b_hstream : forall n c any expr, bars (hstream ev n c any expr).
Proof. induction n as [|n IH]; intros; cbn [hstream]; brs. Qed.
Hint Resolve b_hstream : brs.
Lemma b_hwhile : forall n c cnd prg res, bars (hwhile ev n c cnd prg res).
Proof. induction n as [|n IH]; intros; cbn [hwhile]; brs. Qed.
Hint Resolve b_hwhile : brs.
Lemma b_hprin_all : forall n literal c cell result, bars (hprin_all ev n literal c cell result).
Proof. induction n as [|n IH]; intros; cbn [hprin_all]; brs. Qed.
Hint Resolve b_hprin_all : brs.
Lemma b_hopen : forall output chan, bars (hopen opened output chan).
Proof. intros. unfold hopen. brs. Qed.
Hint Resolve b_hopen : brs.
Lemma b_hpush : forall output k dir, bars (hpush output k dir).
Proof. intros. unfold hpush. brs. Qed.
Hint Resolve b_hpush : brs.
Lemma b_hpop : forall output, bars (hpop output).
Proof. intros. unfold hpop. brs. Qed.
Hint Resolve b_hpop : brs.
Lemma b_hwith_chan : forall output c chan rem, bars (hwith_chan opened pwd ev budget output c chan rem).
Proof. intros. unfold hwith_chan. brs. Qed.
Hint Resolve b_hwith_chan : brs.
Lemma b_hdef : forall full any, bars (hdef allowed budget full any).
Proof. intros. unfold hdef. brs. Qed.
Hint Resolve b_hdef : brs.
Lemma b_hrun_setq : forall c any, bars (hrun_setq allowed ev c any).
Proof. intros. unfold hrun_setq. brs. Qed.
Hint Resolve b_hrun_setq : brs.
Lemma b_hrun_set : forall c any, bars (hrun_set allowed ev budget c any).
Proof. intros. unfold hrun_set. brs. Qed.
Hint Resolve b_hrun_set : brs.
Lemma b_hrun_or : forall c any, bars (hrun_or ev c any).
Proof. intros. unfold hrun_or. brs. Qed.
Hint Resolve b_hrun_or : brs.
Lemma b_hprim1 : forall p full c x, bars (hprim1 allowed ev budget p full c x).
Proof. intros. destruct p; cbn [hprim1]; brs. Qed.
Hint Resolve b_hprim1 : brs.
Lemma b_hprim2 : forall p c x y, bars (hprim2 opened pwd ev budget p c x y).
Proof. intros. destruct p; cbn [hprim2]; brs. Qed.
Hint Resolve b_hprim2 : brs.
Lemma b_pop_arg : forall clos name, bars (pop_arg clos name).
Proof. intros. unfold pop_arg. brs. Qed.
Hint Resolve b_pop_arg : brs.
Lemma b_hrun_prim : forall p full c, bars (hrun_prim allowed opened pwd ev budget p full c).
Proof. intros. unfold hrun_prim. brs. Qed.
Hint Resolve b_hrun_prim : brs.
Lemma b_heval_func : forall c symb func vals, bars (heval_func allowed opened pwd ev budget c symb func vals).
Proof. intros. unfold heval_func. brs. Qed.
Hint Resolve b_heval_func : brs.
Lemma b_heval_pair : forall c cell, bars (heval_pair allowed opened pwd ev budget c cell).
Proof. intros. unfold heval_pair. brs. Qed.
Hint Resolve b_heval_pair : brs.
End Rec.
Hint Resolve b_hpush b_hpop : brs.
Lemma b_eval : forall n c x, bars (heval allowed opened pwd n c x).
Proof. induction n as [|n IH]; intros; cbn [heval]; brs. apply b_heval_pair. exact IH. Qed.
Hint Resolve b_eval : brs.
Lemma b_run : forall n l r, bars (hrun allowed opened pwd n l r).
Proof. intros n. induction l as [|x l IH]; intros; cbn [hrun]; brs. Qed.
Lemma b_load : forall l, bars (hload allowed l).
Proof. induction l as [|[s f] l IH]; intros; cbn [hload]; brs. Qed.
Hint Resolve b_run b_load : brs.
Lemma b_hboot : bars (hboot allowed pwd).
Proof. intros. unfold hboot. brs. Qed.
Hint Resolve b_hboot : brs.
Lemma b_session : forall n l, bars (session allowed opened pwd n l).
Proof. intros. unfold session. brs. Qed.
End Oracle.
End Bars.
