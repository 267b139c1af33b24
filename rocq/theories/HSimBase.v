(** * HSimBase: heap states that stand for values, and how they evolve. *)
From Verif Require Import Value Tails Print Heap HeapSpec HeapProofs HeapOps HEval HEvalSpec HEvalBase HEvalProofs ValueProofs HSimSpec.
From Verif Require Eval.
Open Scope nat_scope.
Open Scope heap_scope.

(** ** Partial correctness *)
Definition wpv {A} (m : HM A) (Q : A -> heap -> Prop) (h : heap) : Prop :=
  match m h with Done a h' => Q a h' | _ => True end.
Lemma wp_wpv : forall {A} (m : HM A) Q h, wp m Q h -> wpv m Q h.
Proof. intros A m Q h. unfold wp, wpv. destruct (m h); auto. Qed.
Lemma wpv_bind : forall {A B} (m : HM A) (k : A -> HM B) Q h,
  wpv m (fun a h' => wpv (k a) Q h') h -> wpv (hbind_ m k) Q h.
Proof. intros A B m k Q h H. unfold wpv, hbind_ in *. destruct (m h); auto. Qed.
Lemma wpv_mono : forall {A} (m : HM A) (P Q : A -> heap -> Prop) h,
  wpv m P h -> (forall a h', P a h' -> Q a h') -> wpv m Q h.
Proof. intros A m P Q h H I. unfold wpv in *. destruct (m h); auto. Qed.
Lemma wpv_and : forall {A} (m : HM A) (P Q : A -> heap -> Prop) h,
  wpv m P h -> wpv m Q h -> wpv m (fun a h' => P a h' /\ Q a h') h.
Proof. intros A m P Q h H I. unfold wpv in *. destruct (m h); auto. Qed.

Lemma sim_bind : forall {A B A' B'} (m : HM A) (k : A -> HM A') (M : Eval.M B) (K : B -> Eval.M B') P Q h w,
  sim m M P h w -> (forall a v h' w', P a v h' w' -> sim (k a) (K v) Q h' w') ->
  sim (hbind_ m k) (Eval.mbind M K) Q h w.
Proof.
  intros A B A' B' m k M K P Q h w H I. unfold sim, hbind_, Eval.mbind in *.
  destruct (m h) as [a h'| | | | |]; auto. destruct (M w) as [v w'|e|]; [|destruct e; [destruct H|]|destruct H].
  - apply I. auto.
  - destruct (k a h'); auto.
Qed.
Lemma sim_heap : forall {A A' B} (m : HM A) (k : A -> HM A') (M : Eval.M B) P Q h w,
  wpv m P h -> (forall a h', P a h' -> sim (k a) M Q h' w) -> sim (hbind_ m k) M Q h w.
Proof. intros A A' B m k M P Q h w H I. unfold sim, wpv, hbind_ in *. destruct (m h); auto. apply I. auto. Qed.
Lemma sim_last : forall {A B} (m : HM A) (v : B) P (Q : A -> B -> heap -> Eval.world -> Prop) h w,
  wpv m P h -> (forall a h', P a h' -> Q a v h' w) -> sim m (Eval.ret v) Q h w.
Proof. intros A B m v P Q h w H I. unfold sim, wpv in *. destruct (m h); auto. cbn. auto. Qed.
Lemma sim_mono : forall {A B} (m : HM A) (M : Eval.M B) (P Q : A -> B -> heap -> Eval.world -> Prop) h w,
  sim m M P h w -> (forall a v h' w', P a v h' w' -> Q a v h' w') -> sim m M Q h w.
Proof.
  intros A B m M P Q h w H I. unfold sim in *. destruct (m h); auto. destruct (M w) as [v w'|e|]; auto.
Qed.
Lemma sim_done : forall {A B} (a : A) (v : B) (Q : A -> B -> heap -> Eval.world -> Prop) h w,
  Q a v h w -> sim (done a) (Eval.ret v) Q h w.
Proof. auto. Qed.
Lemma sim_shared : forall {A B} (m : HM A) (Q : A -> B -> heap -> Eval.world -> Prop) h w,
  sim m (Eval.halt Eval.Shared) Q h w.
Proof. intros. unfold sim. destruct (m h); cbn; auto. Qed.
(** The last operation of a computation. *)
Lemma sim_tail : forall {A B} (m : HM A) (M : Eval.M B) Q h w, sim (hbind_ m done) M Q h w -> sim m M Q h w.
Proof. intros A B m M Q h w H. unfold sim, hbind_, done in *. destruct (m h); auto. Qed.

(** ** What is reachable stays *)
Definition heads (l : list (N * atom)) : list N := map fst l.
Lemma reach_incl : forall h R R' a, (forall r, In r R -> reach h R' r) -> reach h R a -> reach h R' a.
Proof. intros h R R' a I H. induction H; auto. eapply reach_step; eauto. Qed.
Lemma reach_sub : forall h R R' a, incl R R' -> reach h R a -> reach h R' a.
Proof. intros h R R' a I. apply reach_incl. intros r Ir. apply reach_root. auto. Qed.
Lemma fields_stored : forall h h' a c c', cells h a = Some c -> cells h' a = Some c' -> stored c' = stored c ->
  fields_at h' a = fields_at h a.
Proof.
  intros h h' a c c' E E' T. apply stored_eq in T. destruct T as [T1 [_ T2]].
  unfold fields_at, fields. rewrite E, E', T1, T2. auto.
Qed.
Lemma reach_kept : forall R h h' a, kept R h h' -> reach h R a -> reach h' R a.
Proof.
  intros R h h' a K H. induction H as [a I|a b H IH I]; [apply reach_root; auto|].
  destruct (K a H) as [c [c' [E [E' T]]]]. eapply reach_step; [exact IH|]. rewrite (fields_stored _ _ _ _ _ E E' T). auto.
Qed.
Lemma kept_trans : forall R h1 h2 h3, kept R h1 h2 -> kept R h2 h3 -> kept R h1 h3.
Proof.
  intros R h1 h2 h3 K1 K2 a H. destruct (K1 a H) as [c1 [c2 [E1 [E2 T]]]].
  destruct (K2 a (reach_kept _ _ _ _ K1 H)) as [c2' [c3 [E2' [E3 T']]]].
  exists c1, c3. repeat split; congruence.
Qed.
Lemma kept_reach : forall R R' h h', (forall r, In r R' -> reach h R r) -> kept R h h' -> kept R' h h'.
Proof. intros R R' h h' I K a H. apply K. eapply reach_incl; eauto. Qed.
Lemma kept_sub : forall R R' h h', incl R' R -> kept R h h' -> kept R' h h'.
Proof. intros R R' h h' I. apply kept_reach. intros r Ir. apply reach_root. auto. Qed.
Lemma kept_of : forall R S S' h h', own h S -> own h' S' -> (forall r, In r R -> alive h r) -> (forall r, In r R -> alive h' r) ->
  (forall a c c', reach h R a -> cells h a = Some c -> cells h' a = Some c' -> stored c' = stored c) -> kept R h h'.
Proof.
  intros R S S' h h' O O' I A K.
  assert (G : forall a, reach h R a -> alive h a /\ alive h' a).
  { intros a H. induction H as [a Ia|a b H [A1 A2] Ib]; [split; auto|].
    unfold alive in A1, A2. destruct (cells h a) as [c|] eqn:E; [|congruence]. destruct (cells h' a) as [c'|] eqn:E'; [|congruence].
    pose proof (K a c c' H E E') as T. split.
    + eapply fields_alive; [apply O|eauto].
    + eapply fields_alive; [apply O'|]. rewrite (fields_stored _ _ _ _ _ E E' T). eauto. }
  intros a H. destruct (G a H) as [A1 A2]. unfold alive in A1, A2.
  destruct (cells h a) as [c|] eqn:E; [|congruence]. destruct (cells h' a) as [c'|] eqn:E'; [|congruence]. eauto 6.
Qed.
Lemma kept_roots : forall R S S' h h', own h S -> own h' S' -> incl R S -> incl R S' ->
  (forall a c c', reach h R a -> cells h a = Some c -> cells h' a = Some c' -> stored c' = stored c) -> kept R h h'.
Proof. intros R S S' h h' O O' I I' K. apply (kept_of R S S'); auto; intros r Ir; eapply own_alive; eauto. Qed.
Lemma kept_refl : forall R S h, own h S -> incl R S -> kept R h h.
Proof. intros R S h O I. apply (kept_roots R S S h h); auto. congruence. Qed.

Lemma field_car : forall h a c x y, strong h -> cells h a = Some c -> body c = KPair x y -> In x (fields_at h a).
Proof. intros h a c x y S E B. unfold fields_at, fields. rewrite E, B, (S _ _ E). cbn; auto. Qed.
Lemma field_cdr : forall h a c x y, strong h -> cells h a = Some c -> body c = KPair x y -> In y (fields_at h a).
Proof. intros h a c x y S E B. unfold fields_at, fields. rewrite E, B, (S _ _ E). cbn; auto. Qed.
Lemma kept_reads : forall R h h' a v, strong h -> kept R h h' -> reach h R a -> reads h a v -> reads h' a v.
Proof.
  intros R h h' a v St K H Rd. revert H. induction Rd as [a c E B|a c E B|a c E B|a c z E B|a c z E B|a c s E B|a c x y v w E B Hx IHx Hy IHy];
    intro H; destruct (K a H) as [c0 [c' [E0 [E' T]]]]; rewrite E in E0; injection E0 as <-;
    apply stored_eq in T; destruct T as [T1 [T2 _]]; rewrite B in T1.
  - eapply reads_nil; eauto.
  - eapply reads_true; eauto.
  - eapply reads_wild; eauto.
  - eapply reads_char; eauto.
  - eapply reads_num; eauto.
  - rewrite <- T2. eapply reads_sym; eauto.
  - rewrite <- T2. eapply reads_pair; eauto.
    + apply IHx. eapply reach_step; [exact H|]. eapply field_car; eauto.
    + apply IHy. eapply reach_step; [exact H|]. eapply field_cdr; eauto.
Qed.
Lemma kept_spine : forall R h h' a p, strong h -> kept R h h' -> reach h R a -> on_spine h' a p -> on_spine h a p.
Proof.
  intros R h h' a p St K H S. revert H. induction S as [a c x y E B|a c x y p E B S IH]; intro H;
    destruct (K a H) as [c0 [c' [E0 [E' T]]]]; rewrite E in E'; injection E' as <-;
    apply stored_eq in T; destruct T as [T1 _]; rewrite B in T1.
  - eapply spine_here; eauto.
  - eapply spine_next; eauto. apply IH. eapply reach_step; [exact H|]. eapply field_cdr; eauto.
Qed.
Lemma spine_reach : forall h R a p, strong h -> reach h R a -> on_spine h a p -> reach h R p.
Proof.
  intros h R a p St H S. revert H. induction S as [a c x y E B|a c x y p E B S IH]; intro H; auto.
  apply IH. eapply reach_step; [exact H|]. eapply field_cdr; eauto.
Qed.

(** The value at a cell is unique. *)
Lemma reads_fun : forall h a v, reads h a v -> forall v', reads h a v' -> v' = v.
Proof.
  intros h a v H. induction H as [a c E B|a c E B|a c E B|a c z E B|a c z E B|a c s E B|a c x y v w E B Hx IHx Hy IHy];
    intros v' H'; inversion H' as [a' c' E' B'|a' c' E' B'|a' c' E' B'|a' c' z' E' B'|a' c' z' E' B'|a' c' s' E' B'|a' c' x' y' u' u2' E' B' Hx' Hy']; subst;
    rewrite E in E'; injection E' as <-; try congruence.
  rewrite B in B'. injection B' as <- <-. rewrite (IHx _ Hx'), (IHy _ Hy'). auto.
Qed.
Lemma reads_alive : forall h a v, reads h a v -> exists c, cells h a = Some c.
Proof. intros h a v H. inversion H; eauto. Qed.

(** ** Cells nothing outside refers to *)

(** A set of cells below [nxt h] that only its own members refer to: neither the
    references [V], nor the value of a global, nor a channel, nor a lost reference. *)
Record clear (h : heap) (S : N -> Prop) (V : list N) : Prop := mkclear {
  c_below : forall a, S a -> (a < nxt h)%N;
  c_in : forall a b, In b (fields_at h a) -> S b -> S a;
  c_held : forall a, In a V -> ~ S a;
  c_glob : forall s kv b, In (s, kv) (binds (aux h)) -> In b (fields_at h kv) -> ~ S b;
  c_lisp : forall a, In a (ichan (aux h) :: ochan (aux h) :: lost (aux h)) -> ~ S a
}.
(** A computation that consumes [V] and gives [V'] cannot reach into such a set. *)
Definition sep (h : heap) (V : list N) (h' : heap) (V' : list N) : Prop :=
  (nxt h <= nxt h')%N /\ forall S, clear h S V -> clear h' S V'.
Lemma sep_refl : forall h V, sep h V h V.
Proof. intros h V. split; [lia|auto]. Qed.
Lemma sep_trans : forall h1 V1 h2 V2 h3 V3, sep h1 V1 h2 V2 -> sep h2 V2 h3 V3 -> sep h1 V1 h3 V3.
Proof. intros h1 V1 h2 V2 h3 V3 [A B] [C D]. split; [lia|auto]. Qed.
Lemma clear_reach : forall h S V a, clear h S V -> reach h V a -> ~ S a.
Proof. intros h S V a C H. induction H as [a I|a b H IH I]; [apply C; auto|]. intro Sb. apply IH. eapply c_in; eauto. Qed.
Lemma clear_sub : forall h S V V', (forall a, In a V' -> reach h V a) -> clear h S V -> clear h S V'.
Proof. intros h S V V' I C. constructor; try apply C. intros a Ia. eapply clear_reach; [exact C|auto]. Qed.
Lemma clear_more : forall h S V W, clear h S V -> (forall a, In a W -> ~ S a) -> clear h S (V ++ W).
Proof.
  intros h S V W [A B D E F] G. constructor; auto. intros a I. apply in_app_or in I. destruct I; auto.
Qed.
(** The rest stays apart. *)
Lemma sep_frame : forall h V h' V' W S, sep h V h' V' -> clear h S W -> (forall a, In a V -> reach h W a) ->
  clear h' S V'.
Proof. intros h V h' V' W S [_ P] C I. apply P. eapply clear_sub; eauto. Qed.

Definition solo (h : heap) (a : N) (O : list N) : Prop := exists S, clear h S O /\
  (forall p, on_spine h a p -> S p) /\
  (forall p c x y, on_spine h a p -> cells h p = Some c -> body c = KPair x y -> ~ S x).

(** ** The state of a simulation *)
Definition says (h : heap) (p : N * atom) : Prop := reads h (fst p) (snd p).
(** Since [h0] (with the references [F] in the frame and borrowed ones [B]), now at
    [h], which stands for [w]; the program holds the references [L] and, besides,
    the lists [P], whose pairs nothing else refers to. *)
Record vat (h0 : heap) (F : list N) (B : list (N * atom)) (V0 : list N) (h : heap) (w : Eval.world)
  (L P : list (N * atom)) : Prop := mkvat {
  v_holds : holds h (heads L ++ heads P ++ F);
  v_L : Forall (says h) L;
  v_P : Forall (says h) P;
  v_B : Forall (fun p => says h p /\ reach h F (fst p)) B;
  v_kept : kept F h0 h;
  v_sep : sep h0 V0 h (heads L ++ heads P ++ heads B);
  v_solo : forall P1 a v P2, P = P1 ++ (a, v) :: P2 -> solo h a (heads L ++ heads (P1 ++ P2) ++ F);
  v_lisp : lisp h w;
  v_open : (opens (aux h0) <= opens (aux h))%N
}.
(** A value that can be read: held by the program or borrowed. *)
Definition avail (h : heap) (L B : list (N * atom)) (a : N) (v : atom) : Prop :=
  reads h a v /\ reach h (heads L ++ heads B) a.

Lemma heads_app : forall l r, heads (l ++ r) = heads l ++ heads r.
Proof. intros. apply map_app. Qed.
Lemma heads_in : forall a v l, In (a, v) l -> In a (heads l).
Proof. intros a v l I. apply in_map_iff. exists (a, v). auto. Qed.

Ltac hperm := let b := fresh "b" in intro b; unfold heads; rewrite ?map_app; cbn [map fst app cnt];
  rewrite ?cnt_app; cbn [map fst app cnt]; rewrite ?cnt_app; lia.
Ltac hown := match goal with H : own ?h _ |- own ?h _ => apply (own_perm _ _ _ H); hperm end.
Ltac hhold := match goal with H : holds ?h _ |- holds ?h _ => apply (holds_perm _ _ _ H); hperm end.

Section Steps.
Variables (h0 : heap) (F : list N) (B : list (N * atom)) (V0 : list N).
Notation at_ := (vat h0 F B V0).

Lemma vat_strong : forall h w L P, at_ h w L P -> strong h.
Proof. intros h w L P H. apply (h_strong _ _ (v_holds _ _ _ _ _ _ _ _ H)). Qed.
Lemma vat_own : forall h w L P, at_ h w L P -> own h ((heads L ++ heads P ++ F) ++ held_by_lisp (aux h)).
Proof. intros h w L P H. apply holds_own. apply H. Qed.
Lemma avail_L : forall h w L P a v, at_ h w L P -> In (a, v) L -> avail h L B a v.
Proof.
  intros h w L P a v H I. split.
  - pose proof (v_L _ _ _ _ _ _ _ _ H) as G. rewrite Forall_forall in G. apply (G (a, v) I).
  - apply reach_root. apply in_or_app. left. eapply heads_in; eauto.
Qed.
Lemma avail_B : forall h w L P a v, at_ h w L P -> In (a, v) B -> avail h L B a v.
Proof.
  intros h w L P a v H I. split.
  - pose proof (v_B _ _ _ _ _ _ _ _ H) as G. rewrite Forall_forall in G. apply (G (a, v) I).
  - apply reach_root. apply in_or_app. right. eapply heads_in; eauto.
Qed.
Lemma avail_held : forall h w L P a v, at_ h w L P -> avail h L B a v -> reach h (heads L ++ heads P ++ F) a.
Proof.
  intros h w L P a v H [_ R]. eapply reach_incl; [|exact R]. intros r I. apply in_app_or in I. destruct I as [I|I].
  - apply reach_root. apply in_or_app. auto.
  - apply in_map_iff in I. destruct I as [p [<- Ip]]. pose proof (v_B _ _ _ _ _ _ _ _ H) as G. rewrite Forall_forall in G.
    destruct (G p Ip) as [_ Rp]. eapply reach_sub; [|exact Rp]. intros x Ix. apply in_or_app. right. apply in_or_app. auto.
Qed.
Lemma avail_alive : forall h w L P a v, at_ h w L P -> avail h L B a v -> alive h a.
Proof. intros h w L P a v H [R _]. destruct (reads_alive _ _ _ R) as [c E]. unfold alive. congruence. Qed.

(** The private lists stay private. *)
Lemma solo_keep : forall h h' a O O' R, strong h -> solo h a O -> kept R h h' -> reach h R a ->
  (forall S, clear h S O -> clear h' S O') -> solo h' a O'.
Proof.
  intros h h' a O O' R St [S [C [Sp Ca]]] K H T. exists S. split; [auto|]. split.
  - intros p Hp. apply Sp. eapply kept_spine; eauto.
  - intros p c x y Hp E Bc. pose proof (kept_spine _ _ _ _ _ St K H Hp) as Hp0.
    destruct (K p (spine_reach _ _ _ _ St H Hp0)) as [c0 [c1 [E0 [E1 T1]]]]. rewrite E in E1. injection E1 as <-.
    apply stored_eq in T1. destruct T1 as [T1 _]. rewrite Bc in T1. eapply Ca; eauto.
Qed.

(** What [V] reaches is not in a set clear of everything else. *)
Lemma clear_avail : forall h w l L P W, at_ h w (l ++ L) P ->
  (forall x, In x W -> reach h (heads (l ++ L) ++ heads B) x) ->
  forall S Q, clear h S (heads (l ++ L) ++ Q ++ F) -> forall x, In x W -> ~ S x.
Proof.
  intros h w l L P W H I S Q C x Ix. eapply clear_reach; [exact C|]. eapply reach_incl; [|apply I; exact Ix].
  intros r Ir. apply in_app_or in Ir. destruct Ir as [Ir|Ir]; [apply reach_root; apply in_or_app; auto|].
  apply in_map_iff in Ir. destruct Ir as [p [<- Ip]]. pose proof (v_B _ _ _ _ _ _ _ _ H) as G. rewrite Forall_forall in G.
  destruct (G p Ip) as [_ Rp]. eapply reach_sub; [|exact Rp]. intros y Iy. apply in_or_app. right. apply in_or_app. auto.
Qed.

(** A step of the program that consumes [l] and gives [l']. *)
Lemma vat_step : forall h w h' w' l l' L P V, at_ h w (l ++ L) P ->
  (forall x, In x V -> reach h (heads (l ++ L) ++ heads B) x) ->
  sep h V h' (heads l') ->
  kept (heads L ++ heads P ++ F) h h' ->
  holds h' (heads (l' ++ L) ++ heads P ++ F) ->
  Forall (says h') l' -> lisp h' w' -> (opens (aux h) <= opens (aux h'))%N ->
  at_ h' w' (l' ++ L) P.
Proof.
  intros h w h' w' l l' L P V H IV SP K HH RL LI OP. pose proof (vat_strong _ _ _ _ H) as St.
  assert (RK : forall x v, In x (heads L ++ heads P ++ F) -> reads h x v -> reads h' x v).
  { intros x v I R. eapply kept_reads; eauto. apply reach_root. auto. }
  assert (KF : kept F h h').
  { eapply kept_sub; [|exact K]. intros x Ix. apply in_or_app. right. apply in_or_app. auto. }
  assert (CL : forall S W, clear h S ((heads l ++ heads L) ++ W) -> (forall x, In x V -> ~ S x) -> clear h' S (heads l')).
  { intros S W C NV. apply SP. destruct C. constructor; auto. }
  constructor; auto.
  - apply Forall_app. split; auto. apply Forall_forall. intros [x v] I. apply RK.
    + apply in_or_app. left. eapply heads_in; eauto.
    + pose proof (v_L _ _ _ _ _ _ _ _ H) as G. rewrite Forall_forall in G. apply (G (x, v)). apply in_or_app. auto.
  - apply Forall_forall. intros [x v] I. apply RK.
    + apply in_or_app. right. apply in_or_app. left. eapply heads_in; eauto.
    + pose proof (v_P _ _ _ _ _ _ _ _ H) as G. rewrite Forall_forall in G. apply (G (x, v) I).
  - apply Forall_forall. intros [x v] I. pose proof (v_B _ _ _ _ _ _ _ _ H) as G. rewrite Forall_forall in G.
    destruct (G _ I) as [R1 R2]. split; [eapply kept_reads; eauto|eapply reach_kept; eauto].
  - eapply kept_trans; [apply H|exact KF].
  - destruct (v_sep _ _ _ _ _ _ _ _ H) as [N1 C1]. destruct SP as [N2 SP]. split; [lia|].
    intros S C. specialize (C1 S C). rewrite heads_app in *.
    assert (NV : forall x, In x V -> ~ S x).
    { intros x Ix. eapply clear_reach; [exact C1|]. eapply reach_sub; [|apply IV; exact Ix].
      intros r Ir. apply in_app_or in Ir.
      destruct Ir as [Ir|Ir]; apply in_or_app; auto. right. apply in_or_app. auto. }
    pose proof (CL S _ C1 NV) as C2. rewrite <- app_assoc. apply clear_more; auto.
    intros a Ia. apply (c_held _ _ _ C1). rewrite <- app_assoc. apply in_or_app. auto.
  - intros P1 a v P2 EP. pose proof (v_solo _ _ _ _ _ _ _ _ H _ _ _ _ EP) as SO.
    assert (Ra : In a (heads L ++ heads P ++ F)).
    { apply in_or_app. right. apply in_or_app. left. rewrite EP, heads_app. apply in_or_app. right. cbn. auto. }
    eapply solo_keep; [exact St|exact SO|exact K|apply reach_root; exact Ra|].
    intros S C. pose proof (clear_avail h w l L P V H IV S _ C) as NV.
    rewrite heads_app in C |- *. pose proof (CL S _ C NV) as C2. rewrite <- app_assoc. apply clear_more; auto.
    intros x Ix. apply (c_held _ _ _ C). rewrite <- app_assoc. apply in_or_app. auto.
  - pose proof (v_open _ _ _ _ _ _ _ _ H). lia.
Qed.

Lemma vat_front : forall h w L1 e L2 P, at_ h w (L1 ++ e :: L2) P -> at_ h w (e :: L1 ++ L2) P.
Proof.
  intros h w L1 e L2 P H. destruct H as [A0 A1 A2 A3 A4 A5 A6 A7 A8].
  assert (I : incl (heads (e :: L1 ++ L2)) (heads (L1 ++ e :: L2))).
  { intros x Ix. apply in_map_iff in Ix. destruct Ix as [p [<- Ip]]. apply in_map. destruct Ip as [<-|Ip]; apply in_or_app; [right; cbn; auto|].
    apply in_app_or in Ip. destruct Ip; cbn; auto. }
  constructor; auto.
  - eapply holds_perm; [exact A0|]. intro b. rewrite !cnt_app. unfold heads. cbn [map cnt]. rewrite !map_app, !cnt_app. cbn [map cnt]. lia.
  - rewrite Forall_forall in *. intros p Ip. apply A1. destruct Ip as [<-|Ip]; apply in_or_app; [right; cbn; auto|].
    apply in_app_or in Ip. destruct Ip; cbn; auto.
  - destruct A5 as [N1 C1]. split; auto. intros S C. eapply clear_sub; [|apply C1; exact C].
    intros a Ia. apply reach_root. apply in_app_or in Ia. apply in_or_app. destruct Ia; auto.
  - intros P1 a v P2 EP. destruct (A6 _ _ _ _ EP) as [S [C R]]. exists S. split; auto.
    eapply clear_sub; [|exact C]. intros x Ix. apply reach_root. apply in_app_or in Ix. apply in_or_app. destruct Ix; auto.
Qed.
Lemma vat_swap : forall h w L e1 e2 P, at_ h w L (e1 :: e2 :: P) -> at_ h w L (e2 :: e1 :: P).
Proof.
  intros h w L e1 e2 P H. destruct H as [A0 A1 A2 A3 A4 A5 A6 A7 A8]. constructor; auto.
  - eapply holds_perm; [exact A0|]. intro b. unfold heads. cbn [map]. rewrite !cnt_app. cbn [app cnt]. rewrite ?cnt_app. lia.
  - inversion A2 as [|? ? X1 X2]; subst. inversion X2; subst. constructor; auto.
  - destruct A5 as [N1 C1]. split; auto. intros S C. eapply clear_sub; [|apply C1; exact C].
    intros a Ia. apply reach_root. apply in_app_or in Ia. apply in_or_app. destruct Ia as [|Ia]; auto. right. cbn in *. tauto.
  - intros P1 a v P2 EP.
    assert (G : exists P1' P2', e1 :: e2 :: P = P1' ++ (a, v) :: P2' /\ incl (heads (P1 ++ P2)) (heads (P1' ++ P2'))).
    { destruct P1 as [|x P1]; cbn in EP.
      - injection EP as -> <-. exists [e1], P. split; auto. apply incl_refl.
      - injection EP as <- EP. destruct P1 as [|x P1]; cbn in EP.
        + injection EP as -> <-. exists [], (e2 :: P). split; auto. apply incl_refl.
        + injection EP as <- ->. exists (e1 :: e2 :: P1), P2. split; auto. intros b Ib. cbn in *. tauto. }
    destruct G as [P1' [P2' [E I]]]. destruct (A6 _ _ _ _ E) as [S [C R]]. exists S. split; auto.
    eapply clear_sub; [|exact C]. intros x Ix. apply reach_root. apply in_app_or in Ix. apply in_or_app. destruct Ix as [|Ix]; auto.
    right. apply in_app_or in Ix. apply in_or_app. destruct Ix; auto.
Qed.
(** A private list may be held like any other reference. *)
Lemma vat_demote : forall h w L e P, at_ h w L (e :: P) -> at_ h w (e :: L) P.
Proof.
  intros h w L e P H. destruct H as [A0 A1 A2 A3 A4 A5 A6 A7 A8]. inversion A2 as [|? ? X1 X2]; subst. constructor; auto.
  - eapply holds_perm; [exact A0|]. intro b. unfold heads. cbn [map]. rewrite !cnt_app. cbn [app cnt]. rewrite ?cnt_app. lia.
  - destruct A5 as [N1 C1]. split; auto. intros S C. eapply clear_sub; [|apply C1; exact C].
    intros a Ia. apply reach_root. cbn in Ia. apply in_or_app. destruct Ia as [Ia|Ia]; [right; cbn; auto|].
    apply in_app_or in Ia. destruct Ia; auto. right. cbn. auto.
  - intros P1 a v P2 EP. destruct (A6 (e :: P1) a v P2) as [S [C R]]; [rewrite EP; auto|]. exists S. split; auto.
    eapply clear_sub; [|exact C]. intros x Ix. apply reach_root. cbn in Ix |- *. apply in_or_app.
    destruct Ix as [Ix|Ix]; [right; cbn; auto|]. apply in_app_or in Ix. destruct Ix as [Ix|Ix]; auto. right. cbn. auto.
Qed.
(** A list nothing else refers to. *)
Lemma vat_promote : forall h w L a v P, solo h a (heads L ++ heads P ++ F) -> at_ h w ((a, v) :: L) P -> at_ h w L ((a, v) :: P).
Proof.
  intros h w L a v P SO H. destruct H as [A0 A1 A2 A3 A4 A5 A6 A7 A8]. inversion A1 as [|? ? X1 X2]; subst. constructor; auto.
  - eapply holds_perm; [exact A0|]. intro b. unfold heads. cbn [map]. rewrite !cnt_app. cbn [app cnt]. rewrite ?cnt_app. lia.
  - destruct A5 as [N1 C1]. split; auto. intros S C. eapply clear_sub; [|apply C1; exact C].
    intros x Ix. apply reach_root. cbn. apply in_app_or in Ix. destruct Ix as [Ix|Ix]; [right; apply in_or_app; auto|].
    cbn in Ix. destruct Ix as [Ix|Ix]; auto. right. apply in_or_app. auto.
  - intros P1 a1 v1 P2 EP. destruct P1 as [|x P1]; cbn in EP.
    + injection EP as <- <- <-. exact SO.
    + injection EP as <- ->. destruct (A6 _ _ _ _ eq_refl) as [S [C R]]. exists S. split; auto.
      eapply clear_sub; [|exact C]. intros x Ix. apply reach_root. apply in_app_or in Ix. cbn. destruct Ix as [Ix|Ix].
      * right. apply in_or_app. auto.
      * cbn in Ix. destruct Ix as [Ix|Ix]; auto. right. apply in_or_app. auto.
Qed.
(** A leaf is a list without pairs. *)
Lemma vat_leaf : forall h w L a v P, is_pair v = false -> at_ h w ((a, v) :: L) P -> at_ h w L ((a, v) :: P).
Proof.
  intros h w L a v P NP H. apply vat_promote; auto. pose proof (v_L _ _ _ _ _ _ _ _ H) as A1. inversion A1 as [|? ? X1 X2]; subst.
  exists (fun _ => False). split; [constructor; tauto|].
  assert (NS : forall p, on_spine h a p -> False).
  { intros p Sp. unfold says in X1. cbn in X1. inversion X1; subst; try discriminate; inversion Sp; subst; congruence. }
  split; [auto|]. intros p c x y Sp. destruct (NS p Sp).
Qed.
End Steps.
