(** * Shared-memory threads: the semantics used for the OpenMP loops.
    A thread is a program that reads and writes cells of shared arrays one at a time; everything
    else is local computation.  Tasks compose threads sequentially and in parallel (nested, to any
    depth).  One step of a task performs ONE memory access of ONE of its running threads, chosen
    arbitrarily: every interleaving of the individual accesses is a sequence of steps.  An access
    outside an array, and a local failure (UB, failed assert, exception), make the thread stuck. *)
From Verif Require Import Base BaseLemmas.
From Coq Require Import Permutation.

Lemma upd_upd_eq {A} (v : list A) i x y : upd (upd v i x) i y = upd v i y.
Proof. revert i; induction v as [|a v IH]; intros [|i]; cbn; auto. now rewrite IH. Qed.
Lemma upd_upd_comm {A} (v : list A) i j x y : i <> j -> upd (upd v i x) j y = upd (upd v j y) i x.
Proof. revert i j; induction v as [|a v IH]; intros [|i] [|j] H; cbn; auto; [lia|]. rewrite IH; auto. Qed.

Section Conc.
Context {F : Type}.

(** cell i of array a *)
Definition cell := (nat * nat)%type.
Definition mem := list (list F).
Definition rd (m : mem) (c : cell) : option F :=
  match nth_error m (fst c) with Some v => nth_error v (snd c) | None => None end.
Definition wt (m : mem) (c : cell) (x : F) : mem :=
  match nth_error m (fst c) with Some v => upd m (fst c) (upd v (snd c) x) | None => m end.

Inductive prog := Ret | Rd (c : cell) (k : F -> prog) | Wr (c : cell) (x : F) (p : prog) | Err.
Inductive task := TRun (p : prog) | TSeq (t u : task) | TPar (t u : task).

(** one access *)
Inductive lab := LTau | LRd (c : cell) (x : F) | LWr (c : cell) (x : F).
Inductive act : lab -> mem -> mem -> Prop :=
| a_tau m : act LTau m m
| a_rd m c x : rd m c = Some x -> act (LRd c x) m m
| a_wr m c x : rd m c <> None -> act (LWr c x) m (wt m c x).
Inductive lstep : task -> lab -> task -> Prop :=
| l_rd c k x : lstep (TRun (Rd c k)) (LRd c x) (TRun (k x))
| l_wr c x p : lstep (TRun (Wr c x p)) (LWr c x) (TRun p)
| l_seq t l t' u : lstep t l t' -> lstep (TSeq t u) l (TSeq t' u)
| l_next u : lstep (TSeq (TRun Ret) u) LTau u
| l_par1 t l t' u : lstep t l t' -> lstep (TPar t u) l (TPar t' u)
| l_par2 t u l u' : lstep u l u' -> lstep (TPar t u) l (TPar t u')
| l_join : lstep (TPar (TRun Ret) (TRun Ret)) LTau (TRun Ret).
Definition config := (task * mem)%type.
Definition step (c c' : config) : Prop := exists l, lstep (fst c) l (fst c') /\ act l (snd c) (snd c').
Inductive steps : nat -> config -> config -> Prop :=
| st_0 c : steps 0 c c
| st_S n c c' c'' : step c c' -> steps n c' c'' -> steps (S n) c c''.

(** ** Footprints and races *)
Fixpoint fp (R W : cell -> Prop) (p : prog) : Prop :=
  match p with
  | Ret | Err => True
  | Rd c k => (R c \/ W c) /\ forall x, fp R W (k x)
  | Wr c x p => W c /\ fp R W p
  end.
Fixpoint fpt (R W : cell -> Prop) (t : task) : Prop :=
  match t with TRun p => fp R W p | TSeq t u | TPar t u => fpt R W t /\ fpt R W u end.
(** no cell is written by one and accessed by the other *)
Definition apart (R1 W1 R2 W2 : cell -> Prop) : Prop :=
  forall c, (W1 c -> ~ R2 c /\ ~ W2 c) /\ (W2 c -> ~ R1 c /\ ~ W1 c).
Fixpoint race_free (t : task) : Prop :=
  match t with
  | TRun _ => True
  | TSeq t u => race_free t /\ race_free u
  | TPar t u => race_free t /\ race_free u /\
      exists R1 W1 R2 W2, fpt R1 W1 t /\ fpt R2 W2 u /\ apart R1 W1 R2 W2
  end.

Lemma fpt_step R W t l t' : lstep t l t' -> fpt R W t ->
  fpt R W t' /\ match l with LTau => True | LRd c _ => R c \/ W c | LWr c _ => W c end.
Proof.
  induction 1; cbn.
  - intros [A B]. auto.
  - intros [A B]; auto.
  - intros [A B]. destruct (IHlstep A). auto.
  - intros [A B]. auto.
  - intros [A B]. destruct (IHlstep A). auto.
  - intros [A B]. destruct (IHlstep B). auto.
  - auto.
Qed.
Lemma race_free_step t l t' : lstep t l t' -> race_free t -> race_free t'.
Proof.
  induction 1; cbn; auto.
  - intros [A B]; auto.
  - intros [A B]; auto.
  - intros (A & B & R1 & W1 & R2 & W2 & F1 & F2 & D). repeat split; auto. exists R1, W1, R2, W2. split; auto.
    eapply fpt_step; eauto.
  - intros (A & B & R1 & W1 & R2 & W2 & F1 & F2 & D). repeat split; auto. exists R1, W1, R2, W2. split; auto. split; auto.
    eapply fpt_step; eauto.
Qed.

(** two labels without conflict *)
Definition indep (l1 l2 : lab) : Prop :=
  match l1, l2 with
  | LTau, _ | _, LTau | LRd _ _, LRd _ _ => True
  | LRd c _, LWr c' _ | LWr c _, LRd c' _ | LWr c _, LWr c' _ => c <> c'
  end.

Lemma rd_wt_same m c x : rd m c <> None -> rd (wt m c x) c = Some x.
Proof.
  unfold rd, wt. destruct (nth_error m (fst c)) as [v|] eqn:E; [|congruence]. intros H.
  assert (fst c < length m) by (apply nth_error_Some; congruence).
  rewrite nth_error_upd_eq by auto. rewrite nth_error_upd_eq; auto. now apply nth_error_Some.
Qed.
Lemma rd_wt_other m c c' x : c <> c' -> rd (wt m c x) c' = rd m c'.
Proof.
  unfold rd, wt. intros H. destruct (nth_error m (fst c)) as [v|] eqn:E; auto.
  destruct (Nat.eq_dec (fst c) (fst c')) as [e|n].
  - assert (fst c < length m) by (apply nth_error_Some; congruence).
    rewrite <- e, nth_error_upd_eq by auto. rewrite E. rewrite nth_error_upd_neq; auto.
    intros e'. apply H. destruct c, c'; cbn in *; congruence.
  - rewrite nth_error_upd_neq by auto. reflexivity.
Qed.
Lemma wt_wt_comm m c x c' x' : c <> c' -> wt (wt m c x) c' x' = wt (wt m c' x') c x.
Proof.
  intros H. unfold wt.
  destruct (nth_error m (fst c)) as [v|] eqn:E, (nth_error m (fst c')) as [v'|] eqn:E'; rewrite ?E, ?E'; auto.
  - assert (L : fst c < length m) by (apply nth_error_Some; congruence).
    assert (L' : fst c' < length m) by (apply nth_error_Some; congruence).
    destruct (Nat.eq_dec (fst c) (fst c')) as [e|n].
    + rewrite e in *. rewrite E in E'. injection E' as <-. rewrite !nth_error_upd_eq by auto.
      rewrite !upd_upd_eq. f_equal. apply upd_upd_comm. intros e'. apply H. destruct c, c'; cbn in *; congruence.
    + rewrite !nth_error_upd_neq by auto. rewrite E, E'. now apply upd_upd_comm.
  - destruct (Nat.eq_dec (fst c) (fst c')) as [e|n]; [rewrite e in E; congruence|]. now rewrite nth_error_upd_neq, E' by auto.
  - destruct (Nat.eq_dec (fst c) (fst c')) as [e|n]; [rewrite e in E; congruence|]. now rewrite nth_error_upd_neq, E by auto.
Qed.
Lemma rd_wt_none m c c' x : rd m c <> None -> rd (wt m c' x) c <> None.
Proof.
  intros H. destruct (Nat.eq_dec (fst c') (fst c)) as [e|n].
  - destruct (Nat.eq_dec (snd c') (snd c)) as [e'|n'].
    + assert (c' = c) as -> by (destruct c, c'; cbn in *; congruence). rewrite rd_wt_same; auto. congruence.
    + rewrite rd_wt_other; auto. congruence.
  - rewrite rd_wt_other; auto. congruence.
Qed.
Lemma act_comm l1 l2 m m1 m2 : act l1 m m1 -> act l2 m m2 -> indep l1 l2 ->
  exists m3, act l2 m1 m3 /\ act l1 m2 m3.
Proof.
  intros A1 A2 I. inversion A1; inversion A2; subst; cbn in I.
  1-3: eexists; split; [eassumption|]; constructor; auto.
  - exists m2. split; constructor; auto.
  - exists m2. split; constructor; auto.
  - eexists. split; [constructor; assumption|]. constructor. rewrite rd_wt_other; auto.
  - eexists. split; [constructor|]. now constructor.
  - eexists. split; [constructor; now rewrite rd_wt_other|]. now constructor.
  - exists (wt (wt m c x) c0 x0). split; [constructor; now apply rd_wt_none|]. rewrite wt_wt_comm by auto.
    constructor. now apply rd_wt_none.
Qed.

Lemma ret_final l t : ~ lstep (TRun Ret) l t.
Proof. inversion 1. Qed.
(** two possible steps: the same, or independent and permutable *)
Lemma lstep_diamond t : race_free t -> forall l1 t1 l2 t2, lstep t l1 t1 -> lstep t l2 t2 ->
  (match l1, l2 with LRd c x, LRd c' x' => c = c' /\ (x = x' -> t1 = t2) | _, _ => l1 = l2 /\ t1 = t2 end) \/
  (indep l1 l2 /\ exists t3, lstep t1 l2 t3 /\ lstep t2 l1 t3).
Proof.
  induction t as [p|t IHt u IHu|t IHt u IHu]; intros RF l1 t1 l2 t2 S1 S2.
  - left. inversion S1; subst; inversion S2; subst; auto. split; auto. intros ->. auto.
  - destruct RF as [RF1 RF2]. inversion S1; subst; inversion S2; subst.
    + match goal with A : lstep t l1 _, B : lstep t l2 _ |- _ => destruct (IHt RF1 _ _ _ _ A B) as [E|(I & t3 & A' & B')] end.
      * left. destruct l1, l2; try (destruct E; subst; split; auto; fail); try (destruct E as [E1 E2]; split; auto; intros e; now rewrite (E2 e)).
        all: destruct E as [E1 E2]; try discriminate; split; auto; try (intros e; now rewrite (E2 e)); now rewrite E2.
      * right. split; auto. exists (TSeq t3 u). split; now constructor.
    + exfalso; eapply ret_final; eauto.
    + exfalso; eapply ret_final; eauto.
    + left. auto.
  - destruct RF as (RF1 & RF2 & R1 & W1 & R2 & W2 & F1 & F2 & D).
    assert (IND : forall la ta lb tb, lstep t la ta -> lstep u lb tb -> indep la lb).
    { intros la ta lb tb Sa Sb. destruct (fpt_step _ _ _ _ _ Sa F1) as [_ A]. destruct (fpt_step _ _ _ _ _ Sb F2) as [_ B].
      destruct la, lb; cbn; auto; intros ->; destruct (D c0) as [D1 D2]; tauto. }
    assert (SYM : forall la lb, indep la lb -> indep lb la).
    { intros [] []; cbn; auto. }
    inversion S1; subst; inversion S2; subst.
    + match goal with A : lstep t l1 _, B : lstep t l2 _ |- _ => destruct (IHt RF1 _ _ _ _ A B) as [E|(I & t3 & A' & B')] end.
      * left. destruct l1, l2; try (destruct E; subst; split; auto; fail); try (destruct E as [E1 E2]; split; auto; intros e; now rewrite (E2 e)).
        all: destruct E as [E1 E2]; try discriminate; split; auto; try (intros e; now rewrite (E2 e)); now rewrite E2.
      * right. split; auto. exists (TPar t3 u). split; now constructor.
    + right. split; [eapply IND; eauto|]. exists (TPar t' u'). split; now constructor.
    + exfalso; eapply ret_final; eauto.
    + right. split; [apply SYM; eapply IND; eauto|]. exists (TPar t' u'). split; now constructor.
    + match goal with A : lstep u l1 _, B : lstep u l2 _ |- _ => destruct (IHu RF2 _ _ _ _ A B) as [E|(I & t3 & A' & B')] end.
      * left. destruct l1, l2; try (destruct E; subst; split; auto; fail); try (destruct E as [E1 E2]; split; auto; intros e; now rewrite (E2 e)).
        all: destruct E as [E1 E2]; try discriminate; split; auto; try (intros e; now rewrite (E2 e)); now rewrite E2.
      * right. split; auto. exists (TPar t t3). split; now constructor.
    + exfalso; eapply ret_final; eauto.
    + exfalso; eapply ret_final; eauto.
    + exfalso; eapply ret_final; eauto.
    + left. auto.
Qed.
Lemma step_diamond c c1 c2 : race_free (fst c) -> step c c1 -> step c c2 ->
  c1 = c2 \/ exists c3, step c1 c3 /\ step c2 c3.
Proof.
  intros RF (l1 & S1 & A1) (l2 & S2 & A2).
  destruct (lstep_diamond _ RF _ _ _ _ S1 S2) as [E|(I & t3 & B1 & B2)].
  - left. destruct c as [t m], c1 as [t1 m1], c2 as [t2 m2]; cbn in *.
    inversion A1; inversion A2; subst; try (destruct E; try discriminate; subst; congruence).
    + destruct E as [-> E]. assert (x = x0) as -> by congruence. now rewrite E.
  - right. destruct (act_comm _ _ _ _ _ A1 A2 I) as (m3 & C1 & C2).
    exists (t3, m3). split; [exists l2|exists l1]; auto.
Qed.

(** ** All runs of a race-free task agree *)
Definition done (m : mem) : config := (TRun Ret, m).
Lemma done_final m c : ~ step (done m) c.
Proof. intros (l & S & _). eapply ret_final; eauto. Qed.
Lemma steps_race_free n c c' : steps n c c' -> race_free (fst c) -> race_free (fst c').
Proof. induction 1 as [|n c c' c'' (l & S & _)]; auto. intros RF. apply IHsteps. eapply race_free_step; eauto. Qed.
Lemma strip n c m : race_free (fst c) -> steps n c (done m) -> forall c', step c c' -> exists k, n = S k /\ steps k c' (done m).
Proof.
  revert c. induction n as [|n IH]; intros c RF S c' S'.
  - inversion S; subst. exfalso. eapply done_final; eauto.
  - inversion S as [|? ? c1 ? Sc1 Sn]; subst.
    exists n. split; auto. destruct (step_diamond c c1 c' RF Sc1 S') as [->|(c3 & A & B)]; auto.
    assert (RF1 : race_free (fst c1)) by (destruct Sc1 as (l & L & _); eapply race_free_step; eauto).
    destruct (IH c1 RF1 Sn c3 A) as (k & -> & Sk). now apply st_S with c3.
Qed.
Theorem race_free_deterministic n t m m' : race_free t -> steps n (t, m) (done m') ->
  forall k c, steps k (t, m) c -> k <= n /\ steps (n - k) c (done m').
Proof.
  intros RF S k c Sk. remember (t, m) as c0. assert (RF0 : race_free (fst c0)) by now subst.
  clear Heqc0 RF t m. revert n S. induction Sk as [c|k c c1 c2 S1 Sk IH]; intros n S.
  - rewrite Nat.sub_0_r. split; auto. lia.
  - destruct (strip n c m' RF0 S c1 S1) as (j & -> & Sj).
    assert (RF1 : race_free (fst c1)) by (destruct S1 as (l & L & _); eapply race_free_step; eauto).
    destruct (IH RF1 j Sj) as [A B]. split; [lia|]. exact B.
Qed.

(** ** Running one thread after the other *)
Fixpoint run (p : prog) (m : mem) : option mem :=
  match p with
  | Ret => Some m
  | Rd c k => match rd m c with Some x => run (k x) m | None => None end
  | Wr c x p => match rd m c with Some _ => run p (wt m c x) | None => None end
  | Err => None
  end.
Fixpoint lrun (t : task) (m : mem) : option mem :=
  match t with
  | TRun p => run p m
  | TSeq t u | TPar t u => match lrun t m with Some m' => lrun u m' | None => None end
  end.
Lemma steps_trans n k c c' c'' : steps n c c' -> steps k c' c'' -> steps (n + k) c c''.
Proof. induction 1; intros; auto. cbn. eapply st_S; eauto. Qed.
Lemma steps_ctx (C : task -> task) : (forall t l t', lstep t l t' -> lstep (C t) l (C t')) ->
  forall n c c', steps n c c' -> steps n (C (fst c), snd c) (C (fst c'), snd c').
Proof.
  intros H n c c' S. induction S as [|n c c' c'' (l & L & A) S IH]; [constructor|].
  eapply st_S; [|exact IH]. exists l. split; auto. now apply H.
Qed.
Lemma run_steps p m m' : run p m = Some m' -> exists n, steps n (TRun p, m) (done m').
Proof.
  revert m. induction p as [|c k IH|c x p IH|]; intros m H; cbn in H.
  - injection H as <-. exists 0. constructor.
  - destruct (rd m c) as [x|] eqn:E; [|discriminate]. destruct (IH x m H) as (n & S). exists (Datatypes.S n).
    eapply st_S; [|exact S]. exists (LRd c x). split; constructor; auto.
  - destruct (rd m c) as [y|] eqn:E; [|discriminate]. destruct (IH _ H) as (n & S). exists (Datatypes.S n).
    eapply st_S; [|exact S]. exists (LWr c x). split; [apply l_wr|apply a_wr; cbn; congruence].
  - discriminate.
Qed.
Lemma lrun_steps t m m' : lrun t m = Some m' -> exists n, steps n (t, m) (done m').
Proof.
  revert m m'. induction t as [p|t IHt u IHu|t IHt u IHu]; intros m m' H; cbn in H.
  - now apply run_steps.
  - destruct (lrun t m) as [m1|] eqn:E; [|discriminate]. destruct (IHt _ _ E) as (n & S). destruct (IHu _ _ H) as (k & S').
    exists (n + (1 + k)). eapply steps_trans; [exact (steps_ctx (fun t => TSeq t u) (fun t l t' H => l_seq t l t' u H) _ _ _ S)|].
    eapply st_S; [|exact S']. exists LTau. split; constructor.
  - destruct (lrun t m) as [m1|] eqn:E; [|discriminate]. destruct (IHt _ _ E) as (n & S). destruct (IHu _ _ H) as (k & S').
    exists (n + (k + 1)). eapply steps_trans; [exact (steps_ctx (fun t => TPar t u) (fun t l t' H => l_par1 t l t' u H) _ _ _ S)|].
    eapply steps_trans; [exact (steps_ctx (fun u => TPar (TRun Ret) u) (fun u l u' H => l_par2 (TRun Ret) u l u' H) _ _ _ S')|].
    eapply st_S; [|constructor]. exists LTau. split; constructor.
Qed.

(** every execution of [t] from [m] terminates in [m'], none gets stuck *)
Definition always (t : task) (m m' : mem) : Prop :=
  exists n, steps n (t, m) (done m') /\
    forall k c, steps k (t, m) c -> k <= n /\ steps (n - k) c (done m').
Theorem race_free_always t m m' : race_free t -> lrun t m = Some m' -> always t m m'.
Proof.
  intros RF H. destruct (lrun_steps _ _ _ H) as (n & S). exists n. split; auto. now apply race_free_deterministic.
Qed.
Lemma always_stuck t m m' k c : always t m m' -> steps k (t, m) c -> (forall c', ~ step c c') -> c = done m'.
Proof.
  intros (n & _ & H) S N. destruct (H k c S) as [_ S']. inversion S'; subst; auto. exfalso. eapply N; eauto.
Qed.

(** ** Parallel loops: iterations dealt to threads in any way *)
Definition tseq (ps : list prog) : task := fold_right (fun p t => TSeq (TRun p) t) (TRun Ret) ps.
Definition tpar (ts : list task) : task := fold_right TPar (TRun Ret) ts.
(** [t] executes the iterations [its]: a team of threads, each doing its share in its own order *)
Definition par_for {I : Type} (its : list I) (body : I -> prog) (t : task) : Prop :=
  exists chunks, Permutation (concat chunks) its /\ t = tpar (map (fun ch => tseq (map body ch)) chunks).

Fixpoint frun (ps : list prog) (m : mem) : option mem :=
  match ps with [] => Some m | p :: ps => match run p m with Some m' => frun ps m' | None => None end end.
Lemma frun_app ps qs m : frun (ps ++ qs) m = match frun ps m with Some m' => frun qs m' | None => None end.
Proof. revert m; induction ps as [|p ps IH]; intros m; cbn; auto. destruct (run p m); auto. Qed.
Lemma lrun_tseq ps m : lrun (tseq ps) m = frun ps m.
Proof. revert m; induction ps as [|p ps IH]; intros m; cbn; auto. destruct (run p m); auto. Qed.
Lemma lrun_tpar ts m : lrun (tpar ts) m = fold_left (fun o t => match o with Some m => lrun t m | None => None end) ts (Some m).
Proof.
  revert m; induction ts as [|t ts IH]; intros m; cbn; auto. destruct (lrun t m); cbn; auto.
  clear. induction ts; cbn; auto.
Qed.
Lemma lrun_chunks {I} (body : I -> prog) chunks m :
  lrun (tpar (map (fun ch => tseq (map body ch)) chunks)) m = frun (map body (concat chunks)) m.
Proof.
  revert m; induction chunks as [|ch chunks IH]; intros m; cbn [concat map]; auto.
  rewrite map_app, frun_app. cbn. rewrite lrun_tseq. destruct (frun (map body ch) m); auto.
Qed.

(** frame and commutation for whole threads *)
Lemma run_outside R W p : fp R W p -> forall m m', run p m = Some m' -> forall c, ~ W c -> rd m' c = rd m c.
Proof.
  induction p as [|c k IH|c x p IH|]; cbn; intros Hp m m' H c' Hc.
  - now injection H as <-.
  - destruct (rd m c) as [x|]; [|discriminate]. destruct Hp as [_ Hp]. eapply IH; eauto.
  - destruct (rd m c) as [y|]; [|discriminate]. destruct Hp as [Hw Hp]. rewrite (IH Hp _ _ H _ Hc).
    apply rd_wt_other. congruence.
  - discriminate.
Qed.
Lemma run_frame R W p : fp R W p -> forall m m' c x, ~ R c -> ~ W c -> run p m = Some m' -> run p (wt m c x) = Some (wt m' c x).
Proof.
  induction p as [|c k IH|c y p IH|]; cbn; intros Hp m m' c' x HR HW H.
  - now injection H as <-.
  - destruct Hp as [Hc Hp]. destruct (rd m c) as [z|] eqn:E; [|discriminate].
    rewrite rd_wt_other, E by (intros ->; tauto). eapply IH; eauto.
  - destruct Hp as [Hc Hp]. destruct (rd m c) as [z|] eqn:E; [|discriminate].
    rewrite rd_wt_other, E by (intros ->; tauto). rewrite wt_wt_comm by (intros ->; tauto). eapply IH; eauto.
  - discriminate.
Qed.
Lemma run_comm R1 W1 R2 W2 p q : fp R1 W1 p -> fp R2 W2 q -> apart R1 W1 R2 W2 ->
  forall m m1 m2, run p m = Some m1 -> run q m1 = Some m2 -> exists m1', run q m = Some m1' /\ run p m1' = Some m2.
Proof.
  intros Hp Hq D. revert Hq. induction q as [|c k IH|c y q IH|]; cbn; intros Hq m m1 m2 E1 E2.
  - injection E2 as <-. eauto.
  - destruct Hq as [Hc Hq]. rewrite (run_outside R1 W1 p Hp _ _ E1 c) in E2 by (destruct (D c); tauto).
    destruct (rd m c) as [x|]; [|discriminate]. eapply IH; eauto.
  - destruct Hq as [Hc Hq]. rewrite (run_outside R1 W1 p Hp _ _ E1 c) in E2 by (destruct (D c); tauto).
    destruct (rd m c) as [x|]; [|discriminate]. eapply IH; eauto. eapply run_frame; eauto; destruct (D c); tauto.
  - discriminate.
Qed.

Section ParFor.
Context {I : Type}.
Variables (body : I -> prog) (R W : I -> cell -> Prop).
Hypothesis Hfp : forall i, fp (R i) (W i) (body i).

Lemma frun_perm its its' : Permutation its its' -> NoDup its ->
  (forall i j, In i its -> In j its -> i <> j -> apart (R i) (W i) (R j) (W j)) ->
  forall m m', frun (map body its) m = Some m' -> frun (map body its') m = Some m'.
Proof.
  induction 1 as [|i l l' P IH|i j l|l l' l'' P1 IH1 P2 IH2]; intros ND D m m' H; auto.
  - cbn in *. inversion ND; subst. destruct (run (body i) m) as [m1|]; [|discriminate]. apply IH; auto.
  - cbn in *. inversion ND as [|? ? N1 N2]; subst. destruct (run (body j) m) as [m1|] eqn:E1; [|discriminate].
    destruct (run (body i) m1) as [m2|] eqn:E2; [|discriminate].
    destruct (run_comm (R j) (W j) (R i) (W i) (body j) (body i) (Hfp j) (Hfp i)) with (m := m) (m1 := m1) (m2 := m2) as (m1' & A & B); auto.
    + apply D; auto. intros ->. apply N1. now left.
    + now rewrite A, B.
  - apply IH2; auto.
    + eapply Permutation_NoDup; eauto.
    + intros a c Ha Hc. apply D; eapply Permutation_in; try apply Permutation_sym; eauto.
Qed.

Definition RU (l : list I) (c : cell) : Prop := exists i, In i l /\ R i c.
Definition WU (l : list I) (c : cell) : Prop := exists i, In i l /\ W i c.
Lemma fp_mono (R1 W1 R2 W2 : cell -> Prop) p : (forall c, R1 c -> R2 c) -> (forall c, W1 c -> W2 c) -> fp R1 W1 p -> fp R2 W2 p.
Proof.
  intros HR HW. induction p; cbn; auto.
  - intros [[A|A] B]; split; auto.
  - intros [A B]; auto.
Qed.
Lemma fpt_mono (R1 W1 R2 W2 : cell -> Prop) t : (forall c, R1 c -> R2 c) -> (forall c, W1 c -> W2 c) -> fpt R1 W1 t -> fpt R2 W2 t.
Proof.
  intros HR HW. induction t; cbn.
  - now apply fp_mono.
  - intros [A B]; auto.
  - intros [A B]; auto.
Qed.
Lemma fpt_tseq l : fpt (RU l) (WU l) (tseq (map body l)).
Proof.
  induction l as [|i l IH]; cbn; auto. split.
  - eapply fp_mono; [| |apply (Hfp i)]; intros c Hc; exists i; split; auto; now left.
  - eapply fpt_mono; [| |exact IH]; intros c (j & A & B); exists j; split; auto; now right.
Qed.
Lemma race_free_tseq ps : race_free (tseq ps).
Proof. induction ps; cbn; auto. Qed.
Lemma fpt_chunks chunks : fpt (RU (concat chunks)) (WU (concat chunks)) (tpar (map (fun ch => tseq (map body ch)) chunks)).
Proof.
  induction chunks as [|ch chunks IH]; cbn; auto. split.
  - eapply fpt_mono; [| |apply fpt_tseq]; intros c (j & A & B); exists j; split; auto; apply in_or_app; now left.
  - eapply fpt_mono; [| |exact IH]; intros c (j & A & B); exists j; split; auto; apply in_or_app; now right.
Qed.
Lemma nodup_app_disj {A} (l l' : list A) x : NoDup (l ++ l') -> In x l -> In x l' -> False.
Proof.
  induction l as [|a l IH]; cbn; auto. intros ND [->|H] H'; inversion ND; subst; [|eauto].
  apply H1. apply in_or_app. now right.
Qed.
Lemma nodup_app_r {A} (l l' : list A) : NoDup (l ++ l') -> NoDup l'.
Proof. induction l; cbn; auto. intros H; inversion H; auto. Qed.
Lemma race_free_chunks chunks : NoDup (concat chunks) ->
  (forall i j, In i (concat chunks) -> In j (concat chunks) -> i <> j -> apart (R i) (W i) (R j) (W j)) ->
  race_free (tpar (map (fun ch => tseq (map body ch)) chunks)).
Proof.
  induction chunks as [|ch chunks IH]; cbn [concat map tpar fold_right race_free]; auto. intros ND D. split; [apply race_free_tseq|]. split.
  - apply IH; [eapply nodup_app_r; eauto|]. intros i j Hi Hj. apply D; apply in_or_app; auto.
  - exists (RU ch), (WU ch), (RU (concat chunks)), (WU (concat chunks)). split; [apply fpt_tseq|]. split; [apply fpt_chunks|].
    assert (K : forall i j, In i ch -> In j (concat chunks) -> apart (R i) (W i) (R j) (W j)).
    { intros i j Hi Hj. apply D; try (apply in_or_app; auto; fail). intros ->. eapply nodup_app_disj; eauto. }
    intros c. split; intros (i & Hi & Hw); split; intros (j & Hj & Hx); destruct (K _ _ ltac:(eassumption) ltac:(eassumption) c); tauto.
Qed.

Lemma par_for_lrun its t m m' : par_for its body t -> NoDup its ->
  (forall i j, In i its -> In j its -> i <> j -> apart (R i) (W i) (R j) (W j)) ->
  frun (map body its) m = Some m' -> lrun t m = Some m'.
Proof.
  intros (chunks & P & ->) ND D H. rewrite lrun_chunks. apply (frun_perm its); auto. now apply Permutation_sym.
Qed.
Lemma par_for_race_free its t : par_for its body t -> NoDup its ->
  (forall i j, In i its -> In j its -> i <> j -> apart (R i) (W i) (R j) (W j)) -> race_free t.
Proof.
  intros (chunks & P & ->) ND D. apply race_free_chunks.
  - eapply Permutation_NoDup; [apply Permutation_sym; exact P|auto].
  - intros i j Hi Hj. apply D; eapply Permutation_in; eauto.
Qed.
Lemma par_for_fpt its t : par_for its body t -> fpt (RU its) (WU its) t.
Proof.
  intros (chunks & P & ->). eapply fpt_mono; [| |apply fpt_chunks]; intros c (j & A & B); exists j; split; auto; eapply Permutation_in; eauto.
Qed.
Theorem par_for_always its t m m' : par_for its body t -> NoDup its ->
  (forall i j, In i its -> In j its -> i <> j -> apart (R i) (W i) (R j) (W j)) ->
  frun (map body its) m = Some m' -> always t m m'.
Proof. intros. apply race_free_always; [eapply par_for_race_free; eauto|eapply par_for_lrun; eauto]. Qed.
End ParFor.
End Conc.
Arguments prog F : clear implicits.
Arguments task F : clear implicits.
Arguments mem F : clear implicits.
