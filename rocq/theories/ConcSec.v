(** * Parallel sections: whole tasks dealt to the threads of a team in any way.
    Companion of Conc.v for "#pragma omp parallel sections" and a reading of data races in terms of
    the accesses themselves. *)
From Verif Require Import Base BaseLemmas Conc.
From Coq Require Import Permutation.

Section Sec.
Context {F : Type}.
Local Notation prog := (prog F).
Local Notation task := (task F).
Local Notation mem := (mem F).

(** ** Accesses: [touches p c w]: some path through p writes (w = true) or reads (w = false) cell c *)
Inductive touches : prog -> cell -> bool -> Prop :=
| t_rd c k : touches (Rd c k) c false
| t_wr c x p : touches (Wr c x p) c true
| t_rd_k c k x c' w : touches (k x) c' w -> touches (Rd c k) c' w
| t_wr_k c x p c' w : touches p c' w -> touches (Wr c x p) c' w.
Fixpoint ttouches (t : task) (c : cell) (w : bool) : Prop :=
  match t with TRun p => touches p c w | TSeq t u | TPar t u => ttouches t c w \/ ttouches u c w end.

Lemma fp_touches R W p c w : fp R W p -> touches p c w -> if w then W c else R c \/ W c.
Proof.
  intros H T. induction T; cbn in H; destruct H as [H1 H2].
  - exact H1.
  - exact H1.
  - exact (IHT (H2 x)).
  - exact (IHT H2).
Qed.
Lemma fpt_touches R W t c w : fpt R W t -> ttouches t c w -> if w then W c else R c \/ W c.
Proof.
  induction t; cbn.
  - apply fp_touches.
  - intros [A B] [C|C]; [exact (IHt1 A C)|exact (IHt2 B C)].
  - intros [A B] [C|C]; [exact (IHt1 A C)|exact (IHt2 B C)].
Qed.
Lemma apart_touches R1 W1 R2 W2 (t u : task) : fpt R1 W1 t -> fpt R2 W2 u -> apart R1 W1 R2 W2 ->
  forall c w, ttouches t c true -> ~ ttouches u c w.
Proof.
  intros Ht Hu D c w T U. pose proof (fpt_touches _ _ _ _ _ Ht T) as A. pose proof (fpt_touches _ _ _ _ _ Hu U) as B.
  cbn in A. destruct (D c) as [D1 _]. destruct w; tauto.
Qed.

(** ** Commuting tasks *)
Lemma run_lrun_comm R1 W1 R2 W2 (p : prog) (u : task) : fp R1 W1 p -> fpt R2 W2 u -> apart R1 W1 R2 W2 ->
  forall m m1 m2, run p m = Some m1 -> lrun u m1 = Some m2 -> exists m1', lrun u m = Some m1' /\ run p m1' = Some m2.
Proof.
  intros Hp. induction u as [q|u1 IH1 u2 IH2|u1 IH1 u2 IH2]; intros Hu D m m1 m2 E1 E2.
  - eapply run_comm; eauto.
  - destruct Hu as [U1 U2]. cbn in E2. destruct (lrun u1 m1) as [x|] eqn:E; [|discriminate].
    destruct (IH1 U1 D _ _ _ E1 E) as (y & A & B). destruct (IH2 U2 D _ _ _ B E2) as (z & A' & B').
    exists z. cbn. now rewrite A.
  - destruct Hu as [U1 U2]. cbn in E2. destruct (lrun u1 m1) as [x|] eqn:E; [|discriminate].
    destruct (IH1 U1 D _ _ _ E1 E) as (y & A & B). destruct (IH2 U2 D _ _ _ B E2) as (z & A' & B').
    exists z. cbn. now rewrite A.
Qed.
Lemma lrun_comm R1 W1 R2 W2 (t u : task) : fpt R1 W1 t -> fpt R2 W2 u -> apart R1 W1 R2 W2 ->
  forall m m1 m2, lrun t m = Some m1 -> lrun u m1 = Some m2 -> exists m1', lrun u m = Some m1' /\ lrun t m1' = Some m2.
Proof.
  intros Ht Hu D. induction t as [q|t1 IH1 t2 IH2|t1 IH1 t2 IH2]; intros m m1 m2 E1 E2.
  - eapply run_lrun_comm; eauto.
  - destruct Ht as [T1 T2]. cbn in E1. destruct (lrun t1 m) as [x|] eqn:E; [|discriminate].
    destruct (IH2 T2 _ _ _ E1 E2) as (y & A & B). destruct (IH1 T1 _ _ _ E A) as (z & A' & B').
    exists z. cbn. now rewrite B'.
  - destruct Ht as [T1 T2]. cbn in E1. destruct (lrun t1 m) as [x|] eqn:E; [|discriminate].
    destruct (IH2 T2 _ _ _ E1 E2) as (y & A & B). destruct (IH1 T1 _ _ _ E A) as (z & A' & B').
    exists z. cbn. now rewrite B'.
Qed.

(** ** Sections *)
Definition tseqt (ts : list task) : task := fold_right TSeq (TRun Ret) ts.
(** [t] executes the tasks [ts]: a team of threads, each doing its share in its own order *)
Definition par_sections (ts : list task) (t : task) : Prop :=
  exists chunks, Permutation (concat chunks) (seq 0 (length ts)) /\
    t = tpar (map (fun ch => tseqt (map (fun i => nth i ts (TRun Ret)) ch)) chunks).

Fixpoint lruns (ts : list task) (m : mem) : option mem :=
  match ts with [] => Some m | t :: ts => match lrun t m with Some m' => lruns ts m' | None => None end end.
Lemma lruns_app ts us m : lruns (ts ++ us) m = match lruns ts m with Some m' => lruns us m' | None => None end.
Proof. revert m; induction ts as [|p ts IH]; intros m; cbn; auto. destruct (lrun p m); auto. Qed.
Lemma lrun_tseqt ts m : lrun (tseqt ts) m = lruns ts m.
Proof. revert m; induction ts as [|p ts IH]; intros m; cbn; auto. destruct (lrun p m); auto. Qed.

Section Body.
Variables (body : nat -> task) (R W : nat -> cell -> Prop).
Hypothesis Hfp : forall i, fpt (R i) (W i) (body i).
Hypothesis Hrf : forall i, race_free (body i).

Lemma lruns_perm its its' : Permutation its its' -> NoDup its ->
  (forall i j, In i its -> In j its -> i <> j -> apart (R i) (W i) (R j) (W j)) ->
  forall m m', lruns (map body its) m = Some m' -> lruns (map body its') m = Some m'.
Proof.
  induction 1 as [|i l l' P IH|i j l|l l' l'' P1 IH1 P2 IH2]; intros ND D m m' H; auto.
  - cbn in *. inversion ND; subst. destruct (lrun (body i) m) as [m1|]; [|discriminate]. apply IH; auto.
  - cbn in *. inversion ND as [|? ? N1 N2]; subst. destruct (lrun (body j) m) as [m1|] eqn:E1; [|discriminate].
    destruct (lrun (body i) m1) as [m2|] eqn:E2; [|discriminate].
    destruct (lrun_comm (R j) (W j) (R i) (W i) (body j) (body i) (Hfp j) (Hfp i)) with (m := m) (m1 := m1) (m2 := m2) as (m1' & A & B); auto.
    + apply D; auto. intros ->. apply N1. now left.
    + now rewrite A, B.
  - apply IH2; auto.
    + eapply Permutation_NoDup; eauto.
    + intros a c Ha Hc. apply D; eapply Permutation_in; try apply Permutation_sym; eauto.
Qed.
Lemma fpt_tseqt l : fpt (RU R l) (WU W l) (tseqt (map body l)).
Proof.
  induction l as [|i l IH]; cbn; auto. split.
  - eapply fpt_mono; [| |apply (Hfp i)]; intros c Hc; exists i; split; auto; now left.
  - eapply fpt_mono; [| |exact IH]; intros c (j & A & B); exists j; split; auto; now right.
Qed.
Lemma race_free_tseqt l : race_free (tseqt (map body l)).
Proof. induction l; cbn; auto. Qed.
Lemma lrun_tchunks chunks m :
  lrun (tpar (map (fun ch => tseqt (map body ch)) chunks)) m = lruns (map body (concat chunks)) m.
Proof.
  revert m; induction chunks as [|ch chunks IH]; intros m; cbn [concat map]; auto.
  rewrite map_app, lruns_app. cbn. rewrite lrun_tseqt. destruct (lruns (map body ch) m); auto.
Qed.
Lemma fpt_tchunks chunks : fpt (RU R (concat chunks)) (WU W (concat chunks)) (tpar (map (fun ch => tseqt (map body ch)) chunks)).
Proof.
  induction chunks as [|ch chunks IH]; cbn; auto. split.
  - eapply fpt_mono; [| |apply fpt_tseqt]; intros c (j & A & B); exists j; split; auto; apply in_or_app; now left.
  - eapply fpt_mono; [| |exact IH]; intros c (j & A & B); exists j; split; auto; apply in_or_app; now right.
Qed.
Lemma race_free_tchunks chunks : NoDup (concat chunks) ->
  (forall i j, In i (concat chunks) -> In j (concat chunks) -> i <> j -> apart (R i) (W i) (R j) (W j)) ->
  race_free (tpar (map (fun ch => tseqt (map body ch)) chunks)).
Proof.
  induction chunks as [|ch chunks IH]; cbn [concat map tpar fold_right race_free]; auto. intros ND D. split; [apply race_free_tseqt|]. split.
  - apply IH; [eapply nodup_app_r; eauto|]. intros i j Hi Hj. apply D; apply in_or_app; auto.
  - exists (RU R ch), (WU W ch), (RU R (concat chunks)), (WU W (concat chunks)). split; [apply fpt_tseqt|]. split; [apply fpt_tchunks|].
    assert (K : forall i j, In i ch -> In j (concat chunks) -> apart (R i) (W i) (R j) (W j)).
    { intros i j Hi Hj. apply D; try (apply in_or_app; auto; fail). intros ->. eapply nodup_app_disj; eauto. }
    intros c. split; intros (i & Hi & Hw); split; intros (j & Hj & Hx); destruct (K _ _ ltac:(eassumption) ltac:(eassumption) c); tauto.
Qed.
End Body.

(** ** Certified tasks: race free, with the arrays read and written, and the serial result *)
Definition good (t : task) (A B : list nat) (m m' : mem) : Prop :=
  race_free t /\ fpt (fun c => In (fst c) A) (fun c => In (fst c) B) t /\ lrun t m = Some m'.
Lemma good_always t A B m m' : good t A B m m' -> always t m m'.
Proof. intros (H1 & _ & H2). now apply race_free_always. Qed.
Lemma good_mono t A B A' B' m m' : incl A A' -> incl B B' -> good t A B m m' -> good t A' B' m m'.
Proof. intros HA HB (H1 & H2 & H3). split; auto. split; auto. eapply fpt_mono; [| |exact H2]; cbn; auto. Qed.
Lemma good_seq t u A B A' B' m m1 m2 : good t A B m m1 -> good u A' B' m1 m2 -> good (TSeq t u) (A ++ A') (B ++ B') m m2.
Proof.
  intros H1 H2.
  apply good_mono with (A' := A ++ A') (B' := B ++ B') in H1; [|apply incl_appl, incl_refl|apply incl_appl, incl_refl].
  apply good_mono with (A' := A ++ A') (B' := B ++ B') in H2; [|apply incl_appr, incl_refl|apply incl_appr, incl_refl].
  destruct H1 as (R1 & F1 & L1), H2 as (R2 & F2 & L2). split; [|split]; cbn; auto. now rewrite L1.
Qed.

(** the threads' footprints, as lists of arrays *)
Definition disjoint_arrays (A B A' B' : list nat) : Prop :=
  (forall x, In x B -> ~ In x A' /\ ~ In x B') /\ (forall x, In x B' -> ~ In x A).
Lemma good_apart A B A' B' : disjoint_arrays A B A' B' ->
  apart (fun c => In (fst c) A) (fun c => In (fst c) B) (fun c => In (fst c) A') (fun c => In (fst c) B').
Proof.
  intros [H1 H2] c. split.
  - intros H. destruct (H1 _ H). tauto.
  - intros H. split; intros H'; [eapply H2; eauto|]. destruct (H1 _ H'). tauto.
Qed.

(** a chain of certified tasks, one after the other *)
Inductive goods : list task -> list (list nat * list nat) -> mem -> mem -> Prop :=
| goods_nil m : goods [] [] m m
| goods_cons t ts A B fps m m1 m2 : good t A B m m1 -> goods ts fps m1 m2 -> goods (t :: ts) ((A, B) :: fps) m m2.
Lemma goods_len ts fps m m' : goods ts fps m m' -> length ts = length fps.
Proof. induction 1; cbn; auto. Qed.
Lemma goods_lruns ts fps m m' : goods ts fps m m' -> lruns ts m = Some m'.
Proof. induction 1 as [|t ts A B fps m m1 m2 (H1 & H2 & H3)]; cbn; auto. now rewrite H3. Qed.
Lemma goods_race_free ts fps m m' i : goods ts fps m m' -> race_free (nth i ts (TRun Ret)).
Proof. intros H. revert i. induction H as [|t ts A B fps m m1 m2 (H1 & H2 & H3)]; intros [|i]; cbn; auto. Qed.
Lemma goods_fpt ts fps m m' i : goods ts fps m m' ->
  fpt (fun c => In (fst c) (fst (nth i fps ([], [])))) (fun c => In (fst c) (snd (nth i fps ([], [])))) (nth i ts (TRun Ret)).
Proof. intros H. revert i. induction H as [|t ts A B fps m m1 m2 (H1 & H2 & H3)]; intros [|i]; cbn; auto. Qed.
Lemma map_nth_seq {A} (l : list A) d : map (fun i => nth i l d) (seq 0 (length l)) = l.
Proof.
  apply nth_ext with d d; [now rewrite map_length, seq_length|]. rewrite map_length, seq_length. intros n Hn.
  rewrite nth_indep with (d' := (fun i => nth i l d) 0) by now rewrite map_length, seq_length.
  rewrite (map_nth (fun i => nth i l d)), seq_nth by auto. reflexivity.
Qed.
(** no two of the sections conflict *)
Definition sections_conflict_free (ts : list task) : Prop :=
  forall i j c w, i < length ts -> j < length ts -> i <> j ->
    ttouches (nth i ts (TRun Ret)) c true -> ~ ttouches (nth j ts (TRun Ret)) c w.
Lemma goods_sections ts fps m m' : goods ts fps m m' ->
  (forall i j, i < length fps -> j < length fps -> i <> j ->
     let x := nth i fps ([], []) in let y := nth j fps ([], []) in disjoint_arrays (fst x) (snd x) (fst y) (snd y)) ->
  sections_conflict_free ts /\
  forall t, par_sections ts t -> race_free t /\ lrun t m = Some m'.
Proof.
  intros G D. pose proof (goods_len _ _ _ _ G) as L.
  assert (AP : forall i j, In i (seq 0 (length ts)) -> In j (seq 0 (length ts)) -> i <> j ->
    apart (fun c => In (fst c) (fst (nth i fps ([], [])))) (fun c => In (fst c) (snd (nth i fps ([], []))))
          (fun c => In (fst c) (fst (nth j fps ([], [])))) (fun c => In (fst c) (snd (nth j fps ([], []))))).
  { intros i j Hi Hj Hij. apply in_seq in Hi, Hj. apply good_apart. apply D; lia. }
  split.
  - intros i j c w Hi Hj Hij. eapply apart_touches; [apply (goods_fpt _ _ _ _ i G)|apply (goods_fpt _ _ _ _ j G)|].
    apply AP; auto; apply in_seq; lia.
  - intros t (chunks & P & ->). split.
    + eapply (race_free_tchunks (fun i => nth i ts (TRun Ret))).
      * intros i. apply (goods_fpt _ _ _ _ i G).
      * intros i. eapply goods_race_free; eauto.
      * eapply Permutation_NoDup; [apply Permutation_sym; exact P|apply seq_NoDup].
      * intros i j Hi Hj. apply AP; eapply Permutation_in; eauto.
    + rewrite lrun_tchunks. apply (lruns_perm (fun i => nth i ts (TRun Ret)) _ _ (fun i => goods_fpt _ _ _ _ i G) (seq 0 (length ts))).
      * now apply Permutation_sym.
      * apply seq_NoDup.
      * exact AP.
      * rewrite map_nth_seq. eapply goods_lruns; eauto.
Qed.
End Sec.
