(** Certified parallel loops: each OpenMP loop of the source, on any memory holding its arrays. *)
From Verif Require Import Base BaseLemmas ForList Arith MFd MCheb MSphere MGrid MField MEom PGrid Conc ConcSec ConcGrid.
From Coq Require Import Permutation.

Section PConc.
Context {F : Type} {AF : Arith F}.
Local Notation prog := (prog F).
Local Notation task := (task F).
Local Notation mem := (mem F).

(** no cell written by one iteration is read or written by another *)
Definition conflict_free (n : nat) (body : nat -> prog) : Prop :=
  forall i j c w, i < n -> j < n -> i <> j -> touches (body i) c true -> ~ touches (body j) c w.

Lemma cert_for n (body : nat -> prog) (R W : nat -> cell -> Prop) A B m m' :
  (forall i, fp (R i) (W i) (body i)) ->
  (forall i j, i < n -> j < n -> i <> j -> apart (R i) (W i) (R j) (W j)) ->
  (forall i c, R i c -> In (fst c) A) -> (forall i c, W i c -> In (fst c) B) ->
  frun (map body (seq 0 n)) m = Some m' ->
  conflict_free n body /\ forall t, par_for (seq 0 n) body t -> good t A B m m'.
Proof.
  intros Hfp Hap HA HB Hrun.
  assert (AP : forall i j, In i (seq 0 n) -> In j (seq 0 n) -> i <> j -> apart (R i) (W i) (R j) (W j)).
  { intros i j Hi Hj. apply in_seq in Hi, Hj. apply Hap; lia. }
  split.
  - intros i j c w Hi Hj Hij. exact (apart_touches _ _ _ _ (TRun (body i)) (TRun (body j)) (Hfp i) (Hfp j) (Hap i j Hi Hj Hij) c w).
  - intros t P. split; [|split].
    + eapply par_for_race_free; eauto using seq_NoDup.
    + eapply fpt_mono; [| |eapply par_for_fpt; eauto]; intros c (i & _ & H); eauto.
    + eapply par_for_lrun; eauto using seq_NoDup.
Qed.

Ltac skip_asserts H := repeat (match type of H with bind (assert_ _ _) _ = Ok _ => inv_bind H; cbv beta in H end).

Lemma cert_shell g op a c m v dv r : a <> c -> nth_error m a = Some v -> nth_error m c = Some dv ->
  shell_op g op v dv = Ok r ->
  conflict_free (g_nx g) (p_shell g (fun w => op w (sph0 g)) a c) /\
  forall t, par_for (seq 0 (g_nx g)) (p_shell g (fun w => op w (sph0 g)) a c) t -> good t [a] [c] m (upd m c r).
Proof.
  intros Hne Ha Hc H. unfold shell_op in H. skip_asserts H.
  eapply cert_for with (R := on_shell g a) (W := on_shell g c).
  - intros i. apply fp_shell.
  - intros i j _ _ Hij. now apply apart_shell.
  - intros i z (it & ip & _ & _ & ->). now left.
  - intros i z (it & ip & _ & _ & ->). now left.
  - eapply (frun_for _ (shell_body g op v) c (fun m => nth_error m a = Some v)); eauto.
    + intros m0 w E1. now rewrite nth_error_upd_neq by auto.
    + intros i m0 o o' I1 I2 E1. eapply run_shell; eauto.
Qed.
Lemma cert_lines g op a c m v dv r : a <> c -> nth_error m a = Some v -> nth_error m c = Some dv ->
  line_op g op v dv = Ok r ->
  conflict_free (g_nlat g) (p_line g op a c) /\
  forall t, par_for (seq 0 (g_nlat g)) (p_line g op a c) t -> good t [a] [c] m (upd m c r).
Proof.
  intros Hne Ha Hc H. unfold line_op in H. skip_asserts H.
  eapply cert_for with (R := on_lines g a) (W := on_lines g c).
  - intros i. apply fp_line.
  - intros i j Hi Hj Hij. now apply apart_lines.
  - intros i z (it & ip & _ & ->). now left.
  - intros i z (it & ip & _ & ->). now left.
  - eapply (frun_for _ (fun it dv => for_ 0 (g_nphi g) (fun ip dv => line_body g op v it ip dv) dv) c (fun m => nth_error m a = Some v)); eauto.
    + intros m0 w E1. now rewrite nth_error_upd_neq by auto.
    + intros i m0 o o' I1 I2 E1. eapply run_line; eauto.
Qed.
(** the two loops of Grid::filter on array c *)
Definition filter_shells (g : grid F) (c : nat) : nat -> prog := p_shell g (sp_filter (g_bld g) (g_sphere g)) c c.
Definition filter_lines (g : grid F) (c : nat) : nat -> prog := p_line g (keep g) c c.
Lemma cert_filter g c m v r : nth_error m c = Some v -> grid_filter g v = Ok r ->
  conflict_free (g_nx g) (filter_shells g c) /\ conflict_free (g_nlat g) (filter_lines g c) /\
  forall t u, par_for (seq 0 (g_nx g)) (filter_shells g c) t -> par_for (seq 0 (g_nlat g)) (filter_lines g c) u ->
    good (TSeq t u) [c] [c] m (upd m c r).
Proof.
  intros Hc H. unfold grid_filter in H. skip_asserts H. inv_bind H. rename x0 into v1.
  assert (L : c < length m) by (apply nth_error_Some; congruence).
  edestruct (cert_for (g_nx g) (filter_shells g c) (on_shell g c) (on_shell g c) [c] [c] m (upd m c v1)) as [C1 G1].
  { intros i. apply fp_shell. } { intros i j _ _ Hij. now apply apart_shell. }
  { intros i y (it & ip & _ & _ & ->). now left. } { intros i y (it & ip & _ & _ & ->). now left. }
  { eapply (frun_for _ (filter_shell g) c (fun _ => True)); eauto. intros i m0 o o' _ I2 E1. eapply run_shell; eauto. }
  edestruct (cert_for (g_nlat g) (filter_lines g c) (on_lines g c) (on_lines g c) [c] [c] (upd m c v1) (upd m c r)) as [C2 G2].
  { intros i. apply fp_line. } { intros i j Hi Hj Hij. now apply apart_lines. }
  { intros i y (it & ip & _ & ->). now left. } { intros i y (it & ip & _ & ->). now left. }
  { rewrite <- (upd_upd_eq m c v1 r).
    eapply (frun_for _ (fun it v => for_ 0 (g_nphi g) (fun ip v => filter_line g it ip v) v) c (fun _ => True)); eauto.
    - intros i m0 o o' _ I2 E1. eapply run_filter_line; eauto.
    - now apply nth_error_upd_eq. }
  split; [exact C1|]. split; [exact C2|]. intros t u Pt Pu.
  eapply good_mono; [| |eapply good_seq; [apply G1; exact Pt|apply G2; exact Pu]]; intros y Hy; cbn in *; tauto.
Qed.
Lemma cert_spectrum g a c m v p r : a <> c -> nth_error m a = Some v -> nth_error m c = Some p ->
  set_angular_power_spectrum g v p = Ok r ->
  conflict_free (g_nx g) (p_spec g a c) /\
  forall t, par_for (seq 0 (g_nx g)) (p_spec g a c) t -> good t [a] [c] m (upd m c r).
Proof.
  intros Hne Ha Hc H. unfold set_angular_power_spectrum in H. skip_asserts H.
  eapply cert_for with (R := on_shell g a) (W := in_row g c).
  - intros i. apply fp_spec.
  - intros i j _ _ Hij. now apply apart_spec.
  - intros i z (it & ip & _ & _ & ->). now left.
  - intros i z (il & _ & ->). now left.
  - eapply (frun_for _ (spectrum_body g v) c (fun m => nth_error m a = Some v)); eauto.
    + intros m0 w E1. now rewrite nth_error_upd_neq by auto.
    + intros i m0 o o' I1 I2 E1. eapply run_spec; eauto.
Qed.
Lemma cert_n_l g a c m v p r : a <> c -> nth_error m a = Some v -> nth_error m c = Some p ->
  set_n_l_coef g v p = Ok r ->
  conflict_free (g_nx g) (p_spec g a c) /\ conflict_free (g_nl g) (p_nl g c) /\
  forall t u, par_for (seq 0 (g_nx g)) (p_spec g a c) t -> par_for (seq 0 (g_nl g)) (p_nl g c) u ->
    good (TSeq t u) [a; c] [c] m (upd m c r).
Proof.
  intros Hne Ha Hc H. unfold set_n_l_coef in H. skip_asserts H. inv_bind H. rename x1 into v1.
  assert (L : c < length m) by (apply nth_error_Some; congruence).
  destruct (cert_spectrum g a c m v p v1 Hne Ha Hc E1) as [C1 G1].
  edestruct (cert_for (g_nl g) (p_nl g c) (in_col g c) (in_col g c) [c] [c] (upd m c v1) (upd m c r)) as [C2 G2].
  { intros i. apply fp_nl. } { intros i j Hi Hj Hij. now apply apart_col. }
  { intros i y (ix & ->). now left. } { intros i y (ix & ->). now left. }
  { rewrite <- (upd_upd_eq m c v1 r). eapply (frun_for _ (nl_body g) c (fun _ => True)); eauto.
    - intros i m0 o o' _ I2 E2. eapply run_nl; eauto.
    - now apply nth_error_upd_eq. }
  split; [exact C1|]. split; [exact C2|]. intros t u Pt Pu.
  eapply good_mono; [| |eapply good_seq; [apply G1; exact Pt|apply G2; exact Pu]]; intros y Hy; cbn in *; tauto.
Qed.

(** ** Pointwise loops *)
Definition at_ix (l : list nat) (i : nat) (c : cell) : Prop := In (fst c) l /\ snd c = i.
Lemma apart_ix A B A' B' i j : i <> j -> apart (at_ix A i) (at_ix B i) (at_ix A' j) (at_ix B' j).
Proof. intros H c. unfold at_ix. intuition congruence. Qed.

(** [mix k a b]: the first k entries of a, the rest of b *)
Definition mix (k : nat) (a b : list F) : list F := firstn k a ++ skipn k b.
Lemma nth_error_mix k (a b : list F) i : length a = length b -> nth_error (mix k a b) i = if i <? k then nth_error a i else nth_error b i.
Proof.
  intros L. unfold mix. revert a b i L. induction k as [|k IH]; intros [|x a] [|y b] [|i] L; try discriminate; cbn; auto.
  - match goal with |- context [if ?b then _ else _] => destruct b end; reflexivity.
  - cbn in L. rewrite IH by lia. reflexivity.
Qed.
Lemma upd_mix k (a b : list F) x : length a = length b -> nth_error a k = Some x -> upd (mix k a b) k x = mix (S k) a b.
Proof.
  unfold mix. revert a b. induction k as [|k IH]; intros [|y a] [|z b] L H; cbn in *; try discriminate.
  - congruence.
  - f_equal. apply IH; auto.
Qed.
Lemma mix_all n (a b : list F) : length a = length b -> (forall i, n <= i -> nth_error a i = nth_error b i) -> mix n a b = a.
Proof.
  unfold mix. revert a b. induction n as [|n IH]; intros a b L H; cbn.
  - revert b L H. induction a as [|x a IH]; intros [|y b] L H; cbn in L; try discriminate; auto.
    f_equal; [specialize (H 0 ltac:(lia)); cbn in H; congruence|]. apply IH; auto. intros i _. apply (H (S i)). lia.
  - destruct a as [|x a], b as [|y b]; cbn in L; try discriminate; auto. cbn. f_equal. apply IH; auto. intros i Hi. apply (H (S i)). lia.
Qed.

(** a loop that sets out[i] to a value that does not depend on the other cells of out *)
Lemma for_cells n (step : nat -> list F -> res (list F)) (h : nat -> F -> res F) out out' :
  (forall i o, step i o = (let! y := o.[i] in let! x := h i y in o.[i <- x]) \/ step i o = (let! x := h i f0 in o.[i <- x])
     /\ forall y, h i y = h i f0) ->
  for_ 0 n step out = Ok out' ->
  length out' = length out /\
  (forall i, i < n -> exists y x, nth_error out i = Some y /\ h i y = Ok x /\ nth_error out' i = Some x) /\
  (forall i, n <= i -> nth_error out' i = nth_error out i).
Proof.
  intros Hs. revert out'. induction n as [|n IH]; intros out' H.
  - rewrite for_nil in H by lia. injection H as <-. repeat split; auto. lia.
  - rewrite for_last in H by lia. inv_bind H. destruct (IH x E) as (L & A & B).
    assert (K : exists y z, nth_error x n = Some y /\ h n y = Ok z /\ out' = upd x n z).
    { destruct (Hs n x) as [Hn|[Hn Hy]]; rewrite Hn in H.
      - inv_bind H. inv_bind H. unfold vget in E0. destruct (nth_error x n) as [y|] eqn:N; [|discriminate]. injection E0 as <-.
        unfold vset in H. destruct (n <? length x); [|discriminate]. injection H as <-. eauto.
      - inv_bind H. unfold vset in H. destruct (Nat.ltb_spec n (length x)) as [Hl|]; [|discriminate]. injection H as <-.
        destruct (nth_error x n) as [y|] eqn:N; [|apply nth_error_None in N; lia]. exists y, x0. rewrite Hy. auto. }
    destruct K as (y & z & N & Hz & ->). assert (Hl : n < length x) by (apply nth_error_Some; congruence).
    repeat split.
    + rewrite upd_length. exact L.
    + intros i Hi. destruct (Nat.eq_dec i n) as [->|Hn].
      * exists y, z. rewrite nth_error_upd_eq by auto. rewrite <- B by lia. auto.
      * destruct (A i ltac:(lia)) as (y' & x' & A1 & A2 & A3). exists y', x'. rewrite nth_error_upd_neq by auto. auto.
    + intros i Hi. rewrite nth_error_upd_neq by lia. apply B. lia.
Qed.
Lemma set_each_cells n h (out out' : list F) : set_each n h out = Ok out' ->
  length out' = length out /\
  (forall i, i < n -> exists x, h i = Ok x /\ nth_error out' i = Some x) /\
  (forall i, n <= i -> nth_error out' i = nth_error out i).
Proof.
  intros H. destruct (for_cells n (fun i out => let! x := h i in out.[i <- x]) (fun i _ => h i) out out') as (A & B & C); [|exact H|].
  - intros i o. right. auto.
  - repeat split; auto. intros i Hi. destruct (B i Hi) as (y & x & _ & E1 & E2). eauto.
Qed.
Lemma acc_each_cells n (c : F) k x x' : acc_each n c k x = Ok x' ->
  length x' = length x /\
  (forall i, i < n -> exists y ki, nth_error x i = Some y /\ nth_error k i = Some ki /\ nth_error x' i = Some (y + c * ki)%f) /\
  (forall i, n <= i -> nth_error x' i = nth_error x i).
Proof.
  intros H. destruct (for_cells n (fun i x => let! y := x.[i] in let! ki := k.[i] in x.[i <- (y + c * ki)%f])
     (fun i y => let! ki := k.[i] in Ok (y + c * ki)%f) x x') as (A & B & C); [|exact H|].
  - intros i o. left. destruct (o.[i]); cbn; auto. destruct (k.[i]); cbn; auto.
  - repeat split; auto. intros i Hi. destruct (B i Hi) as (y & z & E0 & E1 & E2). cbv beta in E1. inv_bind E1.
    unfold vget in E. destruct (nth_error k i) eqn:N; [|discriminate]. injection E as <-. injection E1 as <-. eauto.
Qed.
Lemma axpy_cell nn (c : F) k i x : axpy_at nn c k i = Ok x -> exists a b, nth_error nn i = Some a /\ nth_error k i = Some b /\ x = (a + c * b)%f.
Proof.
  unfold axpy_at, vget. destruct (nth_error nn i), (nth_error k i); cbn; try discriminate. intros [= <-]. eauto.
Qed.

Lemma run_copy (m : mem) a c i va vc x k : nth_error m a = Some va -> nth_error va i = Some x -> nth_error m c = Some vc -> i < length vc ->
  run (p_copy a c i k) m = run k (upd m c (upd vc i x)).
Proof.
  intros. unfold p_copy. rewrite (run_rd _ _ va _ x) by (auto; unfold vget; now rewrite H0).
  eapply run_wr; eauto. unfold vset. now destruct (Nat.ltb_spec i (length vc)); [|lia].
Qed.
Lemma run_axpy (m : mem) a b c s i va vb vc x y k : nth_error m a = Some va -> nth_error va i = Some x ->
  nth_error m b = Some vb -> nth_error vb i = Some y -> nth_error m c = Some vc -> i < length vc ->
  run (p_axpy a b c s i k) m = run k (upd m c (upd vc i (x + s * y)%f)).
Proof.
  intros. unfold p_axpy. rewrite (run_rd _ _ va _ x) by (auto; unfold vget; now rewrite H0).
  rewrite (run_rd _ _ vb _ y) by (auto; unfold vget; now rewrite H2).
  eapply run_wr; eauto. unfold vset. now destruct (Nat.ltb_spec i (length vc)); [|lia].
Qed.
Lemma fp_copy A B a c i (k : prog) : In a A -> In c B -> fp (at_ix A i) (at_ix B i) k -> fp (at_ix A i) (at_ix B i) (p_copy a c i k).
Proof. intros. cbn. unfold at_ix at 1 3. cbn. repeat split; auto. Qed.
Lemma fp_axpy A B a b c (s : F) i k : In a A -> In b A -> In c B -> fp (at_ix A i) (at_ix B i) k -> fp (at_ix A i) (at_ix B i) (p_axpy a b c s i k).
Proof. intros. cbn. unfold at_ix at 1 3 5. cbn. repeat split; auto. Qed.

Lemma frun_states (body : nat -> prog) (st : nat -> mem) n :
  (forall i, i < n -> run (body i) (st i) = Some (st (S i))) -> frun (map body (seq 0 n)) (st 0) = Some (st n).
Proof.
  intros H. assert (G : forall c lo, lo + c <= n -> frun (map body (seq lo c)) (st lo) = Some (st (lo + c))).
  { induction c as [|c IH]; intros lo Hl; cbn.
    - now rewrite Nat.add_0_r.
    - rewrite H by lia. rewrite IH by lia. do 2 f_equal. lia. }
  apply (G n 0). lia.
Qed.

(** Field::shift on [n; np1] *)
Lemma cert_shift (f f' : field F) : shift f = Ok f' ->
  conflict_free (fl_size f) p_shift /\
  forall t, par_for (seq 0 (fl_size f)) p_shift t -> good t [1] [0] [fl_n f; fl_np1 f] [fl_n f'; fl_np1 f'].
Proof.
  intros H. unfold shift in H. inv_bind H. injection H as <-. cbn [with_n fl_n fl_np1]. rename x into n'.
  destruct (set_each_cells (fl_size f) (fun i => (fl_np1 f).[i]) (fl_n f) n' E) as (L & A & B).
  apply cert_for with (R := at_ix [1]) (W := at_ix [0]).
  - intros i. apply fp_copy; cbn; auto.
  - intros i j _ _ Hij. now apply apart_ix.
  - intros i c [H _]. exact H.
  - intros i c [H _]. exact H.
  - pose proof (frun_states p_shift (fun k => [mix k n' (fl_n f); fl_np1 f]) (fl_size f)) as G. cbv beta in G.
    rewrite (mix_all (fl_size f)) in G by auto. apply G. intros i Hi. destruct (A i Hi) as (x & X1 & X2).
    unfold vget in X1. destruct (nth_error (fl_np1 f) i) as [y|] eqn:N; [|discriminate]. injection X1 as ->.
    assert (Li : i < length n') by (apply nth_error_Some; congruence).
    unfold p_shift. erewrite run_copy; [|reflexivity|exact N|reflexivity|].
    + cbn. now rewrite (upd_mix i n' (fl_n f)).
    + unfold mix. rewrite app_length, firstn_length, skipn_length. lia.
Qed.

(** set_level on [f.n; f.l; f.np1; f.k; p.n; p.l; p.np1; p.k] *)
Definition arrays (f p : field F) : mem := [fl_n f; fl_l f; fl_np1 f; fl_k f; fl_n p; fl_l p; fl_np1 p; fl_k p].


Lemma level_sizes n dt level (f f' : field F) : level1 n dt level f = Ok f' ->
  length (fl_l f') = length (fl_l f) /\ length (fl_np1 f') = length (fl_np1 f) /\ fl_n f' = fl_n f /\ fl_k f' = fl_k f.
Proof.
  unfold level1. intros H.
  repeat match type of H with (if ?c then _ else _) = _ => destruct c end.
  all: repeat (match type of H with bind _ _ = _ => inv_bind H; cbv beta in H end); injection H as <-; cbn.
  all: repeat match goal with E : set_each _ _ _ = Ok _ |- _ => apply set_each_cells in E; destruct E as (? & _ & _)
         | E : acc_each _ _ _ _ = Ok _ |- _ => apply acc_each_cells in E; destruct E as (? & _ & _) end; auto.
Qed.
Lemma mix_length k (a b : list F) : length a = length b -> length (mix k a b) = length b.
Proof. intros L. unfold mix. rewrite app_length, firstn_length, skipn_length. lia. Qed.
Lemma nth_error_mix_same k (a b : list F) : length a = length b -> nth_error (mix k a b) k = nth_error b k.
Proof. intros L. rewrite nth_error_mix by auto. now rewrite Nat.ltb_irrefl. Qed.
Lemma vget_inv {A} (v : list A) i x : v.[i] = Ok x -> nth_error v i = Some x.
Proof. unfold vget. destruct (nth_error v i); congruence. Qed.

Ltac lv_open H := unfold level1 in H; cbn [Z.eqb Pos.eqb] in H;
  repeat (match type of H with bind _ _ = _ => inv_bind H; cbv beta in H end); injection H as <-;
  unfold arrays; cbn [app with_l with_np1 fl_n fl_l fl_np1 fl_k].
Ltac lv_cells := repeat match goal with
  | E : set_each _ _ _ = Ok _ |- _ => apply set_each_cells in E; destruct E as (? & ? & ?)
  | E : acc_each _ _ _ _ = Ok _ |- _ => apply acc_each_cells in E; destruct E as (? & ? & ?) end.
Ltac lv_at i Hi := repeat match goal with
  | A : forall i, i < _ -> exists x, axpy_at _ _ _ i = Ok x /\ _ |- _ =>
      let a := fresh "a" in let E := fresh "E" in destruct (A i Hi) as (a & E & ?); clear A; apply axpy_cell in E; destruct E as (? & ? & ? & ? & ?); subst a
  | A : forall i, i < _ -> exists x, vget _ i = Ok x /\ _ |- _ =>
      let a := fresh "a" in let E := fresh "E" in destruct (A i Hi) as (a & E & ?); clear A; apply vget_inv in E
  | A : forall i, i < _ -> exists y ki, _ |- _ => destruct (A i Hi) as (? & ? & ? & ? & ?); clear A end.
Ltac lv_len := match goal with |- _ < length (mix _ ?a _) => rewrite mix_length by auto; apply nth_error_Some; 
      match goal with L : length a = _ |- _ => apply nth_error_Some; rewrite <- L; apply nth_error_Some; congruence end end.
Ltac lv_run := 
  repeat (first
   [ erewrite run_axpy; [|reflexivity|first [eassumption|rewrite nth_error_mix_same by auto; eassumption]|reflexivity|eassumption|reflexivity|lv_len]
   | erewrite run_copy; [|reflexivity|eassumption|reflexivity|lv_len] ]; cbn [upd]);
  cbn [run]; repeat (erewrite upd_mix by (auto; repeat match goal with A : nth_error ?v ?i = Some _, B : nth_error ?v ?i = Some _ |- _ => rewrite A in B; injection B as ? ; subst end; eassumption)); try reflexivity.

Lemma cert_level n dt level (f p f' p' : field F) (rest : mem) :
  (1 <= level <= 5)%Z -> level1 n dt level f = Ok f' -> level1 n dt level p = Ok p' ->
  conflict_free n (p_level dt level) /\
  forall t, par_for (seq 0 n) (p_level dt level) t -> good t [0; 2; 3; 4; 6; 7] [1; 2; 5; 6] (arrays f p ++ rest) (arrays f' p' ++ rest).
Proof.
  intros Hl Hf Hp.
  apply cert_for with (R := at_ix [0; 2; 3; 4; 6; 7]) (W := at_ix [1; 2; 5; 6]).
  - intros i. unfold p_level. repeat match goal with |- context [if ?c then _ else _] => destruct c end;
      repeat (first [apply fp_axpy | apply fp_copy]; cbn [In]; auto 10); exact I.
  - intros i j _ _ Hij. now apply apart_ix.
  - intros i c [H _]. exact H.
  - intros i c [H _]. exact H.
  - assert (C : (level = 1 \/ level = 2 \/ level = 3 \/ level = 4 \/ level = 5)%Z) by lia. clear Hl.
    destruct C as [->|[->|[->|[->| ->]]]].
    + lv_open Hf. lv_open Hp. lv_cells.
      match goal with |- frun _ (?a :: ?b :: ?c :: ?d :: ?e :: ?g :: ?h :: ?k :: rest) = Some (_ :: ?b' :: ?c' :: _ :: _ :: ?g' :: ?h' :: _ :: rest) =>
        pose proof (frun_states (p_level dt 1) (fun i => [a; mix i b' b; c; d; e; mix i g' g; h; k] ++ rest) n) as G; cbv beta in G; cbn [app] in G;
        rewrite (mix_all n b' b), (mix_all n g' g) in G by auto; apply G; clear G end.
      intros i Hi. lv_at i Hi. unfold p_level. cbn [Z.eqb Pos.eqb]. lv_run.
    + lv_open Hf. lv_open Hp. lv_cells.
      match goal with |- frun _ (?a :: ?b :: ?c :: ?d :: ?e :: ?g :: ?h :: ?k :: rest) = Some (_ :: ?b' :: ?c' :: _ :: _ :: ?g' :: ?h' :: _ :: rest) =>
        pose proof (frun_states (p_level dt 2) (fun i => [a; mix i b' b; mix i c' c; d; e; mix i g' g; mix i h' h; k] ++ rest) n) as G; cbv beta in G; cbn [app] in G;
        rewrite (mix_all n b' b), (mix_all n c' c), (mix_all n g' g), (mix_all n h' h) in G by auto; apply G; clear G end.
      intros i Hi. lv_at i Hi. unfold p_level. cbn [Z.eqb Pos.eqb]. lv_run.
    + lv_open Hf. lv_open Hp. lv_cells.
      match goal with |- frun _ (?a :: ?b :: ?c :: ?d :: ?e :: ?g :: ?h :: ?k :: rest) = Some (_ :: ?b' :: ?c' :: _ :: _ :: ?g' :: ?h' :: _ :: rest) =>
        pose proof (frun_states (p_level dt 3) (fun i => [a; mix i b' b; mix i c' c; d; e; mix i g' g; mix i h' h; k] ++ rest) n) as G; cbv beta in G; cbn [app] in G;
        rewrite (mix_all n b' b), (mix_all n c' c), (mix_all n g' g), (mix_all n h' h) in G by auto; apply G; clear G end.
      intros i Hi. lv_at i Hi. unfold p_level. cbn [Z.eqb Pos.eqb]. lv_run.
    + lv_open Hf. lv_open Hp. lv_cells.
      match goal with |- frun _ (?a :: ?b :: ?c :: ?d :: ?e :: ?g :: ?h :: ?k :: rest) = Some (_ :: ?b' :: ?c' :: _ :: _ :: ?g' :: ?h' :: _ :: rest) =>
        pose proof (frun_states (p_level dt 4) (fun i => [a; mix i b' b; mix i c' c; d; e; mix i g' g; mix i h' h; k] ++ rest) n) as G; cbv beta in G; cbn [app] in G;
        rewrite (mix_all n b' b), (mix_all n c' c), (mix_all n g' g), (mix_all n h' h) in G by auto; apply G; clear G end.
      intros i Hi. lv_at i Hi. unfold p_level. cbn [Z.eqb Pos.eqb]. lv_run.
    + lv_open Hf. lv_open Hp. lv_cells.
      match goal with |- frun _ (?a :: ?b :: ?c :: ?d :: ?e :: ?g :: ?h :: ?k :: rest) = Some (_ :: ?b' :: ?c' :: _ :: _ :: ?g' :: ?h' :: _ :: rest) =>
        pose proof (frun_states (p_level dt 5) (fun i => [a; b; mix i c' c; d; e; g; mix i h' h; k] ++ rest) n) as G; cbv beta in G; cbn [app] in G;
        rewrite (mix_all n c' c), (mix_all n h' h) in G by auto; apply G; clear G end.
      intros i Hi. lv_at i Hi. unfold p_level. cbn [Z.eqb Pos.eqb]. lv_run.
Qed.
End PConc.
