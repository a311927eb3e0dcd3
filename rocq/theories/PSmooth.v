(** Smooth functions on an interval: closure and bounds (proof machinery for C78, no model definition here). *)
From Coq Require Import Reals Lra Lia.
From Coquelicot Require Import Coquelicot.
From Verif Require Import Base Spec SphereSpec LegSpec PSum ContSpec SmoothSpec PLeg PSphereD PropSphereD TruncSpec PropSphere PropTrunc.
Local Open Scope R_scope.

Lemma smooth_ext lo hi f g : (forall x, f x = g x) -> smooth lo hi f -> smooth lo hi g.
Proof. intros E H k t Hk Ht. apply (ex_derive_n_ext f); auto. Qed.
Lemma in_open lo hi t : lo < t < hi -> locally t (fun y => lo < y < hi).
Proof. intros Ht. assert (O : open (fun y => lo < y < hi)) by (apply open_and; [apply open_gt|apply open_lt]). exact (O t Ht). Qed.
Lemma smooth_near lo hi f n t : (n <= 9)%nat -> smooth lo hi f -> lo < t < hi -> locally t (fun y => forall k, (k <= n)%nat -> ex_derive_n f k y).
Proof. intros Hn H Ht. generalize (in_open lo hi t Ht). apply filter_imp. intros y Hy k Hk. apply H; auto. lia. Qed.
Lemma smooth_plus lo hi f g : smooth lo hi f -> smooth lo hi g -> smooth lo hi (fun x => f x + g x).
Proof. intros Hf Hg k t Hk Ht. apply ex_derive_n_plus; now apply (smooth_near lo hi). Qed.
Lemma smooth_scal lo hi c f : smooth lo hi f -> smooth lo hi (fun x => c * f x).
Proof. intros Hf k t Hk Ht. apply ex_derive_n_scal_l. now apply Hf. Qed.
Lemma smooth_const lo hi (c : R) : smooth lo hi (fun _ => c).
Proof. intros k t _ _. apply ex_derive_n_const. Qed.
Lemma smooth_Rsum lo hi n (F : nat -> R -> R) : (forall i, smooth lo hi (F i)) -> smooth lo hi (fun x => Rsum n (fun i => F i x)).
Proof. intros H. induction n as [|n IH]; cbn [Rsum]; [apply smooth_const|]. now apply smooth_plus. Qed.
Lemma field_smooth P L M lo hi (re im : nat -> nat -> R -> R) : (forall l m, smooth lo hi (re l m) /\ smooth lo hi (im l m)) ->
  smooth_radially lo hi (fun X th ph => real_field P L M (fun l m => (re l m X, im l m X)) th ph).
Proof.
  intros H th ph. unfold real_field. apply smooth_Rsum. intros l. apply smooth_Rsum. intros m. destruct (H l m) as [Hr Hi].
  unfold mode. destruct (Nat.eqb m 0); cbn [fst snd].
  - apply (smooth_ext lo hi (fun X => P l 0%nat th * re l m X)); [intros; ring|]. now apply smooth_scal.
  - apply (smooth_ext lo hi (fun X => 2 * P l m th * cos (INR m * ph) * re l m X + - (2 * P l m th * sin (INR m * ph)) * im l m X)); [intros; ring|].
    apply smooth_plus; now apply smooth_scal.
Qed.
Lemma smooth_resolved_radially L M lo hi psi : smooth_resolved L M lo hi psi -> smooth_radially lo hi psi.
Proof.
  intros (re & im & H & _ & _ & E) th ph. apply (smooth_ext lo hi (fun X => real_field Ylm_profile L M (fun l m => (re l m X, im l m X)) th ph)); [intros; symmetry; apply E|].
  now apply (field_smooth Ylm_profile L M lo hi re im H).
Qed.
Lemma smooth_resolved_d_phi L M lo hi psi : smooth_resolved L M lo hi psi -> smooth_resolved L M lo hi (fun X => d_phi (psi X)).
Proof.
  intros (re & im & HL & H0 & Hin & E).
  exists (fun l m X => - INR m * im l m X), (fun l m X => INR m * re l m X). split; [|split; [|split]].
  - intros l m. destruct (HL l m). split; now apply smooth_scal.
  - intros l X. cbn [INR]. ring.
  - intros l m X H. destruct (Hin l m X H) as [-> ->]. split; ring.
  - intros X th ph. rewrite (d_phi_ext _ (real_field Ylm_profile L M (fun l m => (re l m X, im l m X)))) by (intros; apply E).
    rewrite field_d_phi. unfold real_field. apply Rsum_ext. intros l _. apply Rsum_ext. intros m _. f_equal.
Qed.
Lemma smooth_spectrum L M lo hi psi : smooth_resolved L M lo hi psi -> exists a : R -> spectrum,
  (forall X, real_spectrum (a X)) /\ (forall X, inside L M (a X)) /\ (forall X, low (Nat.min L (M + 1)) (a X)) /\ forall X th ph, psi X th ph = real_field Ylm_profile L M (a X) th ph.
Proof.
  intros (re & im & HL & H0 & Hin & E). exists (fun X l m => (re l m X, im l m X)). split; [|split; [|split; auto]].
  - intros X l. cbn. apply H0.
  - intros X l m H. destruct (Hin l m X ltac:(lia)) as [-> ->]. reflexivity.
  - intros X l m H. destruct (Hin l m X ltac:(lia)) as [-> ->]. reflexivity.
Qed.
(** ** bounds on a compact interval *)
Lemma cont_bound (f : R -> R) lo hi : lo <= hi -> (forall x, lo <= x <= hi -> continuous f x) -> exists B, 0 <= B /\ forall x, lo <= x <= hi -> Rabs (f x) <= B.
Proof.
  intros Hl Hc. destruct (continuity_ab_maj (fun x => Rabs (f x)) lo hi Hl) as (m & Hm & _).
  { intros x Hx. apply continuity_pt_filterlim. apply (continuous_comp f Rabs); [now apply Hc|]. apply continuous_Rabs. }
  exists (Rabs (f m)). split; [apply Rabs_pos|auto].
Qed.
Lemma smooth_cont lo hi f k t : smooth lo hi f -> (k <= 8)%nat -> lo < t < hi -> continuous (Derive_n f k) t.
Proof. intros H Hk Ht. apply (ex_derive_continuous (Derive_n f k)). apply (H (S k) t); auto. lia. Qed.
Lemma smooth_bound lo hi lo' hi' f k : smooth lo' hi' f -> (k <= 8)%nat -> lo' < lo -> hi < hi' -> lo <= hi -> exists B, 0 <= B /\ forall x, lo <= x <= hi -> Rabs (Derive_n f k x) <= B.
Proof. intros H Hk H1 H2 H3. apply cont_bound; auto. intros x Hx. apply (smooth_cont lo' hi'); auto. lra. Qed.
(** one bound for finitely many functions *)
Lemma bound2 n m (Q : nat -> nat -> R -> Prop) : (forall i j, (i < n)%nat -> (j < m)%nat -> exists B, 0 <= B /\ Q i j B) -> (forall i j B B', B <= B' -> Q i j B -> Q i j B') ->
  exists B, 0 <= B /\ forall i j, (i < n)%nat -> (j < m)%nat -> Q i j B.
Proof.
  intros H Mo. induction n as [|n IH]; [exists 0; split; [lra|intros; lia]|]. destruct IH as (B & HB & H1); [intros; apply H; lia|].
  assert (X : exists B', 0 <= B' /\ forall j, (j < m)%nat -> Q n j B').
  { clear H1. assert (H' : forall j, (j < m)%nat -> exists B, 0 <= B /\ Q n j B) by (intros; apply H; lia). clear H. induction m as [|m IH]; [exists 0; split; [lra|intros; lia]|].
    destruct IH as (B1 & P1 & H1); [intros; apply H'; lia|]. destruct (H' m ltac:(lia)) as (B2 & P2 & H2). exists (B1 + B2). split; [lra|]. intros j Hj.
    destruct (Nat.eq_dec j m) as [->|]; [apply (Mo _ _ B2); auto; lra|apply (Mo _ _ B1); [lra|apply H1; lia]]. }
  destruct X as (B' & HB' & H2). exists (B + B'). split; [lra|]. intros i j Hi Hj. destruct (Nat.eq_dec i n) as [->|]; [apply (Mo _ _ B'); [lra|auto]|apply (Mo _ _ B); [lra|apply H1; auto; lia]].
Qed.
