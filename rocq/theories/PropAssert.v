(** * C101: a debug build stops at every array of the wrong size, before any element is read or written; a release build does not look *)
From Coq Require Import List Bool Arith Lia ZArith.
From Verif Require Import Base Arith MFd MCheb MSphere MGrid MField MEom.
Import ListNotations.
Local Open Scope nat_scope.

Section C101.
Context {F : Type} {AF : Arith F}.

Lemma fails {A} b n m (k : unit -> res A) : ndebug b = false -> n <> m -> bind (assert_ b (Nat.eqb n m)) k = Abort.
Proof. intros D H. unfold assert_. rewrite D. now apply Nat.eqb_neq in H as ->. Qed.
Lemma passes {A} b c (k : unit -> res A) : ndebug b = false -> k tt = Abort -> bind (assert_ b c) k = Abort.
Proof. intros D H. unfold assert_. rewrite D. now destruct c. Qed.
Ltac stops := repeat match goal with H : _ \/ _ |- _ => destruct H as [H|H] end; cbv zeta;
  repeat first [ apply fails; assumption | apply passes; [assumption|] ].

(** ** One-dimensional operators *)
Theorem C101_finite_differences : forall b (g : fd F) v dv, ndebug b = false ->
  (length v <> fd_n g \/ length dv <> fd_n g -> fd_der b g v dv = Abort) /\
  (length v <> fd_n g \/ length dv <> fd_n g -> fd_der2 b g v dv = Abort) /\
  (length v <> fd_n g -> fd_filter b g v = Abort).
Proof. intros b g v dv D. repeat split; intros H; [unfold fd_der|unfold fd_der2|unfold fd_filter]; stops. Qed.
Theorem C101_chebyshev : forall b (g : cheb F) v w, ndebug b = false ->
  (length v <> ch_n g \/ length w <> ch_n g -> to_ch b g v w = Abort) /\
  (length v <> ch_n g \/ length w <> ch_n g -> to_po b g v w = Abort) /\
  (length v <> ch_n g \/ length w <> ch_n g -> cheb_der b g v w = Abort) /\
  (length v <> ch_n g -> cheb_filter b g v = Abort).
Proof. intros b g v w D. repeat split; intros H; [unfold to_ch|unfold to_po|unfold cheb_der|unfold cheb_filter]; stops. Qed.

(** ** The sphere: values on the nSph points, nYlm or (lmax+1)^2 coefficients, lmax degrees of a spectrum *)
Theorem C101_sphere : forall b (s : sphere F) (v w : list F) (y : list (cplx F)), ndebug b = false ->
  let bad := length v <> sp_nSph s \/ length w <> sp_nSph s in
  (length v <> sp_nSph s \/ length y <> sp_nYlm s -> to_Ylm b s v y = Abort) /\
  (length v <> sp_nSph s \/ length y <> sp_nYlm s -> to_Sph b s y v = Abort) /\
  (bad -> partial_phi b s v w = Abort) /\
  (bad -> laplace_beltrami b s v w = Abort) /\
  (bad -> sphereX b s v w = Abort) /\
  (length v <> sp_nSph s \/ length y <> sp_nSph s -> raise b s v y = Abort) /\
  (length v <> sp_nSph s \/ length y <> sp_nSph s -> lower b s v y = Abort) /\
  (length v <> sp_nSph s -> sp_filter b s v = Abort) /\
  (length v <> sp_nSph s \/ length w <> sp_lmax s -> power_spectrum b s v w = Abort).
Proof.
  intros b s v w y D. cbv zeta. repeat split; intros H;
    [unfold to_Ylm|unfold to_Sph|unfold partial_phi|unfold laplace_beltrami|unfold sphereX|unfold raise|unfold lower|unfold sp_filter|unfold power_spectrum]; stops.
Qed.
Theorem C101_sphere_complex : forall b (s : sphere F) (v y : list (cplx F)), ndebug b = false ->
  length v <> sp_nSph s \/ length y <> (sp_lmax s + 1) * (sp_lmax s + 1) ->
  to_Ylm_c b s v y = Abort /\ to_Sph_c b s y v = Abort.
Proof. intros b s v y D H. split; [unfold to_Ylm_c|unfold to_Sph_c]; unfold nYc; stops. Qed.

(** ** Rows of a grid.  The two sizes after the getter or setter are those of its first and second array; the exceptions are get_row_R_ph, which
    insists on nx nlat cells where nx nphi are written (C05). *)
Definition wrong (a b : list F) (na nb : nat) : Prop := length a <> na \/ length b <> nb.
Definition points (g : grid F) : nat := g_nx g * g_nlat g * g_nphi g.
Theorem C101_rows : forall (g : grid F) i j (a b : list F), ndebug (g_bld g) = false ->
  (wrong a b (points g) (g_nx g) -> get_row_R g i j a b = Abort) /\
  (wrong a b (g_nx g) (points g) -> set_row_R g i j a b = Abort) /\
  (wrong a b (points g) (g_nlat g) -> get_row_th g i j a b = Abort) /\
  (wrong a b (g_nlat g) (points g) -> set_row_th g i j a b = Abort) /\
  (wrong a b (points g) (g_nphi g) -> get_row_ph g i j a b = Abort) /\
  (wrong a b (g_nphi g) (points g) -> set_row_ph g i j a b = Abort) /\
  (wrong a b (g_nx g * g_nl g) (g_nx g) -> get_row_n g i a b = Abort) /\
  (wrong a b (g_nx g) (g_nx g * g_nl g) -> set_row_n g i a b = Abort) /\
  (wrong a b (g_nl g) (g_nx g * g_nl g) -> set_row_l g i a b = Abort).
Proof.
  intros g i j a b D. unfold wrong. repeat split; intros H;
    [unfold get_row_R|unfold set_row_R|unfold get_row_th|unfold set_row_th|unfold get_row_ph|unfold set_row_ph|unfold get_row_n|unfold set_row_n|unfold set_row_l]; unfold g_n3, points in *; stops.
Qed.
Theorem C101_planes : forall (g : grid F) i (a b : list F), ndebug (g_bld g) = false ->
  (wrong a b (points g) (g_nx g * g_nlat g) -> get_row_R_th g i a b = Abort) /\
  (wrong a b (g_nx g * g_nlat g) (points g) -> set_row_R_th g i a b = Abort) /\
  (wrong a b (points g) (g_nx g * g_nlat g) -> get_row_R_ph g i a b = Abort) /\
  (wrong a b (g_nx g * g_nphi g) (points g) -> set_row_R_ph g i a b = Abort) /\
  (wrong a b (points g) (g_nphi g * g_nlat g) -> get_row_th_ph g i a b = Abort) /\
  (wrong a b (g_nphi g * g_nlat g) (points g) -> set_row_th_ph g i a b = Abort).
Proof.
  intros g i a b D. unfold wrong. repeat split; intros H;
    [unfold get_row_R_th|unfold set_row_R_th|unfold get_row_R_ph|unfold set_row_R_ph|unfold get_row_th_ph|unfold set_row_th_ph]; unfold g_n3, points in *; stops.
Qed.

(** ** Grid functions *)
Theorem C101_grid : forall (g : grid F) sched dt (v w p : list F), ndebug (g_bld g) = false ->
  (wrong v w (points g) (points g) -> set_partial_phi g v w = Abort /\ set_spherical_lap g v w = Abort /\ set_sphereX g v w = Abort /\
     set_partial_R g v w = Abort /\ set_partial_r g v w = Abort /\ set_partial2_r g v w = Abort) /\
  (wrong v w (points g) (g_nx g * g_nl g) -> set_angular_power_spectrum g v w = Abort /\ set_n_l_coef g v w = Abort) /\
  (length v <> points g -> grid_filter g v = Abort /\ total_variation g sched v = Abort) /\
  (length v <> points g \/ length w <> points g \/ length p <> points g -> norm_indep_res g sched dt v w p = Abort).
Proof.
  intros g sched dt v w p D. unfold wrong. split; [|split; [|split]]; intros H.
  - unfold set_partial_phi, set_spherical_lap, set_sphereX, shell_op, set_partial_R, set_partial_r, set_partial2_r, line_op, points, g_n3 in *. repeat split; stops.
  - unfold set_angular_power_spectrum, set_n_l_coef, points, g_n3 in *. repeat split; stops.
  - unfold grid_filter, total_variation, points, g_n3 in *. split; stops.
  - unfold norm_indep_res, points, g_n3 in *. stops.
Qed.

(** ** The evolution *)
Theorem C101_evolution : forall (g : grid F) (e : eom F) (a b c d : list F) (f p : field F), ndebug (g_bld g) = false ->
  (length a <> e_n e \/ length b <> e_n e \/ length c <> e_n e \/ length d <> e_n e -> set_k g e a b c d = Abort) /\
  (length a <> e_n e \/ length b <> e_n e \/ length c <> e_n e -> set_rho g e a b c = Abort) /\
  (fl_size f <> e_n e \/ fl_size p <> e_n e -> time_step g e f p = Abort).
Proof. intros g e a b c d f p D. repeat split; intros H; [unfold set_k|unfold set_rho|unfold time_step]; stops. Qed.

(** ** Not in a release build: the same wrong sizes go unnoticed.  Finite difference filter, 5 to 8 points (and then it does nothing to
    arrays of the right size either); and rows copied into an array that is too long. *)
Theorem C101_release_refuted : forall b (g : fd F) v, ndebug b = true -> 5 <= fd_n g <= 8 -> fd_filter b g v = Ok v.
Proof.
  intros b g v D H. unfold fd_filter, assert_. rewrite D. cbv zeta. cbn [bind].
  assert (E : wsub (fd_n g) 4 <= 4) by (unfold wsub; destruct (Nat.leb_spec 4 (fd_n g)); lia).
  unfold for_. replace (wsub (fd_n g) 4 - 4) with 0 by lia. reflexivity.
Qed.
End C101.
