(** Real-arithmetic facts about the coefficients of Scalar_eom. *)
From Coq Require Import Reals Lra.
From Coquelicot Require Import Coquelicot.
From Verif Require Import Base Arith MFd MCheb MSphere MGrid MParams MEom EomSpec.
Local Open Scope R_scope.

Lemma Rltb_true x y : x < y -> Rltb x y = true.
Proof. unfold Rltb. destruct (Rlt_dec x y); [auto|contradiction]. Qed.
Lemma Rltb_false x y : y <= x -> Rltb x y = false.
Proof. unfold Rltb. destruct (Rlt_dec x y); [lra|auto]. Qed.
Lemma tol_eq : (1 * powerRZ 10 (-16)) = 1 / 10 ^ 16.
Proof. change (powerRZ 10 (-16)) with (/ (10 ^ 16)). lra. Qed.
Lemma tol_pos : 0 < 1 / 10 ^ 16.
Proof. apply Rdiv_lt_0_compat; [lra|apply pow_lt; lra]. Qed.
Lemma half_eq : 5 * powerRZ 10 (-1) = 1 / 2.
Proof. change (powerRZ 10 (-1)) with (/ (10 ^ 1)). lra. Qed.

Ltac R_ops := cbn [R_arith fadd fsub fmul fdiv fopp fabs flt fofZ fdec fpow fpowh fexp flog fcos fsin facos fpi].

Lemma sqrt_spin_le M a : 0 < M -> Rabs a <= M -> 0 <= M ^ 2 - a ^ 2.
Proof. intros HM Ha. assert (a ^ 2 <= M ^ 2); [|lra]. rewrite <- (pow2_abs a). apply pow_incr. split; [apply Rabs_pos|auto]. Qed.

Lemma hor_values M a : 0 < M -> Rabs a <= M -> clean_spin M a -> hor_p M a = r_plus M a /\ hor_m M a = r_minus M a.
Proof.
  intros HM Ha Hc. pose proof (sqrt_spin_le M a HM Ha) as Hs. pose proof tol_pos as Ht.
  assert (Hr0 : 0 <= sqrt (M ^ 2 - a ^ 2)) by apply sqrt_pos.
  assert (Hsq : sqrt (M ^ 2 - a ^ 2) * sqrt (M ^ 2 - a ^ 2) = M ^ 2 - a ^ 2) by now apply sqrt_sqrt.
  unfold hor_m, hor_p, r_plus, r_minus. R_ops. rewrite tol_eq.
  destruct Hc as [He|[Hg Hz]].
  - rewrite He. rewrite Rminus_eq_0, Rabs_R0, Rltb_true by auto.
    replace (M ^ 2 - a ^ 2) with 0; [rewrite sqrt_0; lra|]. rewrite <- (pow2_abs a), He. ring.
  - rewrite (Rltb_false (Rabs (M - Rabs a))) by auto.
    destruct Hz as [->|Hz].
    + rewrite Rabs_R0, Rltb_true by auto. replace (M ^ 2 - 0 ^ 2) with (M ^ 2) by ring. rewrite sqrt_pow2 by lra. split; [lra|]. field. lra.
    + rewrite (Rltb_false (Rabs a)) by auto. replace ((M - a) * (M + a)) with (M ^ 2 - a ^ 2) by ring. split; auto.
      assert (Hp : M + sqrt (M ^ 2 - a ^ 2) <> 0) by lra. apply (Rmult_eq_reg_r (M + sqrt (M ^ 2 - a ^ 2))); auto.
      unfold Rdiv. rewrite Rmult_assoc, Rinv_l, Rmult_1_r by auto.
      replace ((M - sqrt (M ^ 2 - a ^ 2)) * (M + sqrt (M ^ 2 - a ^ 2))) with (M ^ 2 - sqrt (M ^ 2 - a ^ 2) * sqrt (M ^ 2 - a ^ 2)) by ring.
      rewrite Hsq. ring.
Qed.
Lemma Delta_roots M a r : 0 < M -> Rabs a <= M -> Delta M a r = (r - r_plus M a) * (r - r_minus M a).
Proof.
  intros HM Ha. pose proof (sqrt_spin_le M a HM Ha) as Hs.
  assert (Hsq : sqrt (M ^ 2 - a ^ 2) * sqrt (M ^ 2 - a ^ 2) = M ^ 2 - a ^ 2) by now apply sqrt_sqrt.
  unfold Delta, r_plus, r_minus. set (q := sqrt _) in *.
  transitivity (r ^ 2 - 2 * M * r + (M ^ 2 - q * q)); [rewrite Hsq; ring|ring].
Qed.
Lemma Delta_value M a r : 0 < M -> Rabs a <= M -> clean_spin M a -> r <> 0 -> Delta_ M a (/ r) = Delta M a r / r ^ 2.
Proof.
  intros HM Ha Hc Hr. destruct (hor_values M a HM Ha Hc) as [E1 E2]. unfold Delta_. rewrite E1, E2, Delta_roots by auto. R_ops. field. auto.
Qed.
Lemma Sigma_pos a r th : 0 < r -> 0 < Sigma a r th.
Proof. intros H. unfold Sigma. assert (0 < r ^ 2) by (apply pow_lt; auto). assert (0 <= a ^ 2) by apply pow2_ge_0. assert (0 <= cos th ^ 2) by apply pow2_ge_0. nra. Qed.
Lemma Sigma_value a r th : 0 < r -> Sigma_ a (/ r) th = Sigma a r th / r ^ 2.
Proof. intros H. unfold Sigma_, Sigma. R_ops. field. lra. Qed.

Lemma Cf_ext {F : Type} (a0 a1 a2 a3 a4 a5 a6 a7 a8 a9 a10 a11 a12 a13 a14 a15 a16 b0 b1 b2 b3 b4 b5 b6 b7 b8 b9 b10 b11 b12 b13 b14 b15 b16 : F) : a0 = b0 -> a1 = b1 -> a2 = b2 -> a3 = b3 -> a4 = b4 -> a5 = b5 -> a6 = b6 -> a7 = b7 -> a8 = b8 -> a9 = b9 -> a10 = b10 -> a11 = b11 -> a12 = b12 -> a13 = b13 -> a14 = b14 -> a15 = b15 -> a16 = b16 -> Cf a0 a1 a2 a3 a4 a5 a6 a7 a8 a9 a10 a11 a12 a13 a14 a15 a16 = Cf b0 b1 b2 b3 b4 b5 b6 b7 b8 b9 b10 b11 b12 b13 b14 b15 b16.
Proof. intros. subst. reflexivity. Qed.
(** the coefficients in terms of r *)
Definition cA (M a r th : R) : R := 1 + 2 * M * r / Sigma a r th.
Lemma cA_pos M a r th : 0 <= M -> 0 < r -> 1 <= cA M a r th.
Proof.
  intros HM Hr. unfold cA. pose proof (Sigma_pos a r th Hr). assert (0 <= 2 * M * r / Sigma a r th); [|lra].
  apply Rmult_le_pos; [|left; apply Rinv_0_lt_compat; auto]. nra.
Qed.
Lemma coef_value M a r th : 0 < M -> Rabs a <= M -> clean_spin M a -> 0 < r ->
  let S := Sigma a r th in let A := cA M a r th in
  coef_at M a (/ r) th =
  Cf (/ A) (2 * M / S / A) (2 * (r - M) / S / A) (4 * M * r / S / A) (Delta M a r / S / A) (2 * a / S / A) (1 / S / A)
     (-1) (4 * M * r / S / A) (Delta M a r / S / A) (2 * a / S / A) (1 / S / A)
     (A / 2) (2 * M * r / S) ((1 / 2) * ((r ^ 2 + 2 * M * r + a ^ 2) / S - 4 * M * r / (2 * M * r + S))) (a / S) (1 / 2 / S).
Proof.
  intros HM Ha Hc Hr S A. pose proof (Sigma_pos a r th Hr) as HS. pose proof (cA_pos M a r th ltac:(lra) Hr) as HA.
  assert (EA : A = (S + 2 * M * r) / S) by (unfold A, cA, S; field; lra).
  assert (HSM : S + 2 * M * r <> 0) by (unfold S; nra).
  unfold coef_at. rewrite Delta_value, Sigma_value by (auto; lra). fold S. rewrite EA. R_ops. rewrite half_eq.
  fold S in HS. clearbody S. clear EA A HA. generalize (Delta M a r). intros Dl.
  assert (HSn : S <> 0) by lra. assert (Hrn : r <> 0) by lra. assert (HSM' : 2 * M * r + S <> 0) by lra.
  assert (Q1 : r ^ 2 <> 0) by (apply pow_nonzero; lra).
  apply Cf_ext; field; auto.
Qed.

(** the theory parameters of an equation-of-motion object *)
Definition theory_e (e : eom R) : theory := Theory (e_km1 e) (e_k0 e) (e_k1 e) (e_k2 e) (e_v2 e) (e_v3 e) (e_v4 e).
Lemma kprime_derive e x : x + 1 <> 0 -> is_derive (kfun (theory_e e)) x (kprime e x).
Proof. intros H. unfold kfun, kprime, theory_e. cbn [t_km1 t_k0 t_k1 t_k2]. R_ops. auto_derive; auto. field. auto. Qed.
Lemma V_derive t x : is_derive (Vfun t) x (t_V2 t * x + t_V3 t / 2 * x ^ 2 + t_V4 t / 6 * x ^ 3).
Proof. unfold Vfun. auto_derive; auto. field. Qed.
Lemma inverse_k_value e x : inverse_k e x = / kfun (theory_e e) x.
Proof. unfold inverse_k, kfun, theory_e. cbn [t_km1 t_k0 t_k1 t_k2]. R_ops. unfold Rdiv at 1. now rewrite Rmult_1_l. Qed.
Lemma vprime_value e x : vprime e x = / kfun (theory_e e) x * Derive (Vfun (theory_e e)) x.
Proof. unfold vprime. rewrite inverse_k_value, (is_derive_unique _ _ _ (V_derive _ x)). reflexivity. Qed.

(** solving the field equation for the second time derivative *)
Lemma p_rhs_solves e M a r th j : 0 < M -> Rabs a <= M -> clean_spin M a -> 0 < r ->
  kfun (theory_e e) (psi j) <> 0 -> psi j + 1 <> 0 -> forall q,
  field_equation (theory_e e) M a r th q j <->
  q = p_rhs e (coef_at M a (/ r) th) (psi j) (psi_v j) (psi_r j) (psi_vr j) (psi_rr j) (psi_ph j) (psi_rph j) (lap j) (gradsq j).
Proof.
  intros HM Ha Hc Hr Hk H1 q. rewrite coef_value by auto.
  pose proof (Sigma_pos a r th Hr) as HS. pose proof (cA_pos M a r th ltac:(lra) Hr) as HA.
  unfold field_equation, p_rhs. cbn [c_pre c_p c_dr_f c_dr_p c_dr_dr_f c_dphi_dr_f c_lap_f c_p_p c_p_dr_f c_dr_f_dr_f c_dr_f_dphi_f c_sphereX_f].
  rewrite inverse_k_value, vprime_value, (is_derive_unique _ _ _ (kprime_derive e (psi j) H1)). R_ops. rewrite half_eq.
  unfold Box, grad2. fold (cA M a r th).
  assert (HSn : Sigma a r th <> 0) by lra. assert (HAn : cA M a r th <> 0) by lra.
  set (A := cA M a r th) in *. set (S := Sigma a r th) in *. set (K := kfun (theory_e e) (psi j)) in *. set (Dl := Delta M a r).
  generalize (kprime e (psi j)). generalize (Derive (Vfun (theory_e e)) (psi j)). intros DV DK. clearbody A S K Dl.
  match goal with |- ?X = 0 <-> q = ?Y => assert (E : X = A * (Y - q)) end.
  { field. auto. }
  rewrite E. split.
  - intros H. apply Rmult_integral in H. destruct H; [contradiction|lra].
  - intros ->. ring.
Qed.

(** limits at infinity *)
Lemma lim_inv_infty (hh : R -> R) : ex_derive hh 0 -> is_lim (fun r => hh (/ r)) p_infty (hh 0).
Proof.
  intros H. apply (is_lim_comp hh (fun r => / r) p_infty (hh 0) 0).
  - apply is_lim_continuity. apply continuity_pt_filterlim. apply (ex_derive_continuous (V := R_NormedModule)). auto.
  - assert (E : Rbar_inv p_infty = Finite 0) by reflexivity. rewrite <- E. apply is_lim_inv; [apply is_lim_id|discriminate].
  - exists 0. intros x Hx E. injection E as E. apply Rinv_neq_0_compat in E; auto. lra.
Qed.
Lemma coef_infty M a th : coef_at M a 0 th = Cf 1 0 0 0 1 0 0 (-1) 0 1 0 0 (1/2) 0 (1/2) 0 0.
Proof.
  unfold coef_at, Sigma_, Delta_. generalize (hor_p M a) (hor_m M a). intros hp hm. R_ops. rewrite half_eq.
  apply Cf_ext; field.
Qed.
