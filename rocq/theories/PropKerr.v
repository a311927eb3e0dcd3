(** * Property C70: the equation being solved is the Euler-Lagrange equation of the documented action
    on the Kerr spacetime. *)
From Coq Require Import Reals Lra.
From Coquelicot Require Import Coquelicot.
From Verif Require Import EomSpec LegSpec KerrSpec.
Local Open Scope R_scope.

Section Geometry.
Variables (M a : R) (x : event).
Hypothesis HS : Sigma a (xr x) (xth x) <> 0.
Hypothesis Hs : sin (xth x) <> 0.

Lemma cos2_sin2 t : cos t ^ 2 = 1 - sin t ^ 2.
Proof. pose proof (sin2_cos2 t) as H. unfold Rsqr in H. simpl. lra. Qed.
Lemma Sig_sin : xr x ^ 2 + a ^ 2 * (1 - sin (xth x) ^ 2) <> 0.
Proof. unfold Sigma in HS. now rewrite cos2_sin2 in HS. Qed.

(** the inverse metric is the inverse of the metric *)
Theorem C70_inverse_metric m n :
  sum4 (fun k => inverse_metric M a x m k * metric M a x k n) = delta m n.
Proof.
  pose proof Sig_sin as HS'. unfold sum4, inverse_metric, metric, dphi2_printed, delta, Sigma, Delta.
  rewrite cos2_sin2. set (s := sin (xth x)) in *. set (r := xr x) in *. clearbody s r.
  destruct m, n; field; auto.
Qed.
Theorem C70_volume_element : det4 (metric M a x) = - vol a x ^ 2.
Proof.
  pose proof Sig_sin as HS'. unfold det4, det3, metric, dphi2_printed, vol, Sigma. rewrite cos2_sin2. set (s := sin (xth x)) in *. set (r := xr x) in *. clearbody s r.
  field. auto.
Qed.
End Geometry.

(** the line element as printed is not inverse to the printed (grad psi)^2, even for M = a = 0 *)
Theorem C70_printed_metric_refuted : exists M a x m n, Sigma a (xr x) (xth x) <> 0 /\ sin (xth x) <> 0 /\
  sum4 (fun k => inverse_metric M a x m k * printed_metric M a x k n) <> delta m n.
Proof.
  exists 0, 0, (Ev 0 1 (PI / 6) 0), cph, cph. cbn [xr xth]. unfold Sigma.
  assert (E : sin (PI / 6) = 1 / 2) by apply sin_PI6. assert (S1 : 1 ^ 2 + 0 ^ 2 * cos (PI / 6) ^ 2 = 1) by ring.
  rewrite E, S1. split; [lra|]. split; [lra|].
  unfold sum4, inverse_metric, printed_metric, dphi2_printed, metric, delta. cbn [xr xth]. unfold Sigma. rewrite E, S1.
  match goal with |- ?l <> _ => replace l with 4 by field end. lra.
Qed.

Lemma ex_derive_is f x : ex_derive f x -> is_derive f x (Derive f x).
Proof. apply Derive_correct. Qed.

Lemma sum4_ext f g : (forall m, f m = g m) -> sum4 f = sum4 g.
Proof. intros H. unfold sum4. now rewrite !H. Qed.
Lemma is_derive_Rmult (f g : R -> R) (u df dg : R) : is_derive f u df -> is_derive g u dg ->
  is_derive (fun s => f s * g s) u (df * g u + f u * dg).
Proof. intros Hf Hg. exact (is_derive_mult f g u df dg Hf Hg (fun p q => Rmult_comm p q)). Qed.

Section Wave.
Variables (t : theory) (M a : R) (psi : event -> R) (x : event).
Hypothesis HS : Sigma a (xr x) (xth x) <> 0.
Hypothesis Hs : sin (xth x) <> 0.
Hypothesis Hd : twice_diff psi x.

(** sqrt(-g) g^{mu nu} and its derivative along mu *)
Definition W (m n : coord) (y : event) : R := vol a y * inverse_metric M a y m n.
Definition dW (m n : coord) : R :=
  let s := sin (xth x) in
  match m, n with
  | cr, cv => 2 * M * s
  | cr, cr => 2 * (xr x - M) * s
  | cth, cth => cos (xth x)
  | _, _ => 0
  end.
Lemma W_derive m n : is_derive (fun s => W m n (upd x m s)) (get x m) (dW m n).
Proof.
  unfold W, vol, inverse_metric, dW, Delta, Sigma in *.
  assert (HS' : xr x * (xr x * 1) + a * (a * 1) * (cos (xth x) * (cos (xth x) * 1)) <> 0) by exact HS.
  destruct m, n; cbn [upd get xv xr xth xph];
    try (auto_derive; repeat split; auto; try (now field; auto); fail);
    auto_derive; repeat split; auto; try (apply Rmult_integral_contrapositive_currified; auto; simpl; lra);
    field; intros HH; apply HS; rewrite <- HH; ring.
Qed.
Lemma upd_get m : upd x m (get x m) = x.
Proof. destruct x, m; reflexivity. Qed.

Lemma psi_derive m : is_derive (fun s => psi (upd x m s)) (get x m) (pd m psi x).
Proof. apply Derive_correct. exact (proj1 Hd m). Qed.
Lemma psi_derive2 m n : is_derive (fun s => pd n psi (upd x m s)) (get x m) (pd m (pd n psi) x).
Proof. apply Derive_correct. exact (proj1 (proj2 Hd) m n). Qed.

Definition flux (K : R -> R) (m : coord) (y : event) : R := K (psi y) * sum4 (fun n => W m n y * pd n psi y).
Lemma is_derive_sum4 (f : coord -> R -> R) (d : coord -> R) u : (forall n, is_derive (f n) u (d n)) ->
  is_derive (fun s => sum4 (fun n => f n s)) u (sum4 d).
Proof. intros H. unfold sum4. repeat apply (is_derive_plus (V := R_NormedModule)); apply H. Qed.
Lemma flux_derive K K' m : is_derive K (psi x) K' ->
  pd m (flux K m) x = K' * pd m psi x * sum4 (fun n => W m n x * pd n psi x)
    + K (psi x) * sum4 (fun n => dW m n * pd n psi x + W m n x * pd m (pd n psi) x).
Proof.
  intros HK. unfold pd at 1. apply is_derive_unique. unfold flux.
  assert (A : is_derive (fun s => K (psi (upd x m s))) (get x m) (pd m psi x * K')).
  { apply (is_derive_comp K). - rewrite upd_get. exact HK. - apply psi_derive. }
  assert (B : is_derive (fun s => sum4 (fun n => W m n (upd x m s) * pd n psi (upd x m s))) (get x m)
     (sum4 (fun n => dW m n * pd n psi x + W m n x * pd m (pd n psi) x))).
  { apply is_derive_sum4. intros n.
    pose proof (is_derive_Rmult _ _ _ _ _ (W_derive m n) (psi_derive2 m n)) as C.
    cbv beta in C. rewrite !upd_get in C. exact C. }
  pose proof (is_derive_Rmult _ _ _ _ _ A B) as C. cbv beta in C. rewrite !upd_get in C.
  rewrite (Rmult_comm K'). exact C.
Qed.

Local Notation r := (xr x).
Local Notation th := (xth x).
Lemma lap_jet : lap (event_jet psi x) = / sin th * (cos th * pd cth psi x + sin th * pd cth (pd cth psi) x) + / sin th ^ 2 * pd cph (pd cph psi) x.
Proof.
  unfold event_jet, laplacian, d_theta, d_phi. cbn [lap]. f_equal. f_equal.
  apply is_derive_unique.
  pose proof (is_derive_Rmult _ _ _ _ _ (is_derive_sin th) (psi_derive2 cth cth)) as C.
  cbv beta in C. rewrite !upd_get in C. exact C.
Qed.
Lemma grad_jet : gradsq (event_jet psi x) = pd cth psi x ^ 2 + pd cph psi x ^ 2 / sin th ^ 2.
Proof. reflexivity. Qed.

Lemma flux_sum K K' : is_derive K (psi x) K' ->
  sum4 (fun m => pd m (flux K m) x) =
  vol a x * (K (psi x) * Box M a r th (pd cv (pd cv psi) x) (event_jet psi x) + K' * grad2 M a r th (event_jet psi x)).
Proof.
  intros HK. unfold sum4 at 1. rewrite !(flux_derive K K') by auto. unfold sum4, Box, grad2. rewrite lap_jet, grad_jet.
  cbn [psi_v psi_r psi_vr psi_rr psi_ph psi_rph event_jet].
  destruct Hd as (_ & _ & Hsym).
  rewrite (Hsym cv cr), (Hsym cph cr).
  unfold W, dW, inverse_metric, vol.
  set (S := Sigma a r th) in *. set (sn := sin th) in *. set (cs := cos th). set (D := Delta M a r).
  generalize (pd cv (pd cv psi) x) (pd cr (pd cv psi) x) (pd cr (pd cr psi) x) (pd cr (pd cph psi) x) (pd cth (pd cth psi) x) (pd cph (pd cph psi) x).
  generalize (pd cv psi x) (pd cr psi x) (pd cth psi x) (pd cph psi x). generalize (K (psi x)). clearbody S sn cs D.
  intros. field. auto.
Qed.

(** the documented Box and (grad psi)^2 are the covariant ones *)
Theorem C70_box_is_covariant :
  covariant_box M a psi x = Box M a r th (pd cv (pd cv psi) x) (event_jet psi x) /\
  covariant_grad2 M a psi x = grad2 M a r th (event_jet psi x).
Proof.
  split.
  - unfold covariant_box. transitivity (/ vol a x * sum4 (fun m => pd m (flux (fun _ => 1) m) x)).
    + f_equal. apply sum4_ext. intros m. apply Derive_ext. intros s. unfold flux, W, sum4. ring.
    + assert (D1 : is_derive (fun _ : R => 1) (psi x) 0) by exact (is_derive_const (V := R_NormedModule) 1 (psi x)).
      pose proof (flux_sum (fun _ : R => 1) 0 D1) as FS. cbv beta in FS. rewrite FS. clear FS.
      assert (vol a x <> 0) by (unfold vol; apply Rmult_integral_contrapositive_currified; auto). field. auto.
  - unfold covariant_grad2, grad2, sum4, inverse_metric. rewrite grad_jet. cbn [psi_v psi_r psi_ph event_jet]. field. auto.
Qed.

Lemma lagr_dq y m : Derive (fun s => lagrangian t M a y (psi y) (updq (fun n => pd n psi y) m s)) (pd m psi y) = - flux (kfun t) m y.
Proof.
  apply is_derive_unique. unfold lagrangian, flux, W.
  set (G := fun n => pd n psi y). change (pd m psi y) with (G m). set (K := kfun t (psi y)). set (V := Vfun t (psi y)). set (vo := vol a y).
  assert (Sy : forall i j, inverse_metric M a y i j = inverse_metric M a y j i) by (intros [] []; reflexivity).
  unfold sum4, updq. change (pd cv psi y) with (G cv). change (pd cr psi y) with (G cr). change (pd cth psi y) with (G cth). change (pd cph psi y) with (G cph).
  set (I := inverse_metric M a y) in *. clearbody I K V vo G. destruct m; auto_derive; auto;
   rewrite ?(Sy cr cv), ?(Sy cth cv), ?(Sy cph cv), ?(Sy cth cr), ?(Sy cph cr), ?(Sy cph cth); match goal with |- ?l = ?r => change (@eq R l r) end; field.
Qed.

(** the documented field equation is the Euler-Lagrange equation of the documented action *)
Theorem C70_field_equation_is_euler_lagrange : kfun t (psi x) <> 0 -> psi x + 1 <> 0 ->
  (euler_lagrange t M a psi x <-> field_equation t M a r th (pd cv (pd cv psi) x) (event_jet psi x)).
Proof.
  intros HK H1.
  assert (Dk : is_derive (kfun t) (psi x) (Derive (kfun t) (psi x))).
  { apply Derive_correct. unfold kfun. auto_derive; auto. }
  assert (DV : is_derive (Vfun t) (psi x) (Derive (Vfun t) (psi x))).
  { apply Derive_correct. unfold Vfun. auto_derive; auto. }
  assert (Hv : vol a x <> 0) by (unfold vol; apply Rmult_integral_contrapositive_currified; auto).
  assert (EL : sum4 (fun m => pd m (fun y => Derive (fun s => lagrangian t M a y (psi y) (updq (fun n => pd n psi y) m s)) (pd m psi y)) x)
    = - sum4 (fun m => pd m (flux (kfun t) m) x)).
  { assert (K : forall m, pd m (fun y => Derive (fun s => lagrangian t M a y (psi y) (updq (fun n => pd n psi y) m s)) (pd m psi y)) x = - pd m (flux (kfun t) m) x).
    { intros m. unfold pd at 1. rewrite (Derive_ext _ (fun s => - flux (kfun t) m (upd x m s))) by (intros s; apply lagr_dq).
      apply Derive_opp. }
    unfold sum4 at 1. rewrite !K. unfold sum4 at 1. ring. }
  assert (ER : Derive (fun u => lagrangian t M a x u (fun n => pd n psi x)) (psi x)
    = vol a x * (- (1 / 2) * Derive (kfun t) (psi x) * covariant_grad2 M a psi x - Derive (Vfun t) (psi x))).
  { apply is_derive_unique. unfold lagrangian. fold (covariant_grad2 M a psi x). set (G := covariant_grad2 M a psi x).
    apply (is_derive_scal (fun u => - (1 / 2) * kfun t u * G - Vfun t u)).
    apply (is_derive_minus (V := R_NormedModule) (fun u => - (1 / 2) * kfun t u * G)); [|exact DV].
    apply (is_derive_ext (fun u => - (1 / 2) * G * kfun t u)); [intros u; simpl; ring|].
    replace (- (1 / 2) * Derive (kfun t) (psi x) * G) with (- (1 / 2) * G * Derive (kfun t) (psi x)) by ring.
    apply (is_derive_scal (kfun t)). exact Dk. }
  unfold euler_lagrange. rewrite EL, ER, (flux_sum _ _ Dk), (proj2 C70_box_is_covariant). unfold field_equation.
  change (EomSpec.psi (event_jet psi x)) with (psi x).
  generalize (Box M a r th (pd cv (pd cv psi) x) (event_jet psi x)) (grad2 M a r th (event_jet psi x)). intros B G.
  revert HK Dk DV Hv. generalize (kfun t (psi x)) (Derive (kfun t) (psi x)) (Derive (Vfun t) (psi x)) (vol a x). intros k k' v' w HK _ _ Hw. clear - HK Hw. split; intros H.
  - assert (E : w * (k * (B + 1 / 2 * (k' / k) * G - 1 / k * v')) = 0) by (field_simplify; [lra|auto]).
    apply Rmult_integral in E. destruct E as [E|E]; [contradiction|]. apply Rmult_integral in E. destruct E as [E|E]; [contradiction|exact E].
  - assert (E : w * (k * (B + 1 / 2 * (k' / k) * G - 1 / k * v')) = 0) by (rewrite H; ring).
    field_simplify in E; [lra|auto].
Qed.
End Wave.
