(** Legendre functions: derivatives, differential equation, ladder relations, degrees. *)
From Coq Require Import Reals Lra Lia List.
From Coquelicot Require Import Coquelicot.
From Verif Require Import Spec PSum PFdR LegSpec.
Import ListNotations.
Local Open Scope R_scope.

(** ** polynomials as coefficient lists *)
Fixpoint padd (p q : list R) : list R :=
  match p, q with [], _ => q | _, [] => p | a :: p', b :: q' => (a + b) :: padd p' q' end.
Lemma padd_spec p q x : poly (padd p q) x = poly p x + poly q x.
Proof. revert q; induction p as [|a p IH]; intros [|b q]; cbn [padd poly]; try ring. rewrite IH. ring. Qed.
Definition pscal (a : R) (p : list R) : list R := map (Rmult a) p.
Lemma pscal_spec a p x : poly (pscal a p) x = a * poly p x.
Proof. induction p as [|b p IH]; cbn [pscal map poly]; [ring|]. fold (pscal a p). rewrite IH. ring. Qed.
(** (x^2-1) * p *)
Definition mulw (p : list R) : list R := padd (0 :: 0 :: p) (pscal (-1) p).
Lemma mulw_spec p x : poly (mulw p) x = (x ^ 2 - 1) * poly p x.
Proof. unfold mulw. rewrite padd_spec, pscal_spec. cbn [poly]. ring. Qed.
Fixpoint wpow (l : nat) : list R := match l with O => [1] | S l' => mulw (wpow l') end.
Lemma wpow_spec l x : poly (wpow l) x = (x ^ 2 - 1) ^ l.
Proof. induction l as [|l IH]; cbn [wpow]; [cbn; ring|]. rewrite mulw_spec, IH. cbn [pow]. ring. Qed.

(** monic of the given degree *)
Definition lead (p : list R) (d : nat) (a : R) : Prop := length p = S d /\ nth d p 0 = a.
Lemma padd_length p q : length (padd p q) = Nat.max (length p) (length q).
Proof. revert q; induction p as [|a p IH]; intros [|b q]; cbn [padd length]; try lia. rewrite IH. lia. Qed.
Lemma padd_nth p q i : nth i (padd p q) 0 = nth i p 0 + nth i q 0.
Proof. revert q i; induction p as [|a p IH]; intros [|b q] [|i]; cbn [padd nth]; try ring. apply IH. Qed.
Lemma wpow_lead l : lead (wpow l) (2 * l) 1.
Proof.
  induction l as [|l [L1 H1]]; [split; reflexivity|]. unfold lead. cbn [wpow]. unfold mulw. split.
  - rewrite padd_length. unfold pscal. rewrite map_length. cbn [length]. lia.
  - rewrite padd_nth. replace (2 * S l)%nat with (S (S (2 * l))) by lia. cbn [nth]. rewrite H1.
    unfold pscal. rewrite (nth_overflow (map _ _)); [ring|]. rewrite map_length. lia.
Qed.
Lemma dcoef_length k c : length (dcoef k c) = length c.
Proof. revert k; induction c; intros; cbn; auto. Qed.
Lemma dcoef_nth k c i : nth i (dcoef k c) 0 = INR (k + i) * nth i c 0.
Proof.
  revert k i; induction c as [|a c IH]; intros k i; cbn [dcoef].
  - destruct i; cbn [nth]; ring.
  - destruct i as [|i]; cbn [nth]; [now rewrite Nat.add_0_r|]. rewrite IH. f_equal. f_equal. lia.
Qed.
Lemma dp_lead c d a : lead c (S d) a -> lead (dp c) d (INR (S d) * a).
Proof.
  intros [L H]. destruct c as [|x c]; [discriminate|]. cbn [dp]. split.
  - rewrite dcoef_length. cbn in L. lia.
  - rewrite dcoef_nth. cbn [nth] in H. rewrite H. reflexivity.
Qed.
Definition dpn (k : nat) (c : list R) : list R := Nat.iter k dp c.
Lemma dpn_lead k c d a : lead c (d + k) a -> a <> 0 -> exists a', lead (dpn k c) d a' /\ a' <> 0.
Proof.
  revert d a; induction k as [|k IH]; intros d a H Ha; cbn.
  - exists a. rewrite Nat.add_0_r in H. auto.
  - destruct (IH (S d) a) as (a' & H' & Ha'); [now replace (S d + k)%nat with (d + S k)%nat by lia|auto|].
    exists (INR (S d) * a'). split; [now apply dp_lead|]. apply Rmult_integral_contrapositive_currified; auto.
    apply not_0_INR. lia.
Qed.
Lemma dpn_S k c : dpn (S k) c = dp (dpn k c). Proof. reflexivity. Qed.
Lemma dpn_shift k c : dpn (S k) c = dpn k (dp c).
Proof. revert c; induction k as [|k IH]; intros c; auto. rewrite (dpn_S (S k)), IH. reflexivity. Qed.
Lemma Derive_n_poly f c k x : (forall y, f y = poly c y) -> Derive_n f k x = poly (dpn k c) x.
Proof.
  intros H. revert x. induction k as [|k IH]; intros x; cbn [Derive_n]; [apply H|].
  rewrite (Derive_ext _ _ x IH), poly_Derive. reflexivity.
Qed.

Lemma lin_derive a x : is_derive (fun y : R => a * y) x a.
Proof. auto_derive; auto; ring. Qed.
Section Leg.
Variable l : nat.
Let D (k : nat) (x : R) : R := poly (dpn k (wpow l)) x.
Lemma D_derive k x : is_derive (D k) x (D (S k) x).
Proof. apply poly_is_derive. Qed.
Lemma D_base x : (1 - x ^ 2) * D 1 x + 2 * INR l * x * D 0 x = 0.
Proof.
  change (D 1 x) with (poly (dp (wpow l)) x). change (D 0 x) with (poly (wpow l) x). rewrite <- poly_Derive. rewrite wpow_spec.
  assert (E : is_derive (fun x => (x ^ 2 - 1) ^ l) x (INR l * (x ^ 2 - 1) ^ pred l * (2 * x))).
  { auto_derive; auto. replace (x * (x * 1) + - (1)) with (x ^ 2 - 1) by ring. ring. }
  replace (Derive (poly (wpow l)) x) with (INR l * (x ^ 2 - 1) ^ pred l * (2 * x)).
  2:{ symmetry. apply is_derive_unique. eapply is_derive_ext; [|exact E]. intros; symmetry; apply wpow_spec. }
  clear. destruct l as [|l']; [cbn; ring|]. cbn [pred pow]. ring.
Qed.
Lemma D_ode k x : (1 - x ^ 2) * D (S (S k)) x + 2 * (INR l - INR (S k)) * x * D (S k) x + INR (S k) * (2 * INR l - INR k) * D k x = 0.
Proof.
  revert x. induction k as [|k IH]; intros x.
  - assert (E : is_derive (fun x => (1 - x ^ 2) * D 1 x + 2 * INR l * x * D 0 x) x
      (- (2 * x) * D 1 x + (1 - x ^ 2) * D 2 x + (2 * INR l * D 0 x + 2 * INR l * x * D 1 x))).
    { apply @is_derive_plus.
      - apply (is_derive_mult (fun x => 1 - x ^ 2) (D 1) x (- (2 * x)) (D 2 x)); [auto_derive; auto; ring|apply D_derive|intros; apply Rmult_comm].
      - apply (is_derive_mult (fun x => 2 * INR l * x) (D 0) x (2 * INR l) (D 1 x)); [auto_derive; auto; ring|apply D_derive|intros; apply Rmult_comm]. }
    apply is_derive_unique in E. rewrite (Derive_ext _ (fun _ => 0)) in E by apply D_base. rewrite Derive_const in E.
    simpl INR. lra.
  - assert (E : is_derive (fun x => (1 - x ^ 2) * D (S (S k)) x + 2 * (INR l - INR (S k)) * x * D (S k) x + INR (S k) * (2 * INR l - INR k) * D k x) x
      (- (2 * x) * D (S (S k)) x + (1 - x ^ 2) * D (S (S (S k))) x
       + (2 * (INR l - INR (S k)) * D (S k) x + 2 * (INR l - INR (S k)) * x * D (S (S k)) x)
       + INR (S k) * (2 * INR l - INR k) * D (S k) x)).
    { apply @is_derive_plus; [apply @is_derive_plus|].
      - apply (is_derive_mult (fun x => 1 - x ^ 2) (D (S (S k))) x (- (2 * x)) (D (S (S (S k))) x)); [auto_derive; auto; ring|apply D_derive|intros; apply Rmult_comm].
      - apply (is_derive_mult (fun x => 2 * (INR l - INR (S k)) * x) (D (S k)) x (2 * (INR l - INR (S k))) (D (S (S k)) x)); [apply lin_derive|apply D_derive|intros; apply Rmult_comm].
      - apply @is_derive_scal. apply D_derive. }
    apply is_derive_unique in E. rewrite (Derive_ext _ (fun _ => 0)) in E by apply IH. rewrite Derive_const in E.
    rewrite !S_INR in *. nra.
Qed.
Let c := 2 ^ l * INR (fact l).
Lemma c_pos : c > 0. Proof. apply Rmult_lt_0_compat; [apply pow_lt; lra|apply lt_0_INR, lt_O_fact]. Qed.
Lemma legendre_poly m x : legendre l m x = poly (pscal (/ c) (dpn (l + m) (wpow l))) x.
Proof.
  unfold legendre. rewrite (Derive_n_poly _ (wpow l)) by (intros; now rewrite wpow_spec).
  rewrite pscal_spec. unfold Rdiv. fold c. ring.
Qed.
Lemma legendre_derive m x : is_derive (legendre l m) x (legendre l (S m) x).
Proof.
  assert (E : forall j y, legendre l j y = / c * D (l + j) y) by (intros; rewrite legendre_poly, pscal_spec; reflexivity).
  apply (is_derive_ext (fun y => / c * D (l + m) y)); [intros; now rewrite E|].
  rewrite E. apply @is_derive_scal. replace (l + S m)%nat with (S (l + m)) by lia. apply D_derive.
Qed.
(** (1-x^2) P^(m+2) - 2(m+1) x P^(m+1) + (l-m)(l+m+1) P^(m) = 0 *)
Lemma legendre_ode m x : (1 - x ^ 2) * legendre l (S (S m)) x - 2 * (INR m + 1) * x * legendre l (S m) x
  + (INR l - INR m) * (INR l + INR m + 1) * legendre l m x = 0.
Proof.
  assert (E : forall j y, legendre l j y = / c * D (l + j) y) by (intros; rewrite legendre_poly, pscal_spec; reflexivity).
  rewrite !E. pose proof (D_ode (l + m) x) as O.
  replace (l + S (S m))%nat with (S (S (l + m))) by lia. replace (l + S m)%nat with (S (l + m)) by lia.
  rewrite !S_INR, plus_INR in O.
  transitivity (/ c * ((1 - x ^ 2) * D (S (S (l + m))) x + 2 * (INR l - (INR l + INR m + 1)) * x * D (S (l + m)) x + (INR l + INR m + 1) * (2 * INR l - (INR l + INR m)) * D (l + m) x)); [ring|].
  rewrite O. ring.
Qed.
Lemma legendre_top m x : (l < m)%nat -> legendre l m x = 0.
Proof.
  intros Hm. assert (G : forall k q, (length q <= k)%nat -> dpn k q = []).
  { induction k as [|k IH]; intros q Hq; [destruct q; auto; cbn in Hq; lia|].
    rewrite dpn_shift. apply IH. destruct q as [|x0 q]; cbn [dp]; [cbn; lia|].
    rewrite dcoef_length. cbn in Hq. lia. }
  rewrite legendre_poly, G; [reflexivity|]. pose proof (wpow_lead l) as [Hl _]. lia.
Qed.
Lemma legendre_degree m : (m <= l)%nat -> exists p a, lead p (l - m) a /\ a <> 0 /\ forall x, legendre l m x = poly p x.
Proof.
  intros Hm. destruct (dpn_lead (l + m) (wpow l) (l - m) 1) as (a & [L H] & Ha).
  - replace (l - m + (l + m))%nat with (2 * l)%nat by lia. apply wpow_lead.
  - lra.
  - exists (pscal (/ c) (dpn (l + m) (wpow l))), (/ c * a). pose proof c_pos. repeat split.
    + unfold pscal. now rewrite map_length.
    + unfold pscal. rewrite (nth_indep _ 0 (/ c * 0)) by (rewrite map_length; lia). rewrite map_nth. now rewrite H.
    + apply Rmult_integral_contrapositive_currified; auto. apply Rinv_neq_0_compat. lra.
    + intros x. apply legendre_poly.
Qed.
End Leg.

(** ** normalisation *)
Lemma ynorm_pos l m : (m <= l)%nat -> 0 < ynorm l m.
Proof.
  intros H. unfold ynorm. apply sqrt_lt_R0. apply Rmult_lt_0_compat.
  - apply Rmult_lt_0_compat; [pose proof (pos_INR l); lra|]. apply Rinv_0_lt_compat. pose proof PI_RGT_0. lra.
  - apply Rmult_lt_0_compat; [|apply Rinv_0_lt_compat]; apply lt_0_INR, lt_O_fact.
Qed.
Lemma ynorm_S l m : (S m <= l)%nat -> ynorm l m = sqrt ((INR l - INR m) * (INR l + INR m + 1)) * ynorm l (S m).
Proof.
  intros H. unfold ynorm. pose proof PI_RGT_0 as HPI. pose proof (pos_INR l).
  assert (H1 : INR l - INR m > 0). { rewrite <- minus_INR by lia. apply lt_0_INR. lia. }
  assert (H2 : 0 < INR l + INR m + 1). { pose proof (pos_INR m). lra. }
  assert (F1 : 0 < INR (fact (l - S m))) by (apply lt_0_INR, lt_O_fact).
  assert (F2 : 0 < INR (fact (l + m))) by (apply lt_0_INR, lt_O_fact).
  assert (G : 0 < INR (fact (l + S m))) by (apply lt_0_INR, lt_O_fact).
  rewrite <- sqrt_mult_alt by (left; apply Rmult_lt_0_compat; auto). f_equal.
  replace (fact (l - m)) with ((l - m) * fact (l - S m))%nat by (replace (l - m)%nat with (S (l - S m)) by lia; reflexivity).
  replace (fact (l + S m)) with ((S (l + m)) * fact (l + m))%nat in * by (replace (l + S m)%nat with (S (l + m)) by lia; reflexivity).
  rewrite !mult_INR, minus_INR, S_INR, plus_INR by lia. field. repeat split; lra.
Qed.

(** ** profiles *)
Definition dprofile (l m : nat) (th : R) : R :=
  (-1) ^ m * ynorm l m * (INR m * sin th ^ pred m * cos th * legendre l m (cos th) - sin th ^ S m * legendre l (S m) (cos th)).
Lemma sinpow_derive m (th : R) : is_derive (fun t => sin t ^ m) th (INR m * sin th ^ pred m * cos th).
Proof. auto_derive; auto. ring. Qed.
Lemma profile_derive l m th : is_derive (Ylm_profile l m) th (dprofile l m th).
Proof.
  unfold Ylm_profile, dprofile.
  pose proof (is_derive_comp (legendre l m) cos th (legendre l (S m) (cos th)) (- sin th) (legendre_derive l m (cos th))
    (is_derive_cos th)) as E.
  apply (is_derive_ext (fun t => ((-1) ^ m * ynorm l m) * (sin t ^ m * legendre l m (cos t)))).
  { intros t. match goal with |- ?a = ?b => change (@eq R a b) end. ring. }
  apply @is_derive_scal.
  replace (INR m * sin th ^ pred m * cos th * legendre l m (cos th) - sin th ^ S m * legendre l (S m) (cos th))
    with (INR m * sin th ^ pred m * cos th * legendre l m (cos th) + sin th ^ m * scal (- sin th) (legendre l (S m) (cos th))).
  - apply (is_derive_mult (fun t => sin t ^ m) (fun t => legendre l m (cos t))); [apply sinpow_derive|exact E|intros; apply Rmult_comm].
  - unfold scal; cbn. unfold mult; cbn. ring.
Qed.
Lemma pow_pred x m : INR m * x ^ pred m * x = INR m * x ^ m.
Proof. destruct m as [|m]; [cbn; ring|]. cbn [pred pow]. ring. Qed.

(** P' - m cot P = sqrt((l-m)(l+m+1)) P_{m+1},  P' + m cot P = - sqrt((l-m+1)(l+m)) P_{m-1} *)
Lemma profile_up l m th : (m <= l)%nat -> sin th <> 0 ->
  dprofile l m th - INR m * (cos th / sin th) * Ylm_profile l m th = sqrt ((INR l - INR m) * (INR l + INR m + 1)) * Ylm_profile l (S m) th.
Proof.
  intros Hm Hs. unfold dprofile, Ylm_profile.
  replace (INR m * (cos th / sin th) * ((-1) ^ m * ynorm l m * sin th ^ m * legendre l m (cos th)))
    with ((-1) ^ m * ynorm l m * (INR m * sin th ^ m * / sin th * cos th * legendre l m (cos th))) by (field; auto).
  rewrite <- (pow_pred (sin th) m).
  transitivity ((-1) ^ m * ynorm l m * (- sin th ^ S m * legendre l (S m) (cos th))); [field; auto|].
  destruct (Nat.eq_dec m l) as [->|Hne].
  - rewrite legendre_top by lia. rewrite Rminus_diag_eq, Rmult_0_l, sqrt_0 by auto. ring.
  - rewrite (ynorm_S l m) by lia. cbn [pow]. ring.
Qed.
Lemma profile_down l m th : (S m <= l)%nat -> sin th <> 0 ->
  dprofile l (S m) th + INR (S m) * (cos th / sin th) * Ylm_profile l (S m) th
    = - (sqrt ((INR l - INR m) * (INR l + INR m + 1)) * Ylm_profile l m th).
Proof.
  intros Hm Hs. unfold dprofile, Ylm_profile. cbn [pred].
  pose proof (legendre_ode l m (cos th)) as O.
  assert (S2 : 1 - cos th ^ 2 = sin th ^ 2). { pose proof (sin2_cos2 th). unfold Rsqr in *. cbn. lra. }
  rewrite S2 in O.
  transitivity ((-1) ^ S m * ynorm l (S m) * sin th ^ m * (2 * (INR m + 1) * cos th * legendre l (S m) (cos th) - sin th ^ 2 * legendre l (S (S m)) (cos th))).
  { rewrite S_INR. cbn [pow]. field. auto. }
  replace (2 * (INR m + 1) * cos th * legendre l (S m) (cos th) - sin th ^ 2 * legendre l (S (S m)) (cos th))
    with ((INR l - INR m) * (INR l + INR m + 1) * legendre l m (cos th)) by lra.
  rewrite (ynorm_S l m) by lia. set (k := (INR l - INR m) * (INR l + INR m + 1)).
  assert (0 <= k). { unfold k. apply Rmult_le_pos; [|pose proof (pos_INR l); pose proof (pos_INR m); lra].
    rewrite <- minus_INR by lia. apply pos_INR. }
  transitivity ((-1) ^ S m * ynorm l (S m) * sin th ^ m * ((sqrt k * sqrt k) * legendre l m (cos th))); [rewrite sqrt_sqrt by auto; ring|].
  cbn [pow]. ring.
Qed.
