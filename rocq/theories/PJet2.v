(** * Functions of the state with third-order jets; order of the Runge-Kutta step (proof machinery for C76). *)
From Coq Require Import Reals Lra Lia List FunctionalExtensionality.
From Coquelicot Require Import Coquelicot.
From Verif Require Import Base Arith RkSpec BaseLemmas Spec PSum PEomOk PRk PJet.
Import ListNotations.
Local Open Scope R_scope.

Section N.
Variable n : nat.
Definition szd (u : state R) : Prop := length (fst u) = n /\ length (snd u) = n.
Definition cmp (u : state R) (i : nat) : R := if (i <? n)%nat then nth i (fst u) 0 else nth (i - n) (snd u) 0.
Lemma cmp_out u i : szd u -> (n + n <= i)%nat -> cmp u i = 0.
Proof. intros [A B] H. unfold cmp. destruct (Nat.ltb_spec i n); [lia|]. apply nth_overflow. lia. Qed.
Lemma cmp_fst u i : (i < n)%nat -> cmp u i = nth i (fst u) 0.
Proof. intros H. unfold cmp. destruct (Nat.ltb_spec i n); [auto|lia]. Qed.
Lemma cmp_snd u i : cmp u (n + i) = nth i (snd u) 0.
Proof. unfold cmp. destruct (Nat.ltb_spec (n + i) n); [lia|]. f_equal. lia. Qed.
Lemma nth_axpy0 c (k u : list R) i : length k = length u -> nth i (axpy c k u) 0 = nth i u 0 + c * nth i k 0.
Proof.
  intros E. destruct (Nat.lt_ge_cases i (length u)) as [H|H].
  - apply nth_error_nth. refine (eq_trans (axpy_nth c k u i (nth i u 0) (nth i k 0) _ _) _); [apply nth_error_nth'; lia..|reflexivity].
  - rewrite !nth_overflow; try lia; [ring|]. rewrite (axpy_length c k u (length u)); auto.
Qed.
Lemma cmp_axpy2 c k u i : szd k -> szd u -> cmp (axpy2 c k u) i = cmp u i + c * cmp k i.
Proof. intros [A B] [C D]. unfold cmp, axpy2. cbn [fst snd]. destruct (i <? n)%nat; apply nth_axpy0; congruence. Qed.
Lemma szd_axpy2 c k u : szd k -> szd u -> szd (axpy2 c k u).
Proof. intros [A B] [C D]. split; cbn; now apply axpy_length. Qed.

Section At.
Variable y : state R.
Record jet (phi : state R -> R) : Type := Jet {
  D1 : (nat -> R) -> R; D2 : (nat -> R) -> (nat -> R) -> R; D3 : (nat -> R) -> R;
  D1_lin : forall a x c z, D1 (fun i => a * x i + c * z i) = a * D1 x + c * D1 z;
  D2_hom : forall a x c z, D2 (fun i => a * x i) (fun i => c * z i) = a * c * D2 x z;
  D3_hom : forall a x, D3 (fun i => a * x i) = a ^ 3 * D3 x;
  jet_ex : forall k c x1 x2 x3, (1 <= k <= 4)%nat -> (forall h, szd (c h)) ->
    (forall i, ex k (fun h => cmp (c h) i) (sq (cmp y i) (x1 i) (x2 i) (x3 i) 0)) ->
    ex k (fun h => phi (c h)) (sq (phi y) (D1 x1) (D1 x2 + D2 x1 x1 / 2) (D1 x3 + D2 x1 x2 + D3 x1 / 6) 0) }.
Arguments D1 {phi}. Arguments D2 {phi}. Arguments D3 {phi}.

Local Ltac sqcase := intros j Hj; destruct j as [|[|[|[|j]]]]; [..|lia]; try (exfalso; lia); cbn [cauchy rec4 sq].

Lemma jet_const v : jet (fun _ => v).
Proof.
  refine (Jet _ (fun _ => 0) (fun _ _ => 0) (fun _ => 0) _ _ _ _); try (intros; ring).
  intros k c x1 x2 x3 K S H. apply (ex_ext k (fun _ => v) _ (fun j => match j with O => v | _ => 0 end)); auto; [|apply ex_const].
  sqcase; try field. 
Qed.
Lemma jet_cmp i : jet (fun u => cmp u i).
Proof.
  refine (Jet _ (fun x => x i) (fun _ _ => 0) (fun _ => 0) _ _ _ _); try (intros; ring).
  intros k c x1 x2 x3 K S H. eapply ex_ext; [intros; reflexivity| |apply (H i)]. sqcase; try field.
Qed.
Lemma jet_add f g : jet f -> jet g -> jet (fun u => f u + g u).
Proof.
  intros F G. refine (Jet _ (fun x => D1 F x + D1 G x) (fun x z => D2 F x z + D2 G x z) (fun x => D3 F x + D3 G x) _ _ _ _).
  - intros. rewrite !D1_lin. ring.
  - intros. rewrite !D2_hom. ring.
  - intros. rewrite !D3_hom. ring.
  - intros k c x1 x2 x3 K S H. eapply ex_ext; [intros; reflexivity| |apply ex_add; [apply (jet_ex _ F)|apply (jet_ex _ G)]; eauto]. sqcase; field.
Qed.
Lemma jet_scal v f : jet f -> jet (fun u => v * f u).
Proof.
  intros F. refine (Jet _ (fun x => v * D1 F x) (fun x z => v * D2 F x z) (fun x => v * D3 F x) _ _ _ _).
  - intros. rewrite !D1_lin. ring.
  - intros. rewrite !D2_hom. ring.
  - intros. rewrite !D3_hom. ring.
  - intros k c x1 x2 x3 K S H. eapply ex_ext; [intros; reflexivity| |apply ex_scal; apply (jet_ex _ F); eauto]. sqcase; field.
Qed.
Lemma jet_mul f g : jet f -> jet g -> jet (fun u => f u * g u).
Proof.
  intros F G. refine (Jet _ (fun x => f y * D1 G x + D1 F x * g y)
    (fun x z => f y * D2 G x z + D1 F x * D1 G z + D1 F z * D1 G x + D2 F x z * g y)
    (fun x => f y * D3 G x + 3 * (D1 F x * D2 G x x) + 3 * (D2 F x x * D1 G x) + D3 F x * g y) _ _ _ _).
  - intros. rewrite !D1_lin. ring.
  - intros. rewrite !D2_hom. assert (L : forall phi (P : jet phi) a x, D1 P (fun i => a * x i) = a * D1 P x).
    { intros phi P q w. replace (fun i => q * w i) with (fun i => q * w i + 0 * w i) by (apply functional_extensionality; intros; ring). rewrite D1_lin. ring. }
    rewrite !L. ring.
  - intros. rewrite !D3_hom, !D2_hom. assert (L : forall phi (P : jet phi) a x, D1 P (fun i => a * x i) = a * D1 P x).
    { intros phi P q w. replace (fun i => q * w i) with (fun i => q * w i + 0 * w i) by (apply functional_extensionality; intros; ring). rewrite D1_lin. ring. }
    rewrite !L. ring.
  - intros k c x1 x2 x3 K S H. eapply ex_ext; [intros; reflexivity| |apply ex_mul; [lia|apply (jet_ex _ F)|apply (jet_ex _ G)]; eauto]. sqcase; field.
Qed.
Lemma jet_ext f g : (forall u, szd u -> f u = g u) -> szd y -> jet f -> jet g.
Proof.
  intros E Sy F. refine (Jet _ (D1 F) (D2 F) (D3 F) (D1_lin _ F) (D2_hom _ F) (D3_hom _ F) _).
  intros k c x1 x2 x3 K S H. rewrite <- (E y Sy). eapply ex_ext; [intros h; apply E; auto|reflexivity|]. apply (jet_ex _ F); auto.
Qed.
Lemma jet_inv f : f y <> 0 -> jet f -> jet (fun u => / f u).
Proof.
  intros NZ F. set (r := / f y).
  refine (Jet _ (fun x => - (r * r) * D1 F x)
    (fun x z => - (r * r) * D2 F x z + 2 * (r * r * r) * (D1 F x * D1 F z))
    (fun x => - (r * r) * D3 F x + 6 * (r * r * r) * (D1 F x * D2 F x x) - 6 * (r * r * r * r) * D1 F x ^ 3) _ _ _ _).
  - intros. rewrite !D1_lin. ring.
  - intros. rewrite !D2_hom. assert (L : forall phi (P : jet phi) a x, D1 P (fun i => a * x i) = a * D1 P x).
    { intros phi P q w. replace (fun i => q * w i) with (fun i => q * w i + 0 * w i) by (apply functional_extensionality; intros; ring). rewrite D1_lin. ring. }
    rewrite !L. ring.
  - intros. rewrite !D3_hom, !D2_hom. assert (L : forall phi (P : jet phi) a x, D1 P (fun i => a * x i) = a * D1 P x).
    { intros phi P q w. replace (fun i => q * w i) with (fun i => q * w i + 0 * w i) by (apply functional_extensionality; intros; ring). rewrite D1_lin. ring. }
    rewrite !L. ring.
  - intros k c x1 x2 x3 K S H. eapply ex_ext; [intros; reflexivity| |apply ex_inv; [lia|lia| |apply (jet_ex _ F); eauto]; cbn [sq]; auto].
    sqcase; fold r; field.
Qed.
(** a finite linear combination of components *)
Lemma jet_lin m (w : nat -> R) (ph : nat -> state R -> R) : (forall j, (j < m)%nat -> jet (ph j)) -> jet (fun u => psum m (fun j => w j * ph j u) 1).
Proof.
  induction m as [|m IH]; intros H; [exact (jet_const 0)|]. cbn [psum]. apply jet_add; [apply IH; intros; apply H; lia|].
  apply (jet_mul (fun u => w m * ph m u) (fun _ => 1 ^ m)); [|apply jet_const]. apply jet_scal, H. lia.
Qed.

(** ** the order conditions *)
Variable F : state R -> state R.
Hypothesis Sy : szd y.
Hypothesis SF : forall u, szd u -> szd (F u).
Hypothesis JF : forall i, jet (fun u => cmp (F u) i).
Local Notation f1 := (fun i => cmp (F y) i).
Let A1 : nat -> R := fun i => D1 (JF i) f1.
Let A2 : nat -> R := fun i => D2 (JF i) f1 f1.
Let A11 : nat -> R := fun i => D1 (JF i) A1.
Let A3 : nat -> R := fun i => D3 (JF i) f1.
Let A111 : nat -> R := fun i => D1 (JF i) A11.
Let A12 : nat -> R := fun i => D1 (JF i) A2.
Let A21 : nat -> R := fun i => D2 (JF i) f1 A1.

Lemma D1_scal phi (P : jet phi) a x : D1 P (fun i => a * x i) = a * D1 P x.
Proof. replace (fun i => a * x i) with (fun i => a * x i + 0 * x i) by (apply functional_extensionality; intros; ring). rewrite D1_lin. ring. Qed.
Lemma D1_eq phi (P : jet phi) x z : (forall i, x i = z i) -> D1 P x = D1 P z.
Proof. intros E. f_equal. apply functional_extensionality, E. Qed.
Lemma D2_eq phi (P : jet phi) x z x' z' : (forall i, x i = x' i) -> (forall i, z i = z' i) -> D2 P x z = D2 P x' z'.
Proof. intros E E'. f_equal; apply functional_extensionality; assumption. Qed.
Lemma D3_eq phi (P : jet phi) x z : (forall i, x i = z i) -> D3 P x = D3 P z.
Proof. intros E. f_equal. apply functional_extensionality, E. Qed.

(** expansion of a stage: F (y + alpha h kk) with kk = f1 + b1 h + b2 h^2 + ... *)
Lemma stage_ex alpha (kk : R -> state R) b1 b2 : (forall h, szd (kk h)) ->
  (forall i, ex 3 (fun h => cmp (kk h) i) (sq (f1 i) (b1 * A1 i) (fst b2 * A11 i + snd b2 * A2 i) 0 0)) ->
  forall i, ex 4 (fun h => cmp (F (axpy2 (alpha * h) (kk h) y)) i)
    (sq (f1 i) (alpha * A1 i) (alpha * b1 * A11 i + alpha * alpha / 2 * A2 i)
        (alpha * fst b2 * A111 i + alpha * snd b2 * A12 i + alpha * alpha * b1 * A21 i + alpha ^ 3 / 6 * A3 i) 0).
Proof.
  intros Sk Hk i.
  assert (H : forall j, ex 4 (fun h => cmp (axpy2 (alpha * h) (kk h) y) j) (sq (cmp y j) (alpha * f1 j) (alpha * b1 * A1 j) (alpha * (fst b2 * A11 j + snd b2 * A2 j)) 0)).
  { intros j. eapply ex_ext; [| |apply ex_add; [apply (ex_const 4 (cmp y j))|apply ex_scal with (c := alpha), ex_h, (Hk j)]].
    - intros h. cbv beta. rewrite cmp_axpy2 by auto. ring.
    - intros q Hq. destruct q as [|[|[|[|q]]]]; [..|lia]; cbn [sq]; ring. }
  eapply ex_ext; [intros; reflexivity| |apply (jet_ex _ (JF i) 4 (fun h => axpy2 (alpha * h) (kk h) y)); [lia| |exact H]; intros; now apply szd_axpy2].
  sqcase.
  - reflexivity.
  - apply D1_scal.
  - rewrite (D1_scal _ _ (alpha * b1) A1), (D2_hom _ (JF i) alpha f1 alpha f1). unfold A11, A2. field.
  - rewrite (D1_eq _ _ _ (fun i => (alpha * fst b2) * A11 i + (alpha * snd b2) * A2 i)) by (intros; ring). rewrite (D1_lin _ (JF i) _ A11 _ A2).
    rewrite (D2_hom _ (JF i) alpha f1 (alpha * b1) A1), (D3_hom _ (JF i) alpha f1). unfold A111, A12, A21, A3. field.
Qed.

Local Notation k1 := (fun _ : R => F y).
Local Notation k2 := (fun h => F (axpy2 (fdec 5 (-1) * h) (k1 h) y)).
Local Notation k3 := (fun h => F (axpy2 (fdec 5 (-1) * h) (k2 h) y)).
Local Notation k4 := (fun h => F (axpy2 h (k3 h) y)).
Lemma half_dec : (fdec 5 (-1) : R) = / 2.
Proof. change (5 * powerRZ 10 (-1) = / 2). change (powerRZ 10 (-1)) with (/ (10 * 1)). field. Qed.
Lemma rk4_ex i : ex 5 (fun h => cmp (rk4 F h y) i) (sq (cmp y i) (f1 i) (A1 i / 2) (A11 i / 6 + A2 i / 6) (A111 i / 24 + A12 i / 24 + A21 i / 8 + A3 i / 24)).
Proof.
  assert (S1 : forall h, szd (k1 h)) by auto.
  assert (S2 : forall h, szd (k2 h)) by (intros; apply SF, szd_axpy2; auto).
  assert (S3 : forall h, szd (k3 h)) by (intros; apply SF, szd_axpy2; auto).
  assert (S4 : forall h, szd (k4 h)) by (intros; apply SF, szd_axpy2; auto).
  assert (E1 : forall i, ex 4 (fun h => cmp (k1 h) i) (sq (f1 i) 0 0 0 0)).
  { intros i0. eapply ex_ext; [intros; reflexivity| |apply (ex_const 4 (f1 i0))]. sqcase; reflexivity. }
  assert (E2 : forall i, ex 4 (fun h => cmp (k2 h) i) (sq (f1 i) (A1 i / 2) (A2 i / 8) (A3 i / 48) 0)).
  { intros i0. eapply ex_ext; [| |apply (stage_ex (/ 2) k1 0 (0, 0)); auto].
    - intros h. cbv beta. now rewrite half_dec.
    - sqcase; cbn [fst snd]; field.
    - intros q. eapply ex_ext; [intros; reflexivity| |apply (ex_weaken 4 3); [lia|apply E1]]. sqcase; cbn [fst snd]; ring. }
  assert (E3 : forall i, ex 4 (fun h => cmp (k3 h) i) (sq (f1 i) (A1 i / 2) (A11 i / 4 + A2 i / 8) (A12 i / 16 + A21 i / 8 + A3 i / 48) 0)).
  { intros i0. eapply ex_ext; [| |apply (stage_ex (/ 2) k2 (/ 2) (0, / 8)); auto].
    - intros h. cbv beta. now rewrite half_dec.
    - sqcase; cbn [fst snd]; field.
    - intros q. eapply ex_ext; [intros; reflexivity| |apply (ex_weaken 4 3); [lia|apply E2]]. sqcase; cbn [fst snd]; field. }
  assert (E4 : forall i, ex 4 (fun h => cmp (k4 h) i) (sq (f1 i) (A1 i) (A11 i / 2 + A2 i / 2) (A111 i / 4 + A12 i / 8 + A21 i / 2 + A3 i / 6) 0)).
  { intros i0. eapply ex_ext; [| |apply (stage_ex 1 k3 (/ 2) (/ 4, / 8)); auto].
    - intros h. cbv beta. now rewrite Rmult_1_l.
    - sqcase; cbn [fst snd]; field.
    - intros q. eapply ex_ext; [intros; reflexivity| |apply (ex_weaken 4 3); [lia|apply E3]]. sqcase; cbn [fst snd]; field. }
  eapply ex_ext; [| |apply ex_add; [apply (ex_const 5 (cmp y i))|apply ex_h, ex_add; [apply ex_scal with (c := / 6), (E1 i)|apply ex_add; [apply ex_scal with (c := / 3), (E2 i)|apply ex_add; [apply ex_scal with (c := / 3), (E3 i)|apply ex_scal with (c := / 6), (E4 i)]]]]].
  - intros h. cbv beta. unfold rk4. cbv zeta. rewrite !cmp_axpy2 by (repeat first [apply szd_axpy2|apply SF]; auto).
    change (@fdiv R _) with Rdiv. change (@fmul R _) with Rmult. change (@fofZ R _) with IZR. unfold Rdiv. ring.
  - intros j Hj. destruct j as [|[|[|[|[|j]]]]]; [..|lia]; cbn [sq]; field.
Qed.

(** the exact solution has the same expansion *)
Variables (z : R -> state R) (T : R).
Hypothesis HT : 0 < T.
Hypothesis Sz : forall t, szd (z t).
Hypothesis z0 : z 0 = y.
Hypothesis Dz : forall t i, 0 <= t < T -> (i < n + n)%nat -> is_derive (fun t => cmp (z t) i) t (cmp (F (z t)) i).
Lemma exact_ex i : (i < n + n)%nat -> ex 5 (fun h => cmp (z h) i) (sq (cmp y i) (f1 i) (A1 i / 2) (A11 i / 6 + A2 i / 6) (A111 i / 24 + A12 i / 24 + A21 i / 8 + A3 i / 24)).
Proof.
  assert (Dz' : forall t i, 0 <= t < T -> is_derive (fun t => cmp (z t) i) t (cmp (F (z t)) i)).
  { intros t j Ht. destruct (Nat.lt_ge_cases j (n + n)) as [H|H]; auto. rewrite cmp_out by auto.
    apply (is_derive_ext (fun _ => 0)); [intros; now rewrite cmp_out by auto|]. apply (is_derive_const (0 : R_NormedModule)). }
  intros _. revert i.
  assert (I : forall k a i, ex k (fun h => cmp (F (z h)) i) a -> ex (S k) (fun h => cmp (z h) i) (fun j => match j with O => cmp y i | S q => a q / INR (S q) end)).
  { intros k a i H. apply (ex_integrate k _ (fun t => cmp (F (z t)) i) a (cmp y i) T); auto. now rewrite z0. }
  assert (X1 : forall i, ex 1 (fun h => cmp (z h) i) (sq (cmp y i) 0 0 0 0)).
  { intros i. eapply ex_ext; [intros; reflexivity| |apply (I 0%nat (fun _ => 0) i)].
    - intros j Hj. replace j with 0%nat by lia. reflexivity.
    - unfold ex. cbn [psum]. pose proof (Dz' 0 i ltac:(lra)) as D.
      (* F (z h) is bounded near 0: one more jet expansion, of order one, from continuity only *)
      apply (O_ext _ (fun h => cmp (F (z h)) i)); [intros; ring|].
      assert (X : forall i, ex 1 (fun h => cmp (z h) i) (sq (cmp y i) 0 0 0 0)).
      { intros j. pose proof (Dz' 0 j ltac:(lra)) as Dj. unfold ex. cbn [psum sq]. apply is_derive_Reals in Dj. destruct (Dj 1 Rlt_0_1) as (d & Hd).
        exists (Rabs (cmp (F (z 0)) j) + 1), (d / 2). split; [pose proof (Rabs_pos (cmp (F (z 0)) j)); lra|]. split; [destruct d; cbn; lra|].
        intros h Hh. destruct (Req_dec h 0) as [->|Nh]; [rewrite z0; replace (cmp y j - (0 + cmp y j * 0 ^ 0)) with 0 by (cbn; ring); rewrite Rabs_R0; cbn; lra|].
        specialize (Hd h Nh). rewrite Rplus_0_l in Hd. assert (Rabs h < d) by (rewrite Rabs_pos_eq by lra; destruct d; cbn in *; lra). specialize (Hd H).
        rewrite z0 in *. cbn [pow]. replace (cmp (z h) j - (0 + cmp y j * 1)) with (((cmp (z h) j - cmp y j) / h) * h) by (field; auto).
        rewrite Rabs_mult, (Rabs_pos_eq h) by lra. rewrite Rmult_1_r. apply Rmult_le_compat_r; [lra|].
        replace ((cmp (z h) j - cmp y j) / h) with (cmp (F y) j + ((cmp (z h) j - cmp y j) / h - cmp (F y) j)) by ring.
        eapply Rle_trans; [apply Rabs_triang|]. lra. }
      apply (ex_O 1 _ (sq (cmp (F y) i) (D1 (JF i) (fun _ => 0)) (D1 (JF i) (fun _ => 0) + D2 (JF i) (fun _ => 0) (fun _ => 0) / 2) (D1 (JF i) (fun _ => 0) + D2 (JF i) (fun _ => 0) (fun _ => 0) + D3 (JF i) (fun _ => 0) / 6) 0)).
      apply (jet_ex _ (JF i) 1 z); auto. }
  assert (X2 : forall i, ex 2 (fun h => cmp (z h) i) (sq (cmp y i) (f1 i) 0 0 0)).
  { intros i. eapply ex_ext; [intros; reflexivity| |apply (I 1%nat), (jet_ex _ (JF i) 1 z (fun _ => 0) (fun _ => 0) (fun _ => 0)); [lia|auto|exact X1]].
    intros j Hj. destruct j as [|[|j]]; [..|lia]; cbn [sq INR]; auto. field. }
  assert (X3 : forall i, ex 3 (fun h => cmp (z h) i) (sq (cmp y i) (f1 i) (A1 i / 2) 0 0)).
  { intros i. eapply ex_ext; [intros; reflexivity| |apply (I 2%nat), (jet_ex _ (JF i) 2 z f1 (fun _ => 0) (fun _ => 0)); [lia|auto|exact X2]].
    intros j Hj. destruct j as [|[|[|j]]]; [..|lia]; cbn [sq INR]; auto; unfold A1; field. }
  assert (X4 : forall i, ex 4 (fun h => cmp (z h) i) (sq (cmp y i) (f1 i) (A1 i / 2) (A11 i / 6 + A2 i / 6) 0)).
  { intros i. eapply ex_ext; [intros; reflexivity| |apply (I 3%nat), (jet_ex _ (JF i) 3 z f1 (fun i => A1 i / 2) (fun _ => 0)); [lia|auto|exact X3]].
    intros j Hj. destruct j as [|[|[|[|j]]]]; [..|lia]; cbn [sq INR]; auto; [field|].
    rewrite (D1_eq _ _ (fun i => A1 i / 2) (fun i => / 2 * A1 i)) by (intros; field). rewrite (D1_scal _ _ (/ 2) A1). unfold A11, A2. field. }
  intros i. eapply ex_ext; [intros; reflexivity| |apply (I 4%nat), (jet_ex _ (JF i) 4 z f1 (fun i => A1 i / 2) (fun i => A11 i / 6 + A2 i / 6)); [lia|auto|exact X4]].
  intros j Hj. destruct j as [|[|[|[|[|j]]]]]; [..|lia]; cbn [sq INR]; auto; [field| |].
  - rewrite (D1_eq _ _ (fun i => A1 i / 2) (fun i => / 2 * A1 i)) by (intros; field). rewrite (D1_scal _ _ (/ 2) A1). unfold A11, A2. field.
  - rewrite (D1_eq _ _ (fun i => A11 i / 6 + A2 i / 6) (fun i => / 6 * A11 i + / 6 * A2 i)) by (intros; field). rewrite (D1_lin _ (JF i) (/ 6) A11 (/ 6) A2).
    rewrite (D2_eq _ _ f1 (fun i => A1 i / 2) (fun i => 1 * f1 i) (fun i => / 2 * A1 i)) by (intros; field). rewrite (D2_hom _ (JF i) 1 f1 (/ 2) A1).
    unfold A111, A12, A21, A3. field.
Qed.
Lemma rk4_local_error : exists C h0, 0 <= C /\ 0 < h0 /\ forall h i, 0 <= h <= h0 -> (i < n + n)%nat ->
  Rabs (cmp (rk4 F h y) i - cmp (z h) i) <= C * h ^ 5.
Proof.
  assert (X : forall i, (i < n + n)%nat -> bigO 5 (fun h => cmp (rk4 F h y) i - cmp (z h) i)).
  { intros i Hi. eapply O_ext; [|apply O_sub; [apply (rk4_ex i)|apply (exact_ex i Hi)]]. intros h. cbv beta. ring. }
  clear JF A1 A2 A11 A3 A111 A12 A21 Dz.
  induction (n + n)%nat as [|m IH]; [exists 0, 1; split; [lra|split; [lra|intros; lia]]|].
  destruct IH as (C & h0 & HC & Hh & H); [intros; apply X; lia|]. destruct (X m ltac:(lia)) as (C' & h0' & HC' & Hh' & H').
  exists (C + C'), (Rmin h0 h0'). split; [lra|]. split; [now apply Rmin_glb_lt|]. intros h i Hr Hi. pose proof (Rmin_l h0 h0'). pose proof (Rmin_r h0 h0').
  assert (P : 0 <= h ^ 5) by (apply pow_le; lra).
  destruct (Nat.eq_dec i m) as [->|]; [specialize (H' h ltac:(lra)); nra|specialize (H h i ltac:(lra) ltac:(lia)); nra].
Qed.
End At.
End N.
