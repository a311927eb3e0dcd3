(** Differential operators applied to band-limited functions on the sphere. *)
From Coq Require Import Reals Lra.
From Coquelicot Require Import Coquelicot.
From Verif Require Import Base BaseLemmas ForList Arith MSphere PGrid PMake PSphere PSphere2 Spec SphereSpec PSum PFdR PSphereR
  PropSphere PropLadder LegSpec PLeg.
Local Open Scope R_scope.

Lemma sampled_ext_grid b h f g v :
  (forall it ip, (it < s_nlat h)%nat -> (ip < s_nphi h)%nat -> f (grid_theta h it) (grid_phi h ip) = g (grid_theta h it) (grid_phi h ip)) ->
  sampled b h f v -> sampled b h g v.
Proof. intros E [Lv Hv]. split; auto. intros. now rewrite Hv, E. Qed.
Lemma csampled_ext_grid b h re im re' im' v :
  (forall it ip, (it < s_nlat h)%nat -> (ip < s_nphi h)%nat -> re (grid_theta h it) (grid_phi h ip) = re' (grid_theta h it) (grid_phi h ip)
     /\ im (grid_theta h it) (grid_phi h ip) = im' (grid_theta h it) (grid_phi h ip)) ->
  csampled b h re im v -> csampled b h re' im' v.
Proof. intros E [Lv Hv]. split; auto. intros it ip Ht Hp. rewrite Hv by auto. destruct (E it ip Ht Hp) as [-> ->]. reflexivity. Qed.

(** a mode is its profile times a function of phi *)
Definition mode_phi (m : nat) (c : R * R) (ph : R) : R :=
  (if Nat.eqb m 0 then 1 else 2) * (fst c * cos (INR m * ph) - snd c * sin (INR m * ph)).
Lemma mode_split P l m c th ph : mode P l m c th ph = P l m th * mode_phi m c ph.
Proof.
  unfold mode, mode_phi. destruct (Nat.eqb_spec m 0) as [->|]; [|ring].
  simpl INR. rewrite Rmult_0_l, cos_0, sin_0. ring.
Qed.
Lemma field_split P L M a th ph : real_field P L M a th ph = Rsum (L + 1) (fun l => Rsum (Nat.min l M + 1) (fun m => P l m th * mode_phi m (a l m) ph)).
Proof. unfold real_field. apply Rsum_ext. intros l _. apply Rsum_ext. intros m _. apply mode_split. Qed.

(** differentiating in theta differentiates the profiles *)
Lemma field_derive_theta P dP L M a th ph : (forall l m, is_derive (P l m) th (dP l m th)) ->
  is_derive (fun t => real_field P L M a t ph) th (real_field dP L M a th ph).
Proof.
  intros HP. apply (is_derive_ext (fun t => Rsum (L + 1) (fun l => Rsum (Nat.min l M + 1) (fun m => P l m t * mode_phi m (a l m) ph)))).
  { intros t. symmetry. apply field_split. }
  rewrite field_split.
  apply (is_derive_Rsum (L + 1) (fun l t => Rsum (Nat.min l M + 1) (fun m => P l m t * mode_phi m (a l m) ph))
    (fun l t => Rsum (Nat.min l M + 1) (fun m => dP l m t * mode_phi m (a l m) ph))).
  intros l _. apply (is_derive_Rsum (Nat.min l M + 1) (fun m t => P l m t * mode_phi m (a l m) ph) (fun m t => dP l m t * mode_phi m (a l m) ph)).
  intros m _. apply (is_derive_ext (fun t => mode_phi m (a l m) ph * P l m t)).
  { intros t. match goal with |- ?a = ?b => change (@eq R a b) end. ring. }
  rewrite Rmult_comm. apply @is_derive_scal. apply HP.
Qed.
Lemma field_d_theta L M a th ph : d_theta (real_field Ylm_profile L M a) th ph = real_field dprofile L M a th ph.
Proof. apply is_derive_unique, field_derive_theta. intros; apply profile_derive. Qed.

(** the phi-derivative of a spectrum *)
Definition phi_spec (a : spectrum) : spectrum := fun l m => (- INR m * snd (a l m), INR m * fst (a l m)).
Lemma phi_spec_real a : real_spectrum a -> real_spectrum (phi_spec a).
Proof. intros Ha l. unfold phi_spec. simpl. ring. Qed.
Lemma field_derive_phi P L M a th ph : is_derive (real_field P L M a th) ph (real_field P L M (phi_spec a) th ph).
Proof.
  unfold real_field. apply (is_derive_Rsum (L + 1)
    (fun l ph => Rsum (Nat.min l M + 1) (fun m => mode P l m (a l m) th ph))
    (fun l ph => Rsum (Nat.min l M + 1) (fun m => mode P l m (phi_spec a l m) th ph))).
  intros l Hl. apply (is_derive_Rsum (Nat.min l M + 1) (fun m ph => mode P l m (a l m) th ph)
    (fun m ph => mode P l m (phi_spec a l m) th ph)).
  intros m Hm. apply mode_derive.
Qed.
Lemma field_d_phi P L M a th ph : d_phi (real_field P L M a) th ph = real_field P L M (phi_spec a) th ph.
Proof. apply is_derive_unique. apply (is_derive_ext (real_field P L M a th)); [reflexivity|]. apply field_derive_phi. Qed.

(** ** the Laplacian *)
Definition ddprofile (l m : nat) (th : R) : R :=
  sin th * (INR m ^ 2 / sin th ^ 2 * Ylm_profile l m th - INR l * (INR l + 1) * Ylm_profile l m th).
Lemma sdp_derive l m th : sin th <> 0 -> is_derive (fun t => sin t * dprofile l m t) th (ddprofile l m th).
Proof.
  intros Hs.
  pose proof (is_derive_comp (legendre l m) cos th (legendre l (S m) (cos th)) (- sin th) (legendre_derive l m (cos th))
    (is_derive_cos th)) as E0.
  pose proof (is_derive_comp (legendre l (S m)) cos th (legendre l (S (S m)) (cos th)) (- sin th) (legendre_derive l (S m) (cos th))
    (is_derive_cos th)) as E1.
  unfold scal in E0, E1; cbn in E0, E1; unfold mult in E0, E1; cbn in E0, E1.
  set (u0 := fun t => legendre l m (cos t)) in *. set (u1 := fun t => legendre l (S m) (cos t)) in *.
  set (K := (-1) ^ m * ynorm l m).
  apply (is_derive_ext (fun t => K * (INR m * (sin t ^ m * (cos t * u0 t)) - sin t ^ (S (S m)) * u1 t))).
  { intros t. match goal with |- ?a = ?b => change (@eq R a b) end.
    unfold dprofile. fold K. fold (u0 t) (u1 t). destruct m as [|m']; [cbn; ring|]. cbn [pred pow]. ring. }
  assert (E2 : is_derive (fun t => cos t * u0 t) th (- sin th * u0 th + cos th * (- sin th * legendre l (S m) (cos th)))).
  { apply (is_derive_mult cos u0); [apply is_derive_cos|exact E0|intros; apply Rmult_comm]. }
  assert (E3 : is_derive (fun t => sin t ^ m * (cos t * u0 t)) th
     (INR m * sin th ^ pred m * cos th * (cos th * u0 th) + sin th ^ m * (- sin th * u0 th + cos th * (- sin th * legendre l (S m) (cos th))))).
  { apply (is_derive_mult (fun t => sin t ^ m) (fun t => cos t * u0 t)); [apply sinpow_derive|exact E2|intros; apply Rmult_comm]. }
  assert (E4 : is_derive (fun t => sin t ^ S (S m) * u1 t) th
     (INR (S (S m)) * sin th ^ S m * cos th * u1 th + sin th ^ S (S m) * (- sin th * legendre l (S (S m)) (cos th)))).
  { apply (is_derive_mult (fun t => sin t ^ S (S m)) u1); [apply (sinpow_derive (S (S m)))|exact E1|intros; apply Rmult_comm]. }
  replace (ddprofile l m th) with (K * (INR m * (INR m * sin th ^ pred m * cos th * (cos th * u0 th) + sin th ^ m * (- sin th * u0 th + cos th * (- sin th * legendre l (S m) (cos th))))
    - (INR (S (S m)) * sin th ^ S m * cos th * u1 th + sin th ^ S (S m) * (- sin th * legendre l (S (S m)) (cos th))))).
  { apply @is_derive_scal. apply @is_derive_minus; [apply @is_derive_scal; exact E3|exact E4]. }
  unfold ddprofile, Ylm_profile. fold K.
  pose proof (legendre_ode l m (cos th)) as O.
  assert (S2 : cos th ^ 2 = 1 - sin th ^ 2). { pose proof (sin2_cos2 th). unfold Rsqr in *. cbn. lra. }
  rewrite S2 in O. unfold u0, u1. rewrite !S_INR.
  set (U := legendre l m (cos th)) in *. set (V := legendre l (S m) (cos th)) in *. set (W := legendre l (S (S m)) (cos th)) in *.
  set (s := sin th) in *. set (c := cos th) in *.
  assert (Op : s ^ 2 * W = 2 * (INR m + 1) * c * V - (INR l - INR m) * (INR l + INR m + 1) * U) by lra.
  assert (Hp : INR m * s ^ pred m = INR m * s ^ m / s) by (rewrite <- pow_pred; field; auto).
  transitivity (K * (INR m * ((INR m * s ^ pred m) * c ^ 2 * U - s ^ m * s * (U + c * V))
     - ((INR m + 2) * s ^ S m * c * V - s ^ S m * (s ^ 2 * W)))).
  { cbn [pow]. ring. }
  rewrite Op, Hp, S2. cbn [pow]. field. auto.
Qed.

Theorem laplacian_field L M a th ph : sin th <> 0 ->
  laplacian (real_field Ylm_profile L M a) th ph
  = real_field Ylm_profile L M (fun l m => (- (INR l * (INR l + 1)) * fst (a l m), - (INR l * (INR l + 1)) * snd (a l m))) th ph.
Proof.
  intros Hs. unfold laplacian.
  rewrite (Derive_ext (fun t => sin t * d_theta (real_field Ylm_profile L M a) t ph)
    (fun t => real_field (fun l m t => sin t * dprofile l m t) L M a t ph)).
  2:{ intros t. rewrite field_d_theta, !field_split, <- Rsum_scal. apply Rsum_ext. intros l _. rewrite <- Rsum_scal.
      apply Rsum_ext. intros m _. ring. }
  assert (E : is_derive (fun t => real_field (fun l m t => sin t * dprofile l m t) L M a t ph) th (real_field ddprofile L M a th ph)).
  { apply field_derive_theta. intros. now apply sdp_derive. }
  match goal with |- context [Derive ?u th] => replace (Derive u th) with (real_field ddprofile L M a th ph)
    by (symmetry; apply is_derive_unique; exact E) end.
  replace (d_phi (d_phi (real_field Ylm_profile L M a)) th ph) with (real_field Ylm_profile L M (phi_spec (phi_spec a)) th ph).
  2:{ rewrite <- field_d_phi. unfold d_phi. apply Derive_ext. intros p. symmetry. apply (field_d_phi Ylm_profile L M a th p). }
  rewrite !field_split, <- !Rsum_scal, <- Rsum_add. apply Rsum_ext. intros l _.
  rewrite <- !Rsum_scal, <- Rsum_add. apply Rsum_ext. intros m _.
  unfold ddprofile, mode_phi, phi_spec. cbn [fst snd]. field. auto.
Qed.

(** ** the ladder operators *)
Lemma prof_ladder l m th : (- Z.of_nat l <= m <= Z.of_nat l)%Z -> sin th <> 0 ->
  prof dprofile l m th - IZR m * (cos th / sin th) * prof Ylm_profile l m th
  = sqrt (IZR ((Z.of_nat l - m) * (Z.of_nat l + m + 1))) * prof Ylm_profile l (m + 1) th.
Proof.
  intros Hm Hs. destruct (Z_le_gt_dec 0 m) as [Hpos|Hneg].
  - rewrite !prof_pos by lia. replace (Z.abs_nat (m + 1)) with (S (Z.abs_nat m)) by lia.
    pose proof (profile_up l (Z.abs_nat m) th ltac:(lia) Hs) as E.
    assert (Em : INR (Z.abs_nat m) = IZR m) by (rewrite INR_IZR_INZ; f_equal; lia).
    rewrite Em in E. rewrite E. rewrite mult_IZR, minus_IZR, !plus_IZR, <- INR_IZR_INZ. reflexivity.
  - pose proof (profile_down l (Z.abs_nat m - 1) th ltac:(lia) Hs) as E.
    set (k := (Z.abs_nat m - 1)%nat) in *.
    assert (Em : m = (- Z.of_nat (S k))%Z) by lia.
    assert (Ek : (m + 1)%Z = (- Z.of_nat k)%Z) by lia.
    rewrite Ek, Em. rewrite !prof_neg, !prof_pos by lia.
    replace (Z.abs_nat (Z.of_nat (S k))) with (S k) by lia. replace (Z.abs_nat (Z.of_nat k)) with k by lia.
    replace (Z.of_nat (S k)) with (Z.of_nat k + 1)%Z by lia. rewrite sgm_succ.
    replace ((Z.of_nat l - - (Z.of_nat k + 1)) * (Z.of_nat l + - (Z.of_nat k + 1) + 1))%Z
      with ((Z.of_nat l - Z.of_nat k) * (Z.of_nat l + Z.of_nat k + 1))%Z by ring.
    rewrite mult_IZR, minus_IZR, !plus_IZR, <- !INR_IZR_INZ.
    rewrite opp_IZR, plus_IZR, <- INR_IZR_INZ. rewrite S_INR in E. replace (IZR 1) with 1 in * by reflexivity.
    set (q := sqrt _) in *. 
    transitivity (- sgm (Z.of_nat k) * (dprofile l (S k) th + (INR k + 1) * (cos th / sin th) * Ylm_profile l (S k) th)); [field; auto|].
    rewrite E. ring.
Qed.

Lemma msum_shift l t : msum l (fun m => if (m =? - Z.of_nat l)%Z then 0 else t (m - 1)%Z)
  = msum l (fun m => if (m =? Z.of_nat l)%Z then 0 else t m).
Proof.
  unfold msum. replace (2 * l + 1)%nat with (S (2 * l)) by lia. rewrite Rsum_shift. cbn [Rsum].
  replace (Z.of_nat 0 - Z.of_nat l =? - Z.of_nat l)%Z with true by (symmetry; apply Z.eqb_eq; lia).
  replace (Z.of_nat (2 * l) - Z.of_nat l =? Z.of_nat l)%Z with true by (symmetry; apply Z.eqb_eq; lia).
  rewrite Rplus_0_l, Rplus_0_r. apply Rsum_ext. intros i Hi.
  destruct (Z.eqb_spec (Z.of_nat (S i) - Z.of_nat l) (- Z.of_nat l)); [lia|].
  destruct (Z.eqb_spec (Z.of_nat i - Z.of_nat l) (Z.of_nat l)); [lia|]. f_equal. lia.
Qed.

Lemma both_phi a l m : real_spectrum a ->
  both_signs (phi_spec a) l m = (- IZR m * snd (both_signs a l m), IZR m * fst (both_signs a l m)).
Proof.
  intros Ha. destruct (Z_le_gt_dec 0 m) as [Hm|Hm].
  - rewrite !both_pos by auto. unfold phi_spec. rewrite INR_IZR_INZ. replace (Z.of_nat (Z.abs_nat m)) with m by lia. reflexivity.
  - replace m with (- (- m))%Z by ring. set (k := (- m)%Z). assert (0 <= k)%Z by lia.
    rewrite (both_neg (phi_spec a)), (both_neg a) by (auto using phi_spec_real). rewrite !both_pos by auto.
    unfold phi_spec. cbn [fst snd]. rewrite opp_IZR, INR_IZR_INZ. replace (Z.of_nat (Z.abs_nat k)) with k by lia. f_equal; ring.
Qed.

Definition sized (L : nat) : sht R := Sht L L 0 0 0 [] (fun _ => []) (fun _ => []) (fun _ => []) (fun _ => []).
Lemma cre_real' P L a th ph : real_spectrum a -> cre P L (both_signs a) th ph = real_field P L L a th ph.
Proof. exact (cre_real (sized L) P a th ph). Qed.
Lemma cim_real' P L a th ph : real_spectrum a -> cim P L (both_signs a) th ph = 0.
Proof. exact (cim_real (sized L) P a th ph). Qed.
Section Ladder.
Variables (L : nat) (a : spectrum).
Hypothesis Ha : real_spectrum a.
(** the spectrum below degree L *)
Let g := fun l m => if Nat.eqb l L then (0, 0) else a l m.
Let f := real_field Ylm_profile L L g.
Let A := both_signs g.
Lemma g_real : real_spectrum g.
Proof. intros l. unfold g. destruct (Nat.eqb l L); cbn; auto. Qed.

(** the spectrum of raise, as in PropLadder.raised *)
Definition raised_spec : cspectrum := fun l m =>
  if (l <? L)%nat && negb (m =? - Z.of_nat l)%Z
  then let c := both_signs a l (m - 1) in let k := sqrt (IZR ((Z.of_nat l - m + 1) * (Z.of_nat l + m))) in (k * fst c, k * snd c)
  else (0, 0).
Lemma both_g l m : both_signs g l m = if Nat.eqb l L then (0, 0) else both_signs a l m.
Proof.
  unfold both_signs, g. destruct (Nat.eqb l L); auto. cbn. destruct (m <? 0)%Z; auto. destruct (Z.even m); cbn; f_equal; ring.
Qed.

(** one degree of the raised function: sum over m of (prof' - m cot prof) times A e^{i(m+1) phi} *)
Lemma raised_degree l th ph (trig : (R * R) -> R -> R) : (l <= L)%nat -> sin th <> 0 ->
  (forall x y k z, trig (k * x, k * y) z = k * trig (x, y) z) ->
  msum l (fun m => prof Ylm_profile l m th * trig (raised_spec l m) (IZR m * ph))
  = msum l (fun m => (prof dprofile l m th - IZR m * (cos th / sin th) * prof Ylm_profile l m th) * trig (A l m) (IZR (m + 1) * ph)).
Proof.
  intros Hl Hs Ht.
  assert (Ht0 : forall z, trig (0, 0) z = 0). { intros z. replace (0, 0) with (0 * 0, 0 * 0) by (f_equal; ring). rewrite Ht. ring. }
  set (t := fun m => sqrt (IZR ((Z.of_nat l - m) * (Z.of_nat l + m + 1))) * prof Ylm_profile l (m + 1) th * trig (A l m) (IZR (m + 1) * ph)).
  transitivity (msum l (fun m => if (m =? - Z.of_nat l)%Z then 0 else t (m - 1)%Z)).
  - apply msum_ext. intros m Hm. unfold raised_spec, t.
    destruct (Z.eqb_spec m (- Z.of_nat l)) as [->|Hne]; cbn [negb].
    + rewrite andb_false_r, Ht0. ring.
    + rewrite andb_true_r. replace (m - 1 + 1)%Z with m by ring. unfold A. rewrite both_g.
      replace ((Z.of_nat l - (m - 1)) * (Z.of_nat l + (m - 1) + 1))%Z with ((Z.of_nat l - m + 1) * (Z.of_nat l + m))%Z by ring.
      destruct (Nat.ltb_spec l L), (Nat.eqb_spec l L); try lia.
      * cbv zeta. rewrite Ht. rewrite <- surjective_pairing. ring.
      * rewrite !Ht0. ring.
  - rewrite msum_shift. apply msum_ext. intros m Hm. rewrite prof_ladder by auto. fold (t m).
    destruct (Z.eqb_spec m (Z.of_nat l)) as [->|]; auto.
    unfold t. rewrite Z.sub_diag, Z.mul_0_l, sqrt_0. ring.
Qed.

Lemma cre_sum P c th ph : cre P L c th ph = Rsum (L + 1) (fun l => msum l (fun m =>
    prof P l m th * (fst (c l m) * cos (IZR m * ph) - snd (c l m) * sin (IZR m * ph)))).
Proof. reflexivity. Qed.

Theorem raised_is_Lplus th ph : sin th <> 0 ->
  cre Ylm_profile L raised_spec th ph = fst (Lplus f th ph) /\ cim Ylm_profile L raised_spec th ph = snd (Lplus f th ph).
Proof.
  intros Hs. pose proof g_real as Hg.
  set (dre := cre dprofile L A th ph). set (dim := cim dprofile L A th ph).
  set (pre := cre Ylm_profile L (both_signs (phi_spec g)) th ph). set (pim := cim Ylm_profile L (both_signs (phi_spec g)) th ph).
  assert (Ed : dre = d_theta f th ph). { unfold dre, A, f. rewrite cre_real', field_d_theta by auto. reflexivity. }
  assert (Ed0 : dim = 0). { unfold dim, A. rewrite cim_real' by auto. reflexivity. }
  assert (Ep : pre = d_phi f th ph). { unfold pre, f. rewrite cre_real', field_d_phi by (now apply phi_spec_real). reflexivity. }
  assert (Ep0 : pim = 0). { unfold pim. rewrite cim_real' by now apply phi_spec_real. reflexivity. }
  unfold Lplus. rewrite <- Ed, <- Ep. cbn [fst snd].
  assert (Tc : forall m, cos (IZR (m + 1) * ph) = cos (IZR m * ph) * cos ph - sin (IZR m * ph) * sin ph).
  { intros m. rewrite plus_IZR. replace ((IZR m + IZR 1) * ph) with (IZR m * ph + ph) by (simpl; ring). apply cos_plus. }
  assert (Ts : forall m, sin (IZR (m + 1) * ph) = sin (IZR m * ph) * cos ph + cos (IZR m * ph) * sin ph).
  { intros m. rewrite plus_IZR. replace ((IZR m + IZR 1) * ph) with (IZR m * ph + ph) by (simpl; ring). apply sin_plus. }
  assert (Epr : pre = Rsum (L + 1) (fun l => msum l (fun m => prof Ylm_profile l m th * (- IZR m * snd (A l m) * cos (IZR m * ph) - IZR m * fst (A l m) * sin (IZR m * ph))))).
  { unfold pre, cre. apply Rsum_ext. intros l _. apply msum_ext. intros m _. rewrite both_phi by auto. reflexivity. }
  assert (Epi : pim = Rsum (L + 1) (fun l => msum l (fun m => prof Ylm_profile l m th * (- IZR m * snd (A l m) * sin (IZR m * ph) + IZR m * fst (A l m) * cos (IZR m * ph))))).
  { unfold pim, cim. apply Rsum_ext. intros l _. apply msum_ext. intros m _. rewrite both_phi by auto. reflexivity. }
  split.
  - transitivity (cos ph * dre - sin ph * dim - cos th / sin th * (cos ph * pim + sin ph * pre)).
    2:{ rewrite Ed0, Ep0. ring. }
    rewrite Epr, Epi. unfold dre, dim, cre, cim.
    rewrite <- !Rsum_scal, <- Rsum_sub, <- Rsum_add, <- Rsum_scal, <- Rsum_sub. apply Rsum_ext. intros l Hl.
    rewrite (raised_degree l th ph (fun c z => fst c * cos z - snd c * sin z)) by (try lia; auto; intros; cbn; ring).
    unfold msum. rewrite <- !Rsum_scal, <- Rsum_sub, <- Rsum_add, <- Rsum_scal, <- Rsum_sub. apply Rsum_ext. intros k _.
    cbv beta. rewrite Tc, Ts. ring.
  - transitivity (sin ph * dre + cos ph * dim + cos th / sin th * (cos ph * pre - sin ph * pim)).
    2:{ rewrite Ed0, Ep0. ring. }
    rewrite Epr, Epi. unfold dre, dim, cre, cim.
    rewrite <- !Rsum_scal, <- Rsum_add, <- Rsum_sub, <- Rsum_scal, <- Rsum_add. apply Rsum_ext. intros l Hl.
    rewrite (raised_degree l th ph (fun c z => fst c * sin z + snd c * cos z)) by (try lia; auto; intros; cbn; ring).
    unfold msum. rewrite <- !Rsum_scal, <- Rsum_add, <- Rsum_sub, <- Rsum_scal, <- Rsum_add. apply Rsum_ext. intros k _.
    cbv beta. rewrite Tc, Ts. ring.
Qed.
End Ladder.
