(** * Cases that meet the hypotheses of C93, and the sign symmetry lost in double precision. *)
From Coq Require Import ZArith Reals SpecFloat Bool List Lra Lia.
From Verif Require Import Base BaseLemmas Arith MFd MCheb MSphere MGrid MParams MField MEom SphereSpec GridSpec PEomOk
  FpSpec Fp FpErr PropFpFd FpKerr PropFpRhs.
Import ListNotations.
Local Open Scope R_scope.

Definition one (_ : spec_float) : spec_float := sf_ofZ 1.
Local Instance b64d : Arith spec_float := b64 one one one one one (sf_ofZ 3).
Local Notation FL := spec_float.

(** a transform library that is exact on functions constant on the sphere (and drops everything else) *)
Definition const_sht : sht FL :=
  Sht 1 1 1 3 3 (map fnat (seq 0 1))
    (fun v => map (fun i => if Nat.eqb i 0 then (nth 0 v f0, f0) else c0) (seq 0 (nlm_calc 1 1)))
    (fun c => map (fun i => fst (nth 0 c c0)) (seq 0 3))
    (fun v => map (fun i => if Nat.eqb i 0 then nth 0 v c0 else c0) (seq 0 4))
    (fun c => map (fun i => nth 0 c c0) (seq 0 3)).
Lemma const_shapes : shapes const_sht.
Proof. split; cbn [const_sht s_mmax s_lmax s_nspat s_nlat s_nphi s_ct s_an s_sy s_anc s_syc]; intros; try rewrite map_length, seq_length; auto. Qed.

Definition fdb : build := Build false true false.
(** mass 1/2, no spin, the canonical massless theory (k = 1, V = 0), dt = 1/64 *)
Definition par : params FL :=
  Par 1 8 1 1 1 3 1 (SFdiv 53 1024 (sf_ofZ 1) (sf_ofZ 64)) (sf_ofZ 50) (sf_ofZ 50) (sf_ofZ 1) (SFdiv 53 1024 (sf_ofZ 1) (sf_ofZ 2)) (sf_ofZ 0)
      (sf_ofZ 0) (sf_ofZ 1) (sf_ofZ 0) (sf_ofZ 0) (sf_ofZ 0) (sf_ofZ 0) (sf_ofZ 0) [] [] (sf_ofZ 1) (sf_ofZ 1) (sf_ofZ 2) 0%Z 0%Z.
(** one time step from f = amp, p = 0 everywhere on an 8 x 1 x 3 grid *)
Definition one_step (amp : FL) : res (list FL * list FL) :=
  let! g := Grid_make fdb const_sht (pr_cl par) (pr_Rmin par) (pr_Rmax par) 8 1 1 1 3 in
  let! e := Eom_make g par in
  let! r := time_step g e (Field_make [] 24 amp) (Field_make [] 24 (sf_ofZ 0)) in
  let '(f, p, _) := r in Ok (fl_np1 f, fl_np1 p).


Definition is_finite_sf (x : FL) : bool := match x with S754_zero _ | S754_finite _ _ _ => true | _ => false end.

(** f = 1 is preserved exactly and everything stays finite; f = -1, its mirror image, becomes NaN everywhere *)
Theorem C93_sign_symmetry_refuted :
  (exists p, one_step (sf_ofZ 1) = Ok (repeat (sf_ofZ 1) 24, p) /\ forallb is_finite_sf p = true) /\
  one_step (SFopp (sf_ofZ 1)) = Ok (repeat S754_nan 24, repeat S754_nan 24).
Proof.
  split.
  - eexists. split; vm_compute; reflexivity.
  - vm_compute. reflexivity.
Qed.

(** the hypotheses of the run above are those of the theorems on time_step *)
Example C93_nonvacuous_run : exists g e, grid_of fdb const_sht (pr_cl par) (pr_Rmin par) (pr_Rmax par) 8 g /\ shapes const_sht /\
  eom_ok g e /\ field_ok g (Field_make [] 24 (minus_one)) /\
  exists fn, grid_filter g (fl_n (Field_make [] 24 minus_one)) = Ok fn /\ nth_error fn 5 = Some minus_one.
Proof.
  assert (C : match Grid_make fdb const_sht (pr_cl par) (pr_Rmin par) (pr_Rmax par) 8 1 1 1 3 with
    | Ok g => match Eom_make g par with
      | Ok _ => g_n3 g = 24%nat /\ match grid_filter g (fl_n (Field_make [] 24 minus_one)) with Ok fn => nth_error fn 5 = Some minus_one | _ => False end
      | _ => False end
    | _ => False end) by (vm_compute; split; reflexivity).
  destruct (Grid_make fdb const_sht (pr_cl par) (pr_Rmin par) (pr_Rmax par) 8 1 1 1 3) as [g| | | |] eqn:Eg; try contradiction.
  destruct (Eom_make g par) as [e| | | |] eqn:Ee; try contradiction. destruct C as [Hn C].
  exists g, e. split; [exact Eg|]. split; [apply const_shapes|].
  split.
  { apply (Eom_make_ok g par). exact Ee. }
  split; [rewrite <- Hn; apply Field_make_ok|].
  destruct (grid_filter g (fl_n (Field_make [] 24 minus_one))) as [fn| | | |]; try contradiction. exists fn. split; [reflexivity|exact C].
Qed.

(** a non-canonical theory (k = 1 + 1/(1+f) + f, V = f^2/2) at f = 1/2 meets the hypotheses of the rounding theorem *)
Definition half_sf : FL := SFdiv 53 1024 (sf_ofZ 1) (sf_ofZ 2).
Definition e0 : eom FL := Eom 0 (sf_ofZ 1) (sf_ofZ 1) (sf_ofZ 1) (sf_ofZ 1) (sf_ofZ 0) (sf_ofZ 1) (sf_ofZ 0) (sf_ofZ 0) [] (Scr [] [] [] [] [] [] []).
Definition c1 : coef FL := let o := sf_ofZ 1 in Cf o o o o o o o o o o o o o o o o o.
Example C93_nonvacuous_rounding : let o := sf_ofZ 1 in
  let r := p_rhs e0 c1 half_sf o o o o o o o o in
  fin r /\ Rabs (val r - exact_rhs e0 c1 half_sf o o o o o o o o) <= 33 * / 2 ^ 52 * rhs_size e0 c1 half_sf o o o o o o o o.
Proof.
  intros o r.
  assert (H60 : 1 <= 2 ^ 60) by (apply pow_R1_Rle; lra).
  assert (I60 : 0 < / 2 ^ 60) by (apply Rinv_0_lt_compat; lra).
  assert (S60 : / 2 ^ 60 <= / 1000).
  { apply Rinv_le_contravar; [lra|]. apply Rle_trans with (2 ^ 10); [simpl; lra|apply Rle_pow; [lra|lia]]. }
  destruct one_ok as [F1 V1]. destruct zero_ok as [F0 V0].
  assert (VH : fin half_sf /\ val half_sf = / 2).
  { split; [split; vm_compute; auto|]. assert (E : half_sf = S754_finite false 4503599627370496 (-53)) by (vm_compute; reflexivity). rewrite E.
    cbn [val]. change (powerRZ 2 (-53)) with (/ 2 ^ 53). replace (2 ^ 53) with (2 * IZR 4503599627370496); [field|].
    change 2 with (IZR 2) at 2. rewrite pow_IZR. rewrite <- mult_IZR. f_equal. }
  destruct VH as [FH VH].
  assert (M1 : modest o) by (split; [exact F1|unfold o; rewrite V1, Rabs_R1; lra]).
  assert (M0 : modest (sf_ofZ 0)) by (split; [exact F0|rewrite V0, Rabs_R0; lra]).
  assert (MH : modest half_sf) by (split; [exact FH|rewrite VH, Rabs_right; lra]).
  assert (SZ1 : sz o = 1). { unfold sz, o. rewrite V1, Rabs_R1. apply Rmax_left. lra. }
  assert (SZ0 : sz (sf_ofZ 0) = / 2 ^ 60). { unfold sz. rewrite V0, Rabs_R0. apply Rmax_right. lra. }
  assert (SZH : sz half_sf = / 2). { unfold sz. rewrite VH, Rabs_right by lra. apply Rmax_left. lra. }
  assert (T := C93_rhs_rounding one one one one one (sf_ofZ 3) e0 c1 half_sf o o o o o o o o 2).
  replace 33 with (6 * 2 + 21) by ring. apply T.
  - intros x Hx. cbn [In e0 c1 e_k0 e_km1 e_k1 e_k2 e_v2 e_v3 e_v4 c_pre c_p c_dr_f c_dr_p c_dr_dr_f c_dphi_dr_f c_lap_f c_p_p c_p_dr_f c_dr_f_dr_f c_dr_f_dphi_f c_sphereX_f] in Hx.
    fold o in Hx. repeat destruct Hx as [<-|Hx]; auto; contradiction.
  - rewrite VH. lra.
  - unfold kin_size, kin. cbn [e0 e_k0 e_km1 e_k1 e_k2]. fold o. rewrite SZ1, SZ0, SZH, VH. unfold o. rewrite V1, V0. set (z := / 2 ^ 60) in *. lra.
  - lra.
Qed.
