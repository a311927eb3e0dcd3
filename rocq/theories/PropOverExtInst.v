(** * A run that meets the hypotheses of C94: a parameter file with mass 1/2 and spin 1, read by the modelled stod. *)
From Coq Require Import Ascii String ZArith Reals SpecFloat Bool List Permutation Lra Lia.
From Verif Require Import Base BaseLemmas ForList Arith MFd MCheb MSphere MGrid MParams MField MEom MIo MMain MFmt
  SphereSpec GridSpec PText PIo PEomOk PRed PDriver PropDriver FpSpec Fp FpErr PropFpFd FpKerr PropFpRhs PropFpRhsInst PropOverExt.
Import ListNotations.
Local Open Scope R_scope.
Local Notation FL := spec_float.

#[local] Existing Instance PropFpRhsInst.b64d.
Definition over_file : text := unlines ("nt 7" :: "nx 8" :: "nl 1" :: "nm 1" :: "nlat 1" :: "nphi 3" :: "t_step_save 3" :: "dt 0.01"
  :: "compactification_length 100" :: "Rmax 100" :: "Rmin 1" :: "black_hole_mass 0.5" :: "black_hole_spin 1" :: "km1 0" :: "k0 1" :: "k1 0" :: "k2 0" :: "V2 0" :: "V3 0" :: "V4 0"
  :: "initial_data_type compact_pulse" :: "initial_data_direction ingoing" :: "amp 0.1" :: "rl 2" :: "ru 4" :: "l_ang 1" :: "m_ang 1" :: nil)%string.
Definition rd : text -> option FL := stod64 (fun _ _ => None).
Definition whole (n : nat) : list (list nat) := [seq 0 n].

Example C94_nonvacuous : exists par, Params_make rd fdb (Some over_file) = Ok par /\
  runnable (fun _ => whole 24) (fun _ => whole 7) fdb (fun _ _ _ _ => const_sht) par /\ (1 <= pr_t_step_save par)%nat /\
  (pr_nt par = 7)%nat /\ over_extremal (pr_bh_mass par) (pr_bh_spin par).
Proof.
  assert (C : match Params_make rd fdb (Some over_file) with Ok par => pr_nt par = 7%nat /\ pr_nx par = 8%nat /\ pr_nl par = 1%nat /\ pr_nm par = 1%nat /\ pr_nlat par = 1%nat /\ pr_nphi par = 3%nat /\
     pr_t_step_save par = 3%nat /\ pr_l_ang par = 1%Z /\ pr_m_ang par = 1%Z /\ pr_bh_mass par = S754_finite false 4503599627370496 (-53) /\ pr_bh_spin par = sf_ofZ 1 | _ => False end)
    by (vm_compute; repeat split).
  destruct (Params_make rd fdb (Some over_file)) as [par| | | |]; try contradiction.
  destruct C as (C1 & C2 & C3 & C4 & C5 & C6 & C7 & C8 & C9 & C10 & C11).
  exists par. split; [reflexivity|]. split.
  { unfold runnable. rewrite C2, C3, C4, C5, C6, C8, C9. cbv zeta. pose proof const_shapes as SH.
    repeat match goal with |- _ /\ _ => split end; try reflexivity; try lia; try exact SH; try (cbn; lia).
    - apply Nat.ltb_lt. vm_compute. reflexivity.
    - intros _. unfold deals. cbn. apply Permutation_refl.
    - intros _. unfold deals. cbn. apply Permutation_refl. }
  split; [rewrite C7; lia|]. split; [exact C1|]. rewrite C10, C11. destruct one_ok as [F1 V1].
  assert (VH : val (S754_finite false 4503599627370496 (-53)) = / 2).
  { cbn [val]. change (powerRZ 2 (-53)) with (/ 2 ^ 53). rewrite (pow_IZR 2). change (2 ^ Z.of_nat 53)%Z with 9007199254740992%Z. lra. }
  split; [split; [reflexivity|exact I]|]. split; [exact F1|]. rewrite V1, VH, Rabs_R1, Rabs_right by lra.
  split; [apply pow_R1_Rle; lra|]. rewrite (pow_IZR 10). change (10 ^ Z.of_nat 16)%Z with 10000000000000000%Z. lra.
Qed.
(** one step on the 8 x 1 x 3 grid, computed: f = 1, p = 0 becomes NaN everywhere, with no error reported *)
Example C94_one_step :
  (let! g := Grid_make fdb const_sht (sf_ofZ 100) (sf_ofZ 1) (sf_ofZ 100) 8 1 1 1 3 in
   let! e := Eom_make g (Par 7 8 1 1 1 3 3 (sf_dec 1 (-2)) (sf_ofZ 100) (sf_ofZ 100) (sf_ofZ 1) (sf_dec 5 (-1)) (sf_ofZ 1)
      (sf_ofZ 0) (sf_ofZ 1) (sf_ofZ 0) (sf_ofZ 0) (sf_ofZ 0) (sf_ofZ 0) (sf_ofZ 0) [] [] (sf_ofZ 1) (sf_ofZ 1) (sf_ofZ 2) 0%Z 0%Z) in
   let! r := time_step g e (Field_make [] 24 (sf_ofZ 1)) (Field_make [] 24 (sf_ofZ 0)) in
   let '(f, p, _) := r in Ok (fl_np1 f, fl_np1 p)) = Ok (repeat S754_nan 24, repeat S754_nan 24).
Proof. vm_compute. reflexivity. Qed.
