(** C86, continued: the radial coordinates in the files, and concrete cases. *)
From Coq Require Import Ascii String Reals SpecFloat Lra Lia.
From Verif Require Import Base BaseLemmas Arith MParams MFd MIo MFmt PText PParams PropParams FmtSpec FpSpec Fp PFmt PFmt2 PropFmt PropFmt2 FpKerr PropFpKerr.
Local Open Scope R_scope.

Section Nodes.
Variables (lexp llog lcos lsin lacos : spec_float -> spec_float) (lpi : spec_float).
#[local] Instance D2 : Arith spec_float := b64 lexp llog lcos lsin lacos lpi.
(** Property (finite differences, launched end points): different radial nodes have different texts, and the numbers
    these denote increase with the node. *)
Theorem C86_nodes (lo up : spec_float) (n : nat) :
  fin lo -> fin up -> ordinary (val lo) -> ordinary (val up) -> 2 * val lo <= val up -> (2 <= n <= 2 ^ 40)%nat ->
  let g := FD_make n lo up in
  forall i j, (i < j < n)%nat -> fmt16 (fd_pt g i) <> fmt16 (fd_pt g j) /\
    forall v w, decimal_text (fmt16 (fd_pt g i)) v -> decimal_text (fmt16 (fd_pt g j)) w -> v < w.
Proof.
  intros Fl Fu Ol Ou LU Hn g i j Hij. destruct (C85_nodes lexp llog lcos lsin lacos lpi lo up n Fl Fu Ol Ou LU Hn) as (_ & NR & _).
  change (FD_make n lo up) with g in NR. destruct (NR i ltac:(lia)) as (Fi & Ei). destruct (NR j ltac:(lia)) as (Fj & Ej). clear NR.
  assert (P : 0 < val lo) by (destruct Ol; assert (0 < / 2 ^ 60) by (apply Rinv_0_lt_compat, pow_lt; lra); lra).
  assert (N1 : 1 <= INR (n - 1)) by (replace 1 with (INR 1) by reflexivity; apply le_INR; lia).
  assert (N2 : INR (n - 1) <= 2 ^ 40) by (replace (2 ^ 40) with (INR (2 ^ 40)) by (rewrite pow_INR; reflexivity); apply le_INR; lia).
  set (N := INR (n - 1)) in *. set (W := val up - val lo) in *.
  assert (B : forall k, (k < n)%nat -> 0 <= W * INR k / N <= W).
  { intros k Hk. assert (0 <= INR k <= N) by (split; [apply pos_INR|apply le_INR; lia]). split.
    - apply Rmult_le_pos; [apply Rmult_le_pos; [unfold W; lra|lra]|]. left. apply Rinv_0_lt_compat. lra.
    - apply Rmult_le_reg_r with N; [lra|]. unfold Rdiv. rewrite Rmult_assoc, Rinv_l, Rmult_1_r by lra. apply Rmult_le_compat_l; [unfold W; lra|lra]. }
  assert (Bi := B i ltac:(lia)). assert (Bj := B j ltac:(lia)).
  assert (ST : W * INR i / N + W / N <= W * INR j / N).
  { assert (INR i + 1 <= INR j) by (rewrite <- S_INR; apply le_INR; lia). apply Rmult_le_reg_r with N; [lra|]. unfold Rdiv.
    replace ((W * INR i * / N + W * / N) * N) with (W * (INR i + 1)) by (field; lra). replace (W * INR j * / N * N) with (W * INR j) by (field; lra). apply Rmult_le_compat_l; [unfold W; lra|lra]. }
  assert (SW : val up / 2 ^ 41 <= W / N).
  { apply Rmult_le_reg_r with (N * 2 ^ 41); [apply Rmult_lt_0_compat; [lra|apply pow_lt; lra]|]. replace (val up / 2 ^ 41 * (N * 2 ^ 41)) with (val up * N) by (field).
    replace (W / N * (N * 2 ^ 41)) with (W * 2 * 2 ^ 40) by (field; lra). apply Rmult_le_compat; unfold W; lra. }
  set (xi := val lo + W * INR i / N) in *. set (xj := val lo + W * INR j / N) in *.
  assert (Xi : 0 < xi <= val up) by (unfold xi, W in *; lra). assert (Xj : 0 < xj <= val up) by (unfold xj, W in *; lra).
  assert (XX : xi + val up / 2 ^ 41 <= xj) by (unfold xi, xj; lra).
  set (vi := val (fd_pt g i)) in *. set (vj := val (fd_pt g j)) in *.
  assert (K4 : 4 * / 2 ^ 52 <= / 10 ^ 15) by lra. assert (P41 : / 2 ^ 41 >= 400 / 10 ^ 15) by lra.
  assert (EI : Rabs (vi - xi) <= val up / 10 ^ 15).
  { apply Rle_trans with (1 := Ei). unfold Rdiv. rewrite (Rmult_comm (val up)). apply Rmult_le_compat; try lra. }
  assert (EJ : Rabs (vj - xj) <= val up / 10 ^ 15).
  { apply Rle_trans with (1 := Ej). unfold Rdiv. rewrite (Rmult_comm (val up)). apply Rmult_le_compat; try lra. }
  apply Rabs_le_between in EI. apply Rabs_le_between in EJ.
  assert (U41 : val up / 2 ^ 41 >= 400 * (val up / 10 ^ 15)).
  { unfold Rdiv in *. replace (400 * (val up * / 10 ^ 15)) with (val up * (400 * / 10 ^ 15)) by ring. apply Rle_ge, Rmult_le_compat_l; lra. }
  assert (T0 : 0 <= val up / 10 ^ 15 /\ val up / 10 ^ 15 <= val up) by lra.
  assert (AI : Rabs vi <= 2 * val up) by (apply Rabs_le; lra). assert (AJ : Rabs vj <= 2 * val up) by (apply Rabs_le; lra).
  assert (NE : fmt16 (fd_pt g i) <> fmt16 (fd_pt g j)).
  { apply C86_separates; auto. change (5 / 10 ^ 16 * (Rabs vi + Rabs vj) < Rabs (vi - vj)). rewrite (Rabs_left (vi - vj)) by lra. apply Rle_lt_trans with (5 / 10 ^ 16 * (4 * val up)); [apply Rmult_le_compat_l; lra|]. lra. }
  split; auto. intros v w Hv Hw. destruct (C86_order _ _ v w Fi Fj ltac:(change (vi <= vj); lra) Hv Hw) as [L|E]; auto. exfalso. subst w.
  pose proof (decimal_det _ _ _ Hv (fmt16_value _ Fi)) as D1. pose proof (decimal_det _ _ _ Hw (fmt16_value _ Fj)) as D3.
  pose proof (dround_err vi) as R1. pose proof (dround_err vj) as R2. change (v = dround vi) in D1. change (v = dround vj) in D3. rewrite <- D1 in R1. rewrite <- D3 in R2.
  assert (R1' : Rabs (v - vi) <= 5 / 10 ^ 16 * (2 * val up)) by (apply Rle_trans with (1 := R1); apply Rmult_le_compat_l; lra).
  assert (R2' : Rabs (v - vj) <= 5 / 10 ^ 16 * (2 * val up)) by (apply Rle_trans with (1 := R2); apply Rmult_le_compat_l; lra).
  apply Rabs_le_between in R1'. apply Rabs_le_between in R2'. lra.
Qed.
End Nodes.

(** the hypotheses are met and the texts are the expected ones *)
Example C86_nonvacuous :
  fmt16 (S754_finite true 3 (-1)) = txt "-1.5" /\
  fmt16 (S754_finite false 7205759403792794 (-56)) = txt "0.1" /\
  fmt16 (S754_finite false 5902958103587057 (-69)) = txt "1e-05" /\
  fmt16 (S754_finite false 6004799503160661 (-54)) = txt "0.3333333333333333" /\
  fmt16 (S754_finite false 9007199254740991 971) = txt "1.797693134862316e+308" /\
  fmt16 (S754_finite false 1 (-1074)) = txt "4.940656458412465e-324" /\
  fmt16 (S754_infinity true) = txt "-inf" /\ fmt16 (S754_zero true) = txt "-0" /\
  fmt16 (sf_ofZ (-16)) = txt "-16" /\
  (fin (S754_finite false 7205759403792794 (-56)) /\ exists v, decimal_text (txt "0.1") v /\ v = / 10) /\
  (let lo := sf_ofZ 2 in let up := sf_ofZ 7 in fin lo /\ fin up /\ ordinary (val lo) /\ ordinary (val up) /\ 2 * val lo <= val up).
Proof.
  do 9 (split; [vm_compute; reflexivity|]). split.
  - split; [split; [reflexivity|exact I]|]. exists (/ 10). split; auto.
    exists [], 1%Z, (txt "0"), (txt ".1"), (txt "1"), [], 0%Z. split; [reflexivity|]. split; [now left|]. split.
    { split; [discriminate|]. intros c [<-|[<-|[]]]; [exists 48%nat|exists 49%nat]; (split; [lia|reflexivity]). }
    split; [now right|]. split; [now left|]. transitivity (IZR 1 * / (10 * 1)); [lra|reflexivity].
  - cbv zeta. destruct (ofZ_ok 2) as (A & VA); [reflexivity|]. destruct (ofZ_ok 7) as (B & VB); [reflexivity|]. fold (sf_ofZ 2) in *. fold (sf_ofZ 7) in *.
    split; auto. split; auto. unfold ordinary. rewrite VA, VB. lra.
Qed.
