(** * C85: what fails in doubles, and a concrete launched run. *)
From Coq Require Import ZArith Reals SpecFloat Bool List Lra Lia.
From Verif Require Import Base BaseLemmas Arith MFd MCheb MSphere MGrid MParams MEom MSim PMake PTables PEom PropTables EomSpec FpSpec Fp FpErr FpRed PropFpFd FpKerr PropFpKerr PropFpKerr2.
Import ListNotations.
Local Open Scope R_scope.

Section S.
Variables (lexp llog lcos lsin lacos : spec_float -> spec_float) (lpi : spec_float).
Local Instance D3 : Arith spec_float := b64 lexp llog lcos lsin lacos lpi.

Definition half : spec_float := sf_dec 5 (-1).
Lemma half_ok : fin half /\ val half = 1 / 2.
Proof.
  assert (E : half = S754_finite false 4503599627370496 (-53)) by (vm_compute; reflexivity). rewrite E. split; [split; [reflexivity|exact I]|].
  cbn [val]. change (powerRZ 2 (-53)) with (/ 2 ^ 53). rewrite (pow_IZR 2). change (2 ^ Z.of_nat 53)%Z with 9007199254740992%Z. lra.
Qed.
Lemma pw z e : (0 <= e)%Z -> val (S754_finite false z (- e)) = IZR (Zpos z) * / IZR (2 ^ e).
Proof.
  intros H. cbn [val]. rewrite Rmult_1_l. f_equal. rewrite <- (Z2Nat.id e) by auto. rewrite powerRZ_neg, <- pow_powerRZ by lra.
  rewrite pow_inv, (pow_IZR 2). reflexivity.
Qed.

(** Property "the last node is at infinity" is false in doubles: for a non-spinning hole of mass 1/2, compactification
    length 20 and 36 radial points, the last stored coordinate exceeds the compactification length and the program
    assigns it the areal radius -9.007...e16. *)
Theorem C85_last_node_refuted :
  let cl := sf_ofZ 20 in let R := fd_pt (FD_make 36 (launch_Rmin cl half (sf_ofZ 0)) cl) 35 in
  val cl < val R /\ forall g : grid spec_float, g_cl g = cl -> val (R_to_r g R) < - (9 * 10 ^ 16).
Proof.
  intros cl R.
  assert (E : R = S754_finite false 5629499534213121 (-48)) by (vm_compute; reflexivity).
  assert (Ec : cl = S754_finite false 5629499534213120 (-48)) by (vm_compute; reflexivity). split.
  - rewrite E, Ec. rewrite !(pw _ 48) by lia. change (2 ^ 48)%Z with 281474976710656%Z. lra.
  - intros g Eg. unfold R_to_r. rewrite Eg.
    assert (Er : (if (fdec 1 (-16) <? fabs (R - cl))%f then (R / (#1 - R / cl))%f else fdec 1 12) = S754_finite true 5629499534213121 4) by (vm_compute; reflexivity).
    rewrite Er. cbn [val]. change (powerRZ 2 4) with (2 ^ 4). rewrite (pow_IZR 10). change (10 ^ Z.of_nat 16)%Z with 10000000000000000%Z. lra.
Qed.
End S.

(** ** A concrete launched run: mass 1/2, spin 1/4, compactification length 20, 8 x 3 x 4 nodes. For this example the
    library functions are taken to be cos(acos c) = c. *)
Definition idf (x : spec_float) : spec_float := x.
Local Instance D4 : Arith spec_float := b64 idf idf idf idf idf (sf_ofZ 3).
Definition quarter : spec_float := sf_dec 25 (-2).
Definition ex_sht : sht spec_float := Sht 2 1 3 4 12 [sf_dec 5 (-1); sf_ofZ 0; sf_dec (-5) (-1)] (fun _ => []) (fun _ => []) (fun _ => []) (fun _ => []).
Definition ex_par : params spec_float :=
  let z := sf_ofZ 0 in Par 1 8 2 1 3 4 1 z (sf_ofZ 20) (sf_ofZ 20) z half quarter z (sf_ofZ 1) z z z z z [] [] z z z 0%Z 0%Z.
Example C85_nonvacuous : exists g e,
  let cl := sf_ofZ 20 in
  Grid_make (Build false true false) ex_sht cl (launch_Rmin cl half quarter) cl 8 2 1 3 4 = Ok g /\ Eom_make g ex_par = Ok e /\
  fin half /\ fin quarter /\ fin cl /\ / 2 ^ 50 <= val half /\ 1 <= val cl <= 2 ^ 50 /\ 5 * val half <= val cl /\
  Rabs (val quarter) <= val half /\ spin_clear (val half) (val quarter) /\
  (forall it th, sp_theta (g_sphere g) it = Ok th -> fin th /\ Rabs (val th) <= 1).
Proof.
  destruct (Grid_make_ok (Build false true false) ex_sht (sf_ofZ 20) (launch_Rmin (sf_ofZ 20) half quarter) (sf_ofZ 20) 8 2 1 3 4) as (g & Eg); [cbn; lia|discriminate|].
  assert (Ee : exists e, (let! g := Grid_make (Build false true false) ex_sht (sf_ofZ 20) (launch_Rmin (sf_ofZ 20) half quarter) (sf_ofZ 20) 8 2 1 3 4 in Eom_make g ex_par) = Ok e)
    by (eexists; vm_compute; reflexivity).
  destruct Ee as (e & Ee). rewrite Eg in Ee. cbn [bind] in Ee. exists g, e. intros cl. split; [exact Eg|]. split; [exact Ee|].
  destruct half_ok as [Fh Eh]. assert (Eq : quarter = S754_finite false 4503599627370496 (-54)) by (vm_compute; reflexivity).
  assert (Vq : val quarter = 1 / 4). { rewrite Eq. rewrite (pw _ 54) by lia. change (2 ^ 54)%Z with 18014398509481984%Z. lra. }
  assert (Fq : fin quarter) by (rewrite Eq; split; [reflexivity|exact I]).
  assert (C20 : fin cl /\ val cl = 20) by (apply (ofZ_ok 20); reflexivity). destruct C20 as [F20 V20].
  split; [exact Fh|]. split; [exact Fq|]. split; [exact F20|]. rewrite Eh, Vq, V20.
  split. { apply Rle_trans with (/ 2 ^ 1); [|lra]. apply Rinv_le_contravar; [lra|]. apply Rle_pow; [lra|lia]. }
  split. { split; [lra|]. apply Rle_trans with (2 ^ 5); [lra|]. apply Rle_pow; [lra|lia]. }
  split; [lra|]. rewrite Rabs_right by lra. split; [lra|]. split.
  { right. rewrite Rabs_right by lra. assert (2 / 10 ^ 16 <= 1 / 4). { rewrite (pow_IZR 10). change (10 ^ Z.of_nat 16)%Z with 10000000000000000%Z. lra. } split; [lra|right; lra]. }
  apply Grid_make_tables in Eg. destruct Eg as (_ & _ & _ & _ & _ & _ & _ & _ & _ & ES & _). rewrite Sphere_make_ok in ES.
  apply (f_equal (fun r => match r with Ok s => sp_shtns s | _ => ex_sht end)) in ES. change (ex_sht = sp_shtns (g_sphere g)) in ES.
  intros it th. unfold sp_theta. rewrite <- ES. cbn [s_ct ex_sht]. clear ES Ee.
  assert (H5 : sf_dec (-5) (-1) = SFopp half) by (vm_compute; reflexivity). rewrite H5. change (sf_dec 5 (-1)) with half.
  destruct (opp_ok half Fh) as [Fo Eo].
  destruct it as [|[|[|it]]]; unfold vget; cbn [nth_error bind]; intros H.
  - assert (H' : half = th) by exact (f_equal (fun r => match r with Ok s => s | _ => half end) H). rewrite <- H'. rewrite Eh. split; [exact Fh|]. rewrite Rabs_right; lra.
  - assert (H' : (sf_ofZ 0) = th) by exact (f_equal (fun r => match r with Ok s => s | _ => half end) H). rewrite <- H'. split; [split; [reflexivity|exact I]|]. cbn [val sf_ofZ binary_normalize]. rewrite Rabs_R0. lra.
  - assert (H' : (SFopp half) = th) by exact (f_equal (fun r => match r with Ok s => s | _ => half end) H). rewrite <- H'. rewrite Eo, Eh. split; [exact Fo|]. rewrite Rabs_left; lra.
  - destruct it; discriminate.
Qed.
