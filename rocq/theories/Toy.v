(** A toy arithmetic (integers, dummy transcendental functions) used only to run the model on small
    concrete inputs in the non-vacuity examples. *)
From Verif Require Import Base Arith MSphere.

#[local] Instance Z_arith : Arith Z := {|
  fadd := Z.add; fsub := Z.sub; fmul := Z.mul; fdiv := Z.div; fopp := Z.opp; fabs := Z.abs;
  flt := Z.ltb; fofZ := fun z => z; fdec := fun m e => if (0 <=? e)%Z then (m * 10 ^ e)%Z else 0%Z;
  fpow := fun x n => (x ^ Z.of_nat n)%Z; fpowh := Z.sqrt;
  fexp := fun _ => 1%Z; flog := Z.log2; fcos := fun _ => 1%Z; fsin := fun _ => 1%Z; facos := fun x => x;
  fpi := 3%Z |}.

(** transforms that forget everything: enough to build objects *)
Definition toy_sht (lmax mmax nlat nphi : nat) : sht Z :=
  Sht lmax mmax nlat nphi (nlat * nphi) (map Z.of_nat (seq 0 nlat))
    (fun v => map (fun i => (nth i v 0%Z, 0%Z)) (seq 0 (nlm_calc lmax mmax)))
    (fun c => map (fun i => fst (nth i c (0%Z, 0%Z))) (seq 0 (nlat * nphi)))
    (fun v => map (fun i => nth i v (0%Z, 0%Z)) (seq 0 ((lmax + 1) * (lmax + 1))))
    (fun c => map (fun i => nth i c (0%Z, 0%Z)) (seq 0 (nlat * nphi))).
