(** The contract of SHTns's complex transforms when fewer orders than degrees are kept (mmax <= lmax),
    as in the shipped run script (nl = 20, nm = 18).
    Layout (SHTns's macro LM_cplx; SHTns is not part of /repo, so this layout is an assumption):
    the coefficient of degree l and order m, |m| <= min(l, mmax), is stored at l(l+1)+m for l <= mmax
    and at mmax(2l-mmax)+l+m for l > mmax.  For mmax = lmax this is the contract [clawful]. *)
From Coq Require Import Reals.
From Verif Require Import Base Arith MSphere Spec SphereSpec.
Local Open Scope R_scope.

Definition tidx (M l : nat) (m : Z) : nat :=
  Z.to_nat (if (l <=? M)%nat then Z.of_nat l * (Z.of_nat l + 1) + m
            else Z.of_nat M * (2 * Z.of_nat l - Z.of_nat M) + Z.of_nat l + m).
(** number of stored coefficients *)
Definition tsize (L M : nat) : nat := (M * (2 * L - M) + L + M + 1)%nat.
Definition tcre (P : profiles) (L M : nat) (a : cspectrum) (th ph : R) : R :=
  Rsum (L + 1) (fun l => msum (Nat.min l M) (fun m =>
    prof P l m th * (fst (a l m) * cos (IZR m * ph) - snd (a l m) * sin (IZR m * ph)))).
Definition tcim (P : profiles) (L M : nat) (a : cspectrum) (th ph : R) : R :=
  Rsum (L + 1) (fun l => msum (Nat.min l M) (fun m =>
    prof P l m th * (fst (a l m) * sin (IZR m * ph) + snd (a l m) * cos (IZR m * ph)))).
(** the buffer has (lmax+1)^2 cells; cells behind the stored coefficients may hold anything *)
Definition tstores (h : sht R) (c : list (R * R)) (a : cspectrum) : Prop :=
  length c = ((s_lmax h + 1) * (s_lmax h + 1))%nat /\
  forall l m, (l <= s_lmax h)%nat -> (- Z.of_nat (Nat.min l (s_mmax h)) <= m <= Z.of_nat (Nat.min l (s_mmax h)))%Z ->
    nth (tidx (s_mmax h) l m) c (0, 0) = a l m.
Record tlawful (b : build) (h : sht R) (P : profiles) : Prop := {
  tl_syn : forall c a, tstores h c a -> csampled b h (tcre P (s_lmax h) (s_mmax h) a) (tcim P (s_lmax h) (s_mmax h) a) (s_syc h c);
  tl_ana : forall c a, tstores h c a -> tstores h (s_anc h (s_syc h c)) a }.
(** no content of degree K or higher *)
Definition low (K : nat) (a : spectrum) : Prop := forall l m, (K <= l)%nat -> a l m = (0, 0).
