(** Specification for the symmetries of the evolution (C72, C73): linearity of the external transforms and
    linear combinations of arrays.  Nothing here refers to the model except the record [sht]. *)
From Coq Require Import Reals List.
From Verif Require Import Base Arith MSphere Spec SphereSpec.
Import ListNotations.
Local Open Scope R_scope.

(** component-wise linear combination of arrays of complex numbers *)
Definition clincomb (a : R) (v : list (R * R)) (c : R) (w : list (R * R)) : list (R * R) :=
  map (fun q => (a * fst (fst q) + c * fst (snd q), a * snd (fst q) + c * snd (snd q))) (combine v w).
(** every entry negated *)
Definition negv (v : list R) : list R := map Ropp v.

(** the four transforms of the library commute with real linear combinations (they are finite sums of
    the data with fixed weights; exact in real arithmetic) *)
Record linear_sht (h : sht R) : Prop := {
  ln_an : forall a v c w, length v = s_nspat h -> length w = s_nspat h ->
    s_an h (lincomb a v c w) = clincomb a (s_an h v) c (s_an h w);
  ln_sy : forall a v c w, length v = nlm_calc (s_lmax h) (s_mmax h) -> length w = nlm_calc (s_lmax h) (s_mmax h) ->
    s_sy h (clincomb a v c w) = lincomb a (s_sy h v) c (s_sy h w);
  ln_anc : forall a v c w, length v = s_nspat h -> length w = s_nspat h ->
    s_anc h (clincomb a v c w) = clincomb a (s_anc h v) c (s_anc h w);
  ln_syc : forall a v c w, length v = ((s_lmax h + 1) * (s_lmax h + 1))%nat -> length w = ((s_lmax h + 1) * (s_lmax h + 1))%nat ->
    s_syc h (clincomb a v c w) = clincomb a (s_syc h v) c (s_syc h w) }.
