(** * Model of class Sphere: Source/sphere.hpp, Source/sphere.cpp. *)
From Verif Require Import Base Arith.
Local Open Scope f.

Section Sphere.
Context {F : Type} {AF : Arith F}.
Local Notation C := (cplx F).

(** The SHTns configuration object (shtns_cfg) returned by shtns_create/shtns_set_grid
    (sphere.cpp:23-40).  The transforms are external: arbitrary functions here; what is assumed of
    them (only in the theorems that say so) is [SphereSpec.lawful]. *)
Record sht := Sht {
  s_lmax : nat;  s_mmax : nat;  s_nlat : nat;  s_nphi : nat;
  s_nspat : nat;                                (* NSPAT_ALLOC *)
  s_ct : list F;                                (* shtns->ct, cos(theta) at the nodes *)
  s_an  : list F -> list C;         (* spat_to_SH      *)
  s_sy  : list C -> list F;         (* SH_to_spat      *)
  s_anc : list C -> list C;   (* spat_cplx_to_SH *)
  s_syc : list C -> list C    (* SH_to_spat_cplx *)
}.

(** shtns.h (external): LM(shtns,l,m) and nlm for mres = 1 (sphere.hpp:73) and mmax <= lmax.
    The subtraction is on [nat]; SHTns computes it in machine integers, which agree for m <= 2*lmax+1. *)
Definition LM (lmax l m : nat) : nat := ((m * (2 * lmax + 2 - (m + 1))) / 2 + l)%nat.
Definition nlm_calc (lmax mmax : nat) : nat := ((mmax + 1) * (lmax + 1) - (mmax * (mmax + 1)) / 2)%nat.

(** sphere.hpp:73-93 *)
Record sphere := Sphr {
  sp_lmax : nat; sp_mmax : nat; sp_nlat : nat; sp_nphi : nat;
  sp_lap : list F; sp_low_pass : list F;
  sp_nSph : nat; sp_nYlm : nat; sp_shtns : sht }.

(** sphere.cpp:7-60.  [h] is the configuration SHTns returns for these sizes. *)
Definition Sphere_make (h : sht) (nl nm nlat nphi : nat) : res sphere :=
  let lap := vec nl f0 in
  let low_pass := vec nl f0 in
  let! lap := for_ 0 nl (fun i lap => lap.[i <- (- fnat i) * (fnat i + #1)]) lap in
  let! low_pass := for_ 0 nl (fun i lp =>
      lp.[i <- fexp (#(-40) * ((fnat i / fnat nl) ^^ 16))]) low_pass in
  Ok (Sphr nl nm nlat nphi lap low_pass (s_nspat h) (nlm_calc nl nm) h).

(** sphere.hpp:102-109 *)
Definition sp_indx (b : build) (s : sphere) (i_th i_ph : nat) : nat :=
  if contiguous b then (sp_nlat s * i_ph + i_th)%nat else (sp_nphi s * i_th + i_ph)%nat.

(** sphere.cpp:72-79 (mres = 1) *)
Definition sp_theta (s : sphere) (i : nat) : res F := let! c := (s_ct (sp_shtns s)).[i] in Ok (facos c).
Definition sp_phi (s : sphere) (i : nat) : F :=
  fnat i * #2 * fpi / fnat (s_nphi (sp_shtns s) * 1)%nat.

(** The copy loops "for (i<n) dst[i] = src[i]" used around every transform,
    e.g. sphere.cpp:118-120.  The fftw_malloc'ed buffer is overwritten completely, so its
    uninitialised content is modelled by zeros. *)
Definition copy_in {A} (z : A) (n : nat) (src : list A) : res (list A) :=
  for_ 0 n (fun i d => let! x := src.[i] in d.[i <- x]) (vec n z).
Definition copy_out {A} (n : nat) (src dst : list A) : res (list A) :=
  for_ 0 n (fun i d => let! x := src.[i] in d.[i <- x]) dst.

(** sphere.cpp:110-128 *)
Definition to_Ylm (b : build) (s : sphere) (sph : list F) (ylm : list C) : res (list C) :=
  let! _ := assert_ b (Nat.eqb (length sph) (sp_nSph s)) in
  let! _ := assert_ b (Nat.eqb (length ylm) (sp_nYlm s)) in
  let! tmp := copy_in f0 (sp_nSph s) sph in
  copy_out (sp_nYlm s) (s_an (sp_shtns s) tmp) ylm.
(** sphere.cpp:130-148 *)
Definition to_Sph (b : build) (s : sphere) (ylm : list C) (sph : list F) : res (list F) :=
  let! _ := assert_ b (Nat.eqb (length sph) (sp_nSph s)) in
  let! _ := assert_ b (Nat.eqb (length ylm) (sp_nYlm s)) in
  let! tmp := copy_in c0 (sp_nYlm s) ylm in
  copy_out (sp_nSph s) (s_sy (sp_shtns s) tmp) sph.

(** (lmax+1)^2 as computed by pow(_lmax+1,2) and converted back to size_t; exact below 2^53,
    which is assumed. *)
Definition nYc (s : sphere) : nat := ((sp_lmax s + 1) * (sp_lmax s + 1))%nat.
(** sphere.cpp:150-168 *)
Definition to_Ylm_c (b : build) (s : sphere) (sph ylm : list C) : res (list C) :=
  let! _ := assert_ b (Nat.eqb (length sph) (sp_nSph s)) in
  let! _ := assert_ b (Nat.eqb (length ylm) (nYc s)) in
  let! tmp := copy_in c0 (sp_nSph s) sph in
  copy_out (nYc s) (s_anc (sp_shtns s) tmp) ylm.
(** sphere.cpp:170-188 *)
Definition to_Sph_c (b : build) (s : sphere) (ylm sph : list C) : res (list C) :=
  let! _ := assert_ b (Nat.eqb (length sph) (sp_nSph s)) in
  let! _ := assert_ b (Nat.eqb (length ylm) (nYc s)) in
  let! tmp := copy_in c0 (nYc s) ylm in
  copy_out (sp_nSph s) (s_syc (sp_shtns s) tmp) sph.

(** The loop nest shared by laplace_beltrami, partial_phi and filter
    (sphere.cpp:205-209, 236-240, 357-361):
      for (l<_lmax) for (m<min(l+1,_mmax)) Ylm_tmp[LM(l,m)] = body l m Ylm_tmp[LM(l,m)]. *)
Definition lm_loop (s : sphere) (body : nat -> nat -> C -> res C) (y : list C) : res (list C) :=
  for_ 0 (sp_lmax s) (fun l y =>
  for_ 0 (Nat.min (l + 1) (sp_mmax s)) (fun m y =>
    let! c := y.[LM (sp_lmax s) l m] in
    let! c' := body l m c in
    y.[LM (sp_lmax s) l m <- c']) y) y.

(** complex *= double *)
Definition cmulr (x : C) (a : F) : C := (fst x * a, snd x * a).

(** sphere.cpp:190-217 *)
Definition laplace_beltrami (b : build) (s : sphere) (v ddv : list F) : res (list F) :=
  let! _ := assert_ b (Nat.eqb (length v) (sp_nSph s)) in
  let! _ := assert_ b (Nat.eqb (length ddv) (sp_nSph s)) in
  let! tmp := copy_in f0 (sp_nSph s) v in
  let! y := lm_loop s (fun l m c => let! a := (sp_lap s).[l] in Ok (cmulr c a))
              (s_an (sp_shtns s) tmp) in
  copy_out (sp_nSph s) (s_sy (sp_shtns s) y) ddv.

(** sphere.cpp:221-248 *)
Definition partial_phi (b : build) (s : sphere) (v dv : list F) : res (list F) :=
  let! _ := assert_ b (Nat.eqb (length v) (sp_nSph s)) in
  let! _ := assert_ b (Nat.eqb (length dv) (sp_nSph s)) in
  let! tmp := copy_in f0 (sp_nSph s) v in
  let img : C := (#0, #1) in
  let! y := lm_loop s (fun l m c => Ok (cmul c (cmul img (fnat m, #0))))
              (s_an (sp_shtns s) tmp) in
  copy_out (sp_nSph s) (s_sy (sp_shtns s) y) dv.

(** Index and factor arithmetic of raise/lower: l is size_t, m is int, so every sum and product is
    taken modulo 2^64 (sphere.cpp:270, 272, 304, 306). *)
Definition yidx (l m : Z) : nat := Z.to_nat (u64 (l * (l + 1) + m)).
Definition raise_fac (l m : Z) : F := fpowh (fofZ (u64 (u64 (l - m + 1) * u64 (l + m)))).
Definition lower_fac (l m : Z) : F := fpowh (fofZ (u64 (u64 (l + m + 1) * u64 (l - m)))).

(** sphere.cpp:268-273: the in-place coefficient update of raise.
    "for (int m=int(l); m>-int(l); m--)" : the k-th pass has m = int(l)-k. *)
Definition raise_coefs (s : sphere) (y : list C) : res (list C) :=
  for_ 0 (sp_lmax s) (fun l y =>
    let lz := Z.of_nat l in
    let il := i32 lz in
    let! y := for_ 0 (Z.to_nat (2 * il)) (fun k y =>
      let m := (il - Z.of_nat k)%Z in
      let! c := y.[yidx lz (m - 1)] in
      y.[yidx lz m <- cscale (raise_fac lz m) c]) y in
    y.[yidx lz (- lz) <- c0]) y.
(** sphere.cpp:302-307; "for (int m=-int(l); m<int(l); m++)". *)
Definition lower_coefs (s : sphere) (y : list C) : res (list C) :=
  for_ 0 (sp_lmax s) (fun l y =>
    let lz := Z.of_nat l in
    let il := i32 lz in
    let! y := for_ 0 (Z.to_nat (2 * il)) (fun k y =>
      let m := (- il + Z.of_nat k)%Z in
      let! c := y.[yidx lz (m + 1)] in
      y.[yidx lz m <- cscale (lower_fac lz m) c]) y in
    y.[yidx lz lz <- c0]) y.

(** sphere.cpp:263-265: copy real input into the complex buffer *)
Definition copy_re (n : nat) (v : list F) : res (list C) :=
  for_ 0 n (fun i d => let! x := v.[i] in d.[i <- (x, #0)]) (vec n c0).

(** sphere.cpp:256-281 *)
Definition raise (b : build) (s : sphere) (v : list F) (rv : list C) : res (list C) :=
  let! _ := assert_ b (Nat.eqb (length v) (sp_nSph s)) in
  let! _ := assert_ b (Nat.eqb (length rv) (sp_nSph s)) in
  let! tmp := copy_re (sp_nSph s) v in
  let! y := raise_coefs s (s_anc (sp_shtns s) tmp) in
  copy_out (sp_nSph s) (s_syc (sp_shtns s) y) rv.
(** sphere.cpp:289-315 *)
Definition lower (b : build) (s : sphere) (v : list F) (lv : list C) : res (list C) :=
  let! _ := assert_ b (Nat.eqb (length v) (sp_nSph s)) in
  let! _ := assert_ b (Nat.eqb (length lv) (sp_nSph s)) in
  let! tmp := copy_re (sp_nSph s) v in
  let! y := lower_coefs s (s_anc (sp_shtns s) tmp) in
  copy_out (sp_nSph s) (s_syc (sp_shtns s) y) lv.

(** sphere.cpp:322-339 *)
Definition sphereX (b : build) (s : sphere) (v vX : list F) : res (list F) :=
  let n := sp_nSph s in
  let! _ := assert_ b (Nat.eqb (length v) n) in
  let! _ := assert_ b (Nat.eqb (length vX) n) in
  let! raise_v := raise b s v (vec n c0) in
  let! lower_v := lower b s v (vec n c0) in
  let! partial_phi_v := partial_phi b s v (vec n f0) in
  for_ 0 n (fun i vX =>
    let! rv := raise_v.[i] in let! lv := lower_v.[i] in let! dp := partial_phi_v.[i] in
    let vrvl := cmul rv lv in
    vX.[i <- - (fst vrvl) + dp ^^ 2]) vX.

(** sphere.cpp:345-369 *)
Definition sp_filter (b : build) (s : sphere) (v : list F) : res (list F) :=
  let! _ := assert_ b (Nat.eqb (length v) (sp_nSph s)) in
  let! tmp := copy_in f0 (sp_nSph s) v in
  let! y := lm_loop s (fun l m c =>
              let! a := (sp_low_pass s).[l] in let! a' := (sp_low_pass s).[m] in
              Ok (cmulr c (a * a')))
              (s_an (sp_shtns s) tmp) in
  copy_out (sp_nSph s) (s_sy (sp_shtns s) y) v.

(** sphere.cpp:371-403 *)
Definition power_spectrum (b : build) (s : sphere) (v p : list F) : res (list F) :=
  let! _ := assert_ b (Nat.eqb (length v) (sp_nSph s)) in
  let! _ := assert_ b (Nat.eqb (length p) (sp_lmax s)) in
  let! tmp := copy_in f0 (sp_nSph s) v in
  let y := s_an (sp_shtns s) tmp in
  for_ 0 (sp_lmax s) (fun l p =>
    let! c := y.[LM (sp_lmax s) l 0] in
    let! p := p.[l <- fst c ^^ 2 + snd c ^^ 2] in
    for_ 1 (Nat.min (l + 1) (sp_mmax s)) (fun m p =>
      let! c := y.[LM (sp_lmax s) l m] in
      let! x := p.[l] in
      p.[l <- x + #2 * (fst c ^^ 2 + snd c ^^ 2)]) p) p.

(** sphere.cpp:407-417 *)
Definition compute_ylm (b : build) (s : sphere) (l_ang m_ang : nat) : res (list F) :=
  let inp := vec (sp_nYlm s) c0 in
  let out := vec (sp_nSph s) f0 in
  let! inp := inp.[LM (sp_lmax s) l_ang m_ang <- (#1, #0)] in
  to_Sph b s inp out.

End Sphere.
Arguments sht F : clear implicits.
Arguments sphere F : clear implicits.
