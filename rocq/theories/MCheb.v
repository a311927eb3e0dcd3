(** * Model of class Cheb: Source/cheb.hpp, Source/cheb.cpp. *)
From Verif Require Import Base Arith.
Local Open Scope f.

Section Cheb.
Context {F : Type} {AF : Arith F}.

(** FFTW's REDFT00 (DCT-I), by its documented definition for n >= 2:
      Y_k = X_0 + (-1)^k X_{n-1} + 2 sum_{j=1}^{n-2} X_j cos(pi j k / (n-1)).
    External library: only the mathematical definition is modelled, not FFTW's rounding.
    The out-of-place transform leaves its input unchanged. *)
Fixpoint fsum (n i : nat) (t : nat -> F) : F :=          (* sum_{j=i}^{i+n-1} t j *)
  match n with O => f0 | S n' => t i + fsum n' (S i) t end.
Definition sgn (k : nat) : F := if Nat.even k then #1 else #(-1).
Definition redft00 (x : list F) : list F :=
  let n := length x in
  map (fun k =>
    nth 0 x f0 + sgn k * nth (n - 1) x f0
    + #2 * fsum (n - 2) 1 (fun j => nth j x f0 * fcos (fpi * fnat j * fnat k / fnat (n - 1))))
    (seq 0 n).

(** cheb.hpp:27-40.  [ch_plan] is false when fftw_plan_r2r_1d returned NULL, which FFTW does for
    REDFT00 with fewer than two points. *)
Record cheb := Chb {
  ch_n : nat; ch_lower : F; ch_upper : F; ch_jac : F;
  ch_pts : list F; ch_low_pass : list F; ch_plan : bool }.

(** cheb.cpp:7-38 *)
Definition Cheb_make (b : build) (n : nat) (lower upper : F) : res cheb :=
  let jac := (upper - lower) / #2 in
  let pts := vec n f0 in
  let low_pass := vec n f0 in
  let! pts := for_ 0 n (fun i pts =>
    pts.[i <- jac * fcos (fpi * fnat i / (fnat n - #1)) + (upper + lower) / #2]) pts in
  let! low_pass := for_ 0 n (fun i lp =>
    lp.[i <- fexp (#(-40) * ((fnat i / fnat n) ^^ 16))]) low_pass in
  let plan := Nat.leb 2 n in
  let! _ := assert_ b plan in
  Ok (Chb n lower upper jac pts low_pass plan).

(** fftw_execute_r2r(_plan_dct, in, out): UB on a null plan or on arrays that are too short. *)
Definition execute (g : cheb) (inp out : list F) : res (list F) :=
  if ch_plan g && Nat.eqb (length inp) (ch_n g) && Nat.eqb (length out) (ch_n g)
  then Ok (redft00 inp) else UB.

(** cheb.cpp:50-66, to_ch(po, ch); returns the new ch (po is not modified). *)
Definition to_ch (b : build) (g : cheb) (po ch : list F) : res (list F) :=
  let n := ch_n g in
  let! _ := assert_ b (Nat.eqb (length po) n) in
  let! _ := assert_ b (Nat.eqb (length ch) n) in
  let! ch := execute g po ch in
  let! x := ch.[0%nat] in
  let! ch := ch.[0%nat <- x / (#2 * fnat (wsub n 1))] in
  let! x := ch.[wsub n 1] in
  let! ch := ch.[wsub n 1 <- x / (#2 * fnat (wsub n 1))] in
  for_ 1 (wsub n 1) (fun i ch => let! x := ch.[i] in ch.[i <- x / fnat (wsub n 1)]) ch.

(** cheb.cpp:70-84, to_po(ch, po); returns the new ch (modified in place!) and the new po. *)
Definition to_po (b : build) (g : cheb) (ch po : list F) : res (list F * list F) :=
  let n := ch_n g in
  let! _ := assert_ b (Nat.eqb (length ch) n) in
  let! _ := assert_ b (Nat.eqb (length po) n) in
  let! ch := for_ 1 (wsub n 1) (fun i ch => let! x := ch.[i] in ch.[i <- x / #2]) ch in
  let! po := execute g ch po in
  Ok (ch, po).

(** cheb.cpp:88-120, der(v, dv); returns the new dv. *)
Definition cheb_der (b : build) (g : cheb) (v dv : list F) : res (list F) :=
  let n := ch_n g in
  let ch_tmp := vec n f0 in
  let! _ := assert_ b (Nat.eqb (length v) n) in
  let! _ := assert_ b (Nat.eqb (length dv) n) in
  let! ch_tmp := to_ch b g v ch_tmp in
  let! ch_tmp := ch_tmp.[wsub n 1 <- f0] in
  let! ch_tmp := ch_tmp.[wsub n 2 <- f0] in
  let! dv := for_ 0 n (fun i dv => let! x := ch_tmp.[i] in dv.[i <- x]) dv in
  let! ch_tmp := for_down (wsub n 2) 1 (fun i ch_tmp =>
    let! d := dv.[i] in
    let! c := ch_tmp.[i + 1] in
    ch_tmp.[wsub i 1 <- #2 * fnat i * d + c]) ch_tmp in
  let! x := ch_tmp.[0%nat] in
  let! ch_tmp := ch_tmp.[0%nat <- x / #2] in
  let! (_, dv) := to_po b g ch_tmp dv in
  for_ 0 n (fun i dv => let! x := dv.[i] in dv.[i <- x / ch_jac g]) dv.

(** cheb.cpp:124-134, filter(v) *)
Definition cheb_filter (b : build) (g : cheb) (v : list F) : res (list F) :=
  let n := ch_n g in
  let ch_tmp := vec n f0 in
  let! _ := assert_ b (Nat.eqb (length v) n) in
  let! ch_tmp := to_ch b g v ch_tmp in
  let! ch_tmp := for_ 0 n (fun i ch_tmp =>
    let! x := ch_tmp.[i] in let! w := (ch_low_pass g).[i] in ch_tmp.[i <- x * w]) ch_tmp in
  let! (_, v) := to_po b g ch_tmp v in
  Ok v.

(** cheb.cpp:139 *)
Definition cheb_pt (g : cheb) (i : nat) : res F := (ch_pts g).[i].

End Cheb.
Arguments cheb F : clear implicits.
