(** * Model of class FD: Source/finite_diff.hpp, Source/finite_diff.cpp. *)
From Verif Require Import Base Arith.
Local Open Scope f.

Section FD.
Context {F : Type} {AF : Arith F}.

(** finite_diff.hpp:23-28, the private data of an FD object. *)
Record fd := Fd { fd_n : nat; fd_lower : F; fd_upper : F; fd_dx : F }.

(** finite_diff.cpp:7-15.  [_n-1] is a size_t (wraps for n=0) converted to double. *)
Definition FD_make (n : nat) (lower upper : F) : fd :=
  Fd n lower upper ((upper - lower) / fnat (wsub n 1)).

(** finite_diff.cpp:221 *)
Definition fd_pt (g : fd) (i : nat) : F := fd_dx g * fnat i + fd_lower g.

(** rational literals "49./20." are evaluated as double divisions *)
Local Notation q a b := (#a / #b).

(** finite_diff.cpp:28-37 (and, with indices mirrored, 59-68): the seven-point one-sided sums.
    The C++ expression is "- (49./20.)*v[0] + ... "; unary minus binds tighter than [*]. *)
Definition der_s0 (a0 a1 a2 a3 a4 a5 a6 : F) : F :=
  (- q 49 20) * a0 + #6 * a1 - q 15 2 * a2 + q 20 3 * a3 - q 15 4 * a4 + q 6 5 * a5 - q 1 6 * a6.
(** finite_diff.cpp:38-47, 69-78 *)
Definition der_s1 (a0 a1 a2 a3 a4 a5 a6 : F) : F :=
  (- q 1 6) * a0 - q 77 60 * a1 + q 5 2 * a2 - q 5 3 * a3 + q 5 6 * a4 - q 1 4 * a5 + q 1 30 * a6.
(** finite_diff.cpp:48-57, 79-88 *)
Definition der_s2 (a0 a1 a2 a3 a4 a5 a6 : F) : F :=
  q 1 30 * a0 - q 2 5 * a1 - q 7 12 * a2 + q 4 3 * a3 - q 1 2 * a4 + q 2 15 * a5 - q 1 60 * a6.
(** finite_diff.cpp:90-97; arguments in the order v[i-3] .. v[i+3] without the centre *)
Definition der_s (m3 m2 m1 p1 p2 p3 : F) : F :=
  q 1 60 * p3 - q 3 20 * p2 + q 3 4 * p1 - q 3 4 * m1 + q 3 20 * m2 - q 1 60 * m3.

(** reads v[i0], .., seven cells given by an index function *)
Definition get7 (v : list F) (ix : nat -> nat) (s : F -> F -> F -> F -> F -> F -> F -> F) : res F :=
  let! a0 := v.[ix 0%nat] in let! a1 := v.[ix 1%nat] in let! a2 := v.[ix 2%nat] in
  let! a3 := v.[ix 3%nat] in let! a4 := v.[ix 4%nat] in let! a5 := v.[ix 5%nat] in
  let! a6 := v.[ix 6%nat] in Ok (s a0 a1 a2 a3 a4 a5 a6).

(** finite_diff.cpp:23-99, FD::der(v, dv); returns the new contents of dv.
    [_n-1-k] is two successive size_t subtractions.  v and dv are assumed not to alias. *)
Definition fd_der (b : build) (g : fd) (v dv : list F) : res (list F) :=
  let n := fd_n g in
  let dx := fd_dx g in
  let! _ := assert_ b (Nat.eqb (length v) n) in
  let! _ := assert_ b (Nat.eqb (length dv) n) in
  let! x := get7 v (fun k => k) der_s0 in
  let! dv := dv.[0%nat <- x / dx] in
  let! x := get7 v (fun k => k) der_s1 in
  let! dv := dv.[1%nat <- x / dx] in
  let! x := get7 v (fun k => k) der_s2 in
  let! dv := dv.[2%nat <- x / dx] in
  let! x := get7 v (fun k => wsub (wsub n 1) k) der_s0 in
  let! dv := dv.[wsub n 1 <- (- x) / dx] in
  let! x := get7 v (fun k => wsub (wsub n 1) k) der_s1 in
  let! dv := dv.[wsub n 2 <- (- x) / dx] in
  let! x := get7 v (fun k => wsub (wsub n 1) k) der_s2 in
  let! dv := dv.[wsub n 3 <- (- x) / dx] in
  for_ 3 (wsub n 3) (fun i dv =>
    let! p3 := v.[i + 3] in let! p2 := v.[i + 2] in let! p1 := v.[i + 1] in
    let! m1 := v.[wsub i 1] in let! m2 := v.[wsub i 2] in let! m3 := v.[wsub i 3] in
    dv.[i <- der_s m3 m2 m1 p1 p2 p3 / dx]) dv.

(** finite_diff.cpp:108-118, 142-152 *)
Definition der2_s0 (a0 a1 a2 a3 a4 a5 a6 a7 : F) : F :=
  q 469 90 * a0 - q 223 10 * a1 + q 879 20 * a2 - q 949 18 * a3 + #41 * a4 - q 201 10 * a5
  + q 1019 180 * a6 - q 7 10 * a7.
(** finite_diff.cpp:119-129, 153-163 *)
Definition der2_s1 (a0 a1 a2 a3 a4 a5 a6 a7 : F) : F :=
  q 7 10 * a0 - q 7 18 * a1 - q 27 10 * a2 + q 19 4 * a3 - q 67 18 * a4 + q 9 5 * a5
  - q 1 2 * a6 + q 11 180 * a7.
(** finite_diff.cpp:130-140, 164-174 *)
Definition der2_s2 (a0 a1 a2 a3 a4 a5 a6 a7 : F) : F :=
  (- q 11 180) * a0 + q 107 90 * a1 - q 21 10 * a2 + q 13 18 * a3 + q 17 36 * a4 - q 3 10 * a5
  + q 4 45 * a6 - q 1 90 * a7.
(** finite_diff.cpp:177-185 *)
Definition der2_s (m3 m2 m1 z p1 p2 p3 : F) : F :=
  q 1 90 * p3 - q 3 20 * p2 + q 3 2 * p1 - q 49 18 * z + q 3 2 * m1 - q 3 20 * m2 + q 1 90 * m3.

Definition get8 (v : list F) (ix : nat -> nat) (s : F -> F -> F -> F -> F -> F -> F -> F -> F) : res F :=
  let! a0 := v.[ix 0%nat] in let! a1 := v.[ix 1%nat] in let! a2 := v.[ix 2%nat] in
  let! a3 := v.[ix 3%nat] in let! a4 := v.[ix 4%nat] in let! a5 := v.[ix 5%nat] in
  let! a6 := v.[ix 6%nat] in let! a7 := v.[ix 7%nat] in Ok (s a0 a1 a2 a3 a4 a5 a6 a7).

(** finite_diff.cpp:101-187, FD::der2(v, ddv) *)
Definition fd_der2 (b : build) (g : fd) (v ddv : list F) : res (list F) :=
  let n := fd_n g in
  let! _ := assert_ b (Nat.eqb (length v) n) in
  let! _ := assert_ b (Nat.eqb (length ddv) n) in
  let dx2 := fd_dx g ^^ 2 in
  let! x := get8 v (fun k => k) der2_s0 in
  let! ddv := ddv.[0%nat <- x / dx2] in
  let! x := get8 v (fun k => k) der2_s1 in
  let! ddv := ddv.[1%nat <- x / dx2] in
  let! x := get8 v (fun k => k) der2_s2 in
  let! ddv := ddv.[2%nat <- x / dx2] in
  let! x := get8 v (fun k => wsub (wsub n 1) k) der2_s0 in
  let! ddv := ddv.[wsub n 1 <- x / dx2] in
  let! x := get8 v (fun k => wsub (wsub n 1) k) der2_s1 in
  let! ddv := ddv.[wsub (wsub n 1) 1 <- x / dx2] in
  let! x := get8 v (fun k => wsub (wsub n 1) k) der2_s2 in
  let! ddv := ddv.[wsub (wsub n 1) 2 <- x / dx2] in
  for_ 3 (wsub n 3) (fun i ddv =>
    let! p3 := v.[i + 3] in let! p2 := v.[i + 2] in let! p1 := v.[i + 1] in
    let! z := v.[i] in
    let! m1 := v.[wsub i 1] in let! m2 := v.[wsub i 2] in let! m3 := v.[wsub i 3] in
    ddv.[i <- der2_s m3 m2 m1 z p1 p2 p3 / dx2]) ddv.

(** finite_diff.cpp:200-210: the Kreiss-Oliger stencil with eps = 1.0 (line 195) *)
Definition ko_eps : F := #1.
Definition ko_s (m4 m3 m2 m1 z p1 p2 p3 p4 : F) : F :=
  let c := ko_eps / #256 in
  ((- c) * #1) * m4 - (c * #(-8)) * m3 - (c * #28) * m2 - (c * #(-56)) * m1
  + (#1 - c * #70) * z
  - (c * #(-56)) * p1 - (c * #28) * p2 - (c * #(-8)) * p3 - (c * #1) * p4.

(** finite_diff.cpp:191-216, FD::filter(v) *)
Definition fd_filter (b : build) (g : fd) (v : list F) : res (list F) :=
  let n := fd_n g in
  let! _ := assert_ b (Nat.eqb (length v) n) in
  let tmp := vec n f0 in
  let! tmp := for_ 4 (wsub n 4) (fun i tmp =>
    let! m4 := v.[wsub i 4] in let! m3 := v.[wsub i 3] in let! m2 := v.[wsub i 2] in
    let! m1 := v.[wsub i 1] in let! z := v.[i] in
    let! p1 := v.[i + 1] in let! p2 := v.[i + 2] in let! p3 := v.[i + 3] in let! p4 := v.[i + 4] in
    tmp.[i <- ko_s m4 m3 m2 m1 z p1 p2 p3 p4]) tmp in
  for_ 4 (wsub n 4) (fun i v => let! x := tmp.[i] in v.[i <- x]) v.

End FD.
Arguments fd F : clear implicits.
