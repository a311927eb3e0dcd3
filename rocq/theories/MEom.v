(** * Model of class Scalar_eom: Source/scalar_eom.hpp, Source/scalar_eom.cpp. *)
From Verif Require Import Base Arith MFd MCheb MSphere MGrid MParams MField.
Local Open Scope f.

Section Eom.
Context {F : Type} {AF : Arith F}.
Local Notation half := (fdec 5 (-1)).

(** scalar_eom.hpp:57-79: the 17 coefficient arrays, stored here as one array of records
    (simplification: structure of arrays -> array of structures; all are indexed by the same i). *)
Record coef := Cf {
  c_pre : F;
  c_p : F; c_dr_f : F; c_dr_p : F; c_dr_dr_f : F; c_dphi_dr_f : F; c_lap_f : F;
  c_p_p : F; c_p_dr_f : F; c_dr_f_dr_f : F; c_dr_f_dphi_f : F; c_sphereX_f : F;
  c_rho_vv : F; c_rho_vr : F; c_rho_rr : F; c_rho_rphi : F; c_rho_sphereX : F }.
Definition coef0 : coef := Cf f0 f0 f0 f0 f0 f0 f0 f0 f0 f0 f0 f0 f0 f0 f0 f0 f0.

(** scalar_eom.cpp:77-79 *)
Definition hor_p (m a : F) : F :=
  if fabs (m - fabs a) <? fdec 1 (-16) then m
  else if fabs a <? fdec 1 (-16) then #2 * m
  else m + fpowh ((m - a) * (m + a)).
(** scalar_eom.cpp:81-83 *)
Definition hor_m (m a : F) : F :=
  if fabs (m - fabs a) <? fdec 1 (-16) then m else a ^^ 2 / hor_p m a.

(** scalar_eom.cpp:75 *)
Definition Sigma_ (a inv_r th : F) : F := #1 + (inv_r ^^ 2) * (a ^^ 2) * (fcos th ^^ 2).
(** scalar_eom.cpp:84 *)
Definition Delta_ (m a inv_r : F) : F := (#1 - hor_p m a * inv_r) * (#1 - hor_m m a * inv_r).

(** scalar_eom.cpp:86-121, given inv_r and th *)
Definition coef_at (m a inv_r th : F) : coef :=
  let Sigma := Sigma_ a inv_r th in
  let Delta := Delta_ m a inv_r in
  let pre := #1 / (#1 + (#2 * m * inv_r / Sigma)) in
  Cf pre
     (#2 * m * (inv_r ^^ 2) / Sigma * pre)
     (#2 * (inv_r - m * (inv_r ^^ 2)) / Sigma * pre)
     (#4 * m * inv_r / Sigma * pre)
     (Delta / Sigma * pre)
     (#2 * a * (inv_r ^^ 2) / Sigma * pre)
     ((inv_r ^^ 2) / Sigma * pre)
     (- (#1 + (#2 * m * inv_r / Sigma)) * pre)
     (#4 * m * inv_r / Sigma * pre)
     (Delta / Sigma * pre)
     (#2 * a * (inv_r ^^ 2) / Sigma * pre)
     ((inv_r ^^ 2) / Sigma * pre)
     (half * (#1 + #2 * m * inv_r / Sigma))
     (#2 * m * inv_r / Sigma)
     (half * (((#1 + (#2 * m * inv_r) + ((a * inv_r) ^^ 2)) / Sigma) - (#4 * m * inv_r / (#2 * m * inv_r + Sigma))))
     (a * (inv_r ^^ 2) / Sigma)
     (half * (inv_r ^^ 2) / Sigma).

(** scalar_eom.cpp:65-70 *)
Definition inv_r_at (g : grid F) (cl R : F) : F :=
  if fabs (R - cl) <? fdec 1 (-16) then #0 else #1 / R_to_r g R.

(** scalar_eom.hpp:45-56 and 81-91: constants and the scratch arrays *)
Record scratch := Scr {
  s_dr_f : list F; s_lap_f : list F; s_dr_p : list F; s_dr_dr_f : list F;
  s_dphi_f : list F; s_dphi_dr_f : list F; s_sphereX_f : list F }.
Record eom := Eom {
  e_n : nat; e_dt : F;
  e_km1 : F; e_k0 : F; e_k1 : F; e_k2 : F; e_v2 : F; e_v3 : F; e_v4 : F;
  e_coef : list coef; e_scr : scratch }.
Definition with_scr (e : eom) (s : scratch) : eom :=
  Eom (e_n e) (e_dt e) (e_km1 e) (e_k0 e) (e_k1 e) (e_k2 e) (e_v2 e) (e_v3 e) (e_v4 e) (e_coef e) s.

(** scalar_eom.cpp:7-126 *)
Definition Eom_make (g : grid F) (p : params F) : res eom :=
  let n := g_n3 g in
  let! cs := for_ 0 (g_nx g) (fun ix cs => for_ 0 (g_nphi g) (fun ip cs => for_ 0 (g_nlat g) (fun it cs =>
      let! row := R_th_ph_at g ix it ip in
      let! R := row.[0%nat] in
      let inv_r := inv_r_at g (pr_cl p) R in
      let! th := row.[1%nat] in
      cs.[indx_R_th_ph g ix it ip <- coef_at (pr_bh_mass p) (pr_bh_spin p) inv_r th]) cs) cs)
    (vec n coef0) in
  let z := vec n f0 in
  Ok (Eom n (pr_dt p) (pr_km1 p) (pr_k0 p) (pr_k1 p) (pr_k2 p) (pr_V2 p) (pr_V3 p) (pr_V4 p) cs (Scr z z z z z z z)).

(** scalar_eom.cpp:174-190 *)
Definition inverse_k (e : eom) (f : F) : F :=
  #1 / (e_k0 e + e_km1 e / (f + #1) + e_k1 e * f + (e_k2 e / #2) * (f ^^ 2)).
Definition kprime (e : eom) (f : F) : F :=
  (- e_km1 e) / ((f + #1) ^^ 2) + e_k1 e + e_k2 e * f.
Definition vprime (e : eom) (f : F) : F :=
  inverse_k e f * (e_v2 e * f + (e_v3 e / #2) * (f ^^ 2) + (e_v4 e / #6) * (f ^^ 3)).

(** scalar_eom.cpp:194-215: the value stored in p_k[i] *)
Definition p_rhs (e : eom) (c : coef) (f p dr_f dr_p dr_dr_f dphi_f dphi_dr_f lap_f sphereX_f : F) : F :=
  c_p c * p
  + c_dr_f c * dr_f
  + c_dr_p c * dr_p
  + c_dr_dr_f c * dr_dr_f
  + c_dphi_dr_f c * dphi_dr_f
  + c_lap_f c * lap_f
  + half * (kprime e f * inverse_k e f) *
      (c_p_p c * (p ^^ 2)
       + c_p_dr_f c * p * dr_f
       + c_dr_f_dr_f c * (dr_f ^^ 2)
       + c_dr_f_dphi_f c * dr_f * dphi_f
       + c_sphereX_f c * sphereX_f)
  - c_pre c * vprime e f.

(** scalar_eom.cpp:145-172: the six sections (run in textual order here; see Conc.v) *)
Definition k_sections (g : grid F) (f p : list F) (s : scratch) : res scratch :=
  let! dr_f := set_partial_r g f (s_dr_f s) in
  let! dr_p := set_partial_r g p (s_dr_p s) in
  let! dr_dr_f := set_partial2_r g f (s_dr_dr_f s) in
  let! dphi_f := set_partial_phi g f (s_dphi_f s) in
  let! dphi_dr_f := set_partial_r g dphi_f (s_dphi_dr_f s) in
  let! sX := set_sphereX g f (s_sphereX_f s) in
  let! lap := set_spherical_lap g f (s_lap_f s) in
  Ok (Scr dr_f lap dr_p dr_dr_f dphi_f dphi_dr_f sX).

(** scalar_eom.cpp:132-217, set_k(grid, f, p, f_k, p_k); returns the new f_k, p_k and scratch.
    f, p do not alias f_k, p_k or the scratch arrays at any call site. *)
Definition set_k (g : grid F) (e : eom) (f p f_k p_k : list F) : res (list F * list F * eom) :=
  let n := e_n e in
  let! _ := assert_ (g_bld g) (Nat.eqb (length f) n) in
  let! _ := assert_ (g_bld g) (Nat.eqb (length p) n) in
  let! _ := assert_ (g_bld g) (Nat.eqb (length f_k) n) in
  let! _ := assert_ (g_bld g) (Nat.eqb (length p_k) n) in
  let! s := k_sections g f p (e_scr e) in
  let! (f_k, p_k) := for_ 0 n (fun i st =>
    let '(f_k, p_k) := st in
    let! fi := f.[i] in
    let! pi := p.[i] in
    let! f_k := f_k.[i <- pi] in
    let! c := (e_coef e).[i] in
    let! dr_f := (s_dr_f s).[i] in let! dr_p := (s_dr_p s).[i] in let! dr_dr_f := (s_dr_dr_f s).[i] in
    let! dphi_f := (s_dphi_f s).[i] in let! dphi_dr_f := (s_dphi_dr_f s).[i] in
    let! lap := (s_lap_f s).[i] in let! sX := (s_sphereX_f s).[i] in
    let! p_k := p_k.[i <- p_rhs e c fi pi dr_f dr_p dr_dr_f dphi_f dphi_dr_f lap sX] in
    Ok (f_k, p_k)) (f_k, p_k) in
  Ok (f_k, p_k, with_scr e s).

(** Per-cell updates of scalar_eom.cpp:224-266 for one field *)
Definition set_each (n : nat) (h : nat -> res F) (out : list F) : res (list F) :=
  for_ 0 n (fun i out => let! x := h i in out.[i <- x]) out.
(** "x[i] += c*k[i]" *)
Definition acc_each (n : nat) (c : F) (k x : list F) : res (list F) :=
  for_ 0 n (fun i x => let! y := x.[i] in let! ki := k.[i] in x.[i <- y + c * ki]) x.
(** f.n[i] + c*f.k[i] *)
Definition axpy_at (nn : list F) (c : F) (k : list F) (i : nat) : res F :=
  let! a := nn.[i] in let! ki := k.[i] in Ok (a + c * ki).

(** scalar_eom.cpp:219-270, set_level acting on one of the two fields.  The C++ loop body updates
    f and p in the same iteration; they are disjoint objects, so the two are split here. *)
Definition level1 (n : nat) (dt : F) (level : Z) (f : field F) : res (field F) :=
  if (level =? 1)%Z then
    let! l := set_each n (fun i => (fl_n f).[i]) (fl_l f) in Ok (with_l f l)
  else if (level =? 2)%Z then
    let! l := set_each n (axpy_at (fl_n f) (half * dt) (fl_k f)) (fl_l f) in
    let! np1 := set_each n (axpy_at (fl_n f) (dt / #6) (fl_k f)) (fl_np1 f) in
    Ok (with_np1 (with_l f l) np1)
  else if (level =? 3)%Z then
    let! l := set_each n (axpy_at (fl_n f) (half * dt) (fl_k f)) (fl_l f) in
    let! np1 := acc_each n (dt / #3) (fl_k f) (fl_np1 f) in
    Ok (with_np1 (with_l f l) np1)
  else if (level =? 4)%Z then
    let! l := set_each n (axpy_at (fl_n f) dt (fl_k f)) (fl_l f) in
    let! np1 := acc_each n (dt / #3) (fl_k f) (fl_np1 f) in
    Ok (with_np1 (with_l f l) np1)
  else if (level =? 5)%Z then
    let! np1 := acc_each n (dt / #6) (fl_k f) (fl_np1 f) in
    Ok (with_np1 f np1)
  else Ok f.
Definition set_level (e : eom) (level : Z) (f p : field F) : res (field F * field F) :=
  let! f := level1 (e_n e) (e_dt e) level f in
  let! p := level1 (e_n e) (e_dt e) level p in
  Ok (f, p).

(** set_k(grid, f.l, p.l, f.k, p.k); set_level(level, f, p)   (scalar_eom.cpp:293-303) *)
Definition rk_stage (g : grid F) (level : Z) (st : field F * field F * eom) : res (field F * field F * eom) :=
  let '(f, p, e) := st in
  let! (fk, pk, e) := set_k g e (fl_l f) (fl_l p) (fl_k f) (fl_k p) in
  let! (f, p) := set_level e level (with_k f fk) (with_k p pk) in
  Ok (f, p, e).

(** scalar_eom.cpp:275-304 *)
Definition time_step (g : grid F) (e : eom) (f p : field F) : res (field F * field F * eom) :=
  let! _ := assert_ (g_bld g) (Nat.eqb (fl_size f) (e_n e)) in
  let! _ := assert_ (g_bld g) (Nat.eqb (fl_size p) (e_n e)) in
  let! fn := grid_filter g (fl_n f) in
  let! pn := grid_filter g (fl_n p) in
  let! (f, p) := set_level e 1 (with_n f fn) (with_n p pn) in
  let! st := rk_stage g 2 (f, p, e) in
  let! st := rk_stage g 3 st in
  let! st := rk_stage g 4 st in
  rk_stage g 5 st.

(** scalar_eom.cpp:333-353: the value stored in rho[i] *)
Definition rho_at (e : eom) (c : coef) (f p dr_f dphi_f sphereX_f : F) : F :=
  let k := e_k0 e + e_km1 e / (f + #1) + e_k1 e * f + (e_k2 e / #2) * (f ^^ 2) in
  let v := (e_v2 e / #2) * (f ^^ 2) + (e_v3 e / #6) * (f ^^ 3) + (e_v4 e / #24) * (f ^^ 4) in
  k * (#1 / #2) * (c_rho_vv c * (p ^^ 2) + c_rho_vr c * p * dr_f + c_rho_rr c * (dr_f ^^ 2)
                   + c_rho_rphi c * dr_f * dphi_f + c_rho_sphereX c * sphereX_f) + v.
(** scalar_eom.cpp:306-356 *)
Definition set_rho (g : grid F) (e : eom) (f p rho : list F) : res (list F * eom) :=
  let n := e_n e in
  let! _ := assert_ (g_bld g) (Nat.eqb (length f) n) in
  let! _ := assert_ (g_bld g) (Nat.eqb (length p) n) in
  let! _ := assert_ (g_bld g) (Nat.eqb (length rho) n) in
  let s := e_scr e in
  let! dr_f := set_partial_r g f (s_dr_f s) in
  let! dphi_f := set_partial_phi g f (s_dphi_f s) in
  let! sX := set_sphereX g f (s_sphereX_f s) in
  let! rho := for_ 0 n (fun i rho =>
    let! fi := f.[i] in let! c := (e_coef e).[i] in let! pi := p.[i] in
    let! x := dr_f.[i] in let! y := dphi_f.[i] in let! z := sX.[i] in
    rho.[i <- rho_at e c fi pi x y z]) rho in
  Ok (rho, with_scr e (Scr dr_f (s_lap_f s) (s_dr_p s) (s_dr_dr_f s) dphi_f (s_dphi_dr_f s) sX)).

End Eom.
Arguments coef F : clear implicits.
Arguments scratch F : clear implicits.
Arguments eom F : clear implicits.
