(** * Model of ID::compact_pulse: Source/initial_data.cpp. *)
From Coq Require Import String.
From Verif Require Import Base Arith MSphere MGrid MParams.
Local Open Scope f.

Section Init.
Context {F : Type} {AF : Arith F}.

(** initial_data.cpp:34-35 *)
Definition pulse_width (rl ru : F) : F :=
  let width := fabs (ru - rl) in
  if fabs width <? fdec 1 (-14) then fdec 1 (-14) else width.
(** initial_data.cpp:45-49 *)
Definition bump (rl ru r : F) : F :=
  let width := pulse_width rl ru in
  if (r <? ru) && (rl <? r)
  then fexp (#(-1) * width / (r - rl)) * fexp (#(-2) * width / (ru - r)) else #0.
(** initial_data.cpp:50 *)
Definition pulse_f (rl ru r : F) : F :=
  let w := pulse_width rl ru in
  (((r - rl) / w) ^^ 4) * (((ru - r) / w) ^^ 4) * bump rl ru r.
(** initial_data.cpp:52-58 *)
Definition pulse_dr (rl ru r : F) : F :=
  let w := pulse_width rl ru in
  (#4 * (((r - rl) / w) ^^ 3) * (((ru - r) / w) ^^ 4)
   - #4 * (((r - rl) / w) ^^ 4) * (((ru - r) / w) ^^ 3)
   + (((r - rl) / w) ^^ 2) * (((ru - r) / w) ^^ 4)
   - #2 * (((r - rl) / w) ^^ 4) * (((ru - r) / w) ^^ 2)) * (bump rl ru r / w).
(** initial_data.cpp:59-72 *)
Definition pulse_p (dir : text) (rl ru r : F) : F :=
  if text_eqb dir (txt "ingoing") then pulse_dr rl ru r
  else if text_eqb dir (txt "outgoing") then - pulse_dr rl ru r
  else #0.

(** initial_data.cpp:42-81, one grid point; state f, p, max_val *)
Definition pulse_pt (g : grid F) (par : params F) (ylm : list F) (ix it ip : nat)
    (st : list F * list F * F) : res (list F * list F * F) :=
  let '(f, p, mx) := st in
  let j := indx_R_th_ph g ix it ip in
  let! row := R_th_ph_at g ix it ip in
  let! R := row.[0%nat] in
  let r := R_to_r g R in
  let! f := f.[j <- pulse_f (pr_rl par) (pr_ru par) r] in
  let! p := p.[j <- pulse_p (pr_direction par) (pr_rl par) (pr_ru par) r] in
  let! y := ylm.[indx_th_ph g it ip] in
  let! x := f.[j] in let! f := f.[j <- x * y] in
  let! x := p.[j] in let! p := p.[j <- x * y] in
  let! x := f.[j] in
  Ok (f, p, if mx <? fabs x then fabs x else mx).

(** initial_data.cpp:88-97 *)
Definition rescale (g : grid F) (s : F) (st : list F * list F) : res (list F * list F) :=
  for_ 0 (g_nx g) (fun ix st => for_ 0 (g_nphi g) (fun ip st => for_ 0 (g_nlat g) (fun it st =>
    let '(f, p) := st in
    let j := indx_R_th_ph g ix it ip in
    let! x := f.[j] in let! f := f.[j <- x * s] in
    let! x := p.[j] in let! p := p.[j <- x * s] in
    Ok (f, p)) st) st) st.

(** initial_data.cpp:11-99.  l_ang, m_ang are ints converted to size_t at line 37. *)
Definition compact_pulse (par : params F) (g : grid F) (f p : list F) : res (list F * list F) :=
  let! ylm := compute_ylm (g_bld g) (g_sphere g) (to_size (pr_l_ang par)) (to_size (pr_m_ang par)) in
  let! (f, p, mx) := for_ 0 (wsub (g_nx g) 1) (fun ix st => for_ 0 (g_nphi g) (fun ip st =>
     for_ 0 (g_nlat g) (fun it st => pulse_pt g par ylm ix it ip st) st) st) (f, p, #0) in
  if fdec 1 (-16) <? fabs mx then rescale g (pr_amp par / mx) (f, p) else Ok (f, p).

End Init.
