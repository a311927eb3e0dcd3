(** * Model of the driver: Source/main.cpp. *)
From Coq Require Import Ascii String.
From Verif Require Import Base Arith MSphere MGrid MParams MField MEom MInit MIo.

Section Main.
Context {F : Type} {AF : Arith F}.
Variable fmt : F -> text.                              (* number formatting, see MIo *)
Variable stod_ : text -> option F.                     (* std::stod, see MParams *)
(** The reduction schedules OpenMP happens to choose for the two diagnostics, per save index. *)
Variables (sch_res sch_tv : nat -> list (list nat)).

(** state of main's locals and of the world during the loop; [log] collects the diagnostics lines *)
Record mstate := Ms {
  ms_f : field F; ms_p : field F; ms_rho : list F; ms_eom : eom F;
  ms_fs : fsys; ms_save : nat; ms_log : list (F * F * F) }.

(** main.cpp:58-64 and 86-92: set_rho and the two writers; save_indx is converted to int *)
Definition save_state (g : grid F) (dir : text) (t res_ tv : F) (save : nat) (st : mstate) : res mstate :=
  let f := ms_f st in let p := ms_p st in
  let! (rho, e) := set_rho g (ms_eom st) (fl_np1 f) (fl_np1 p) (ms_rho st) in
  let itm := i32 (Z.of_nat save) in
  let! fs := write_R_psl fmt (ms_fs st) g (dir ++ txt "/" ++ fl_name f) true itm (fl_np1 f) in
  let! fs := write_R_psl fmt fs g (dir ++ txt "/rho") true itm rho in
  Ok (Ms f p rho e fs save (ms_log st ++ [(t, res_, tv)])).

(** main.cpp:68-96, one iteration *)
Definition main_iter (g : grid F) (par : params F) (dir : text) (itm : nat) (st : mstate) : res mstate :=
  let! (f, p, e) := time_step g (ms_eom st) (ms_f st) (ms_p st) in
  let st := Ms f p (ms_rho st) e (ms_fs st) (ms_save st) (ms_log st) in
  let! st :=
    if Nat.eqb (pr_t_step_save par) 0 then UB                 (* itm % 0 *)
    else if Nat.eqb (itm mod pr_t_step_save par) 0 then
      let s := (ms_save st + 1)%nat in
      let! r := norm_indep_res g (sch_res s) (pr_dt par) (fl_n f) (fl_np1 f) (fl_n p) in
      let! tv := total_variation g (sch_tv s) (fl_np1 f) in
      save_state g dir (fmul (pr_dt par) (fnat itm)) r tv s st
    else Ok st in
  let! f := shift (ms_f st) in
  let! p := shift (ms_p st) in
  Ok (Ms f p (ms_rho st) (ms_eom st) (ms_fs st) (ms_save st) (ms_log st)).

(** main.cpp:20-64: construction, initial data, first output *)
Definition main_init (b : build) (h : nat -> nat -> nat -> nat -> sht F) (file : option text) (dir : text) (fs : fsys)
  : res (params F * grid F * mstate) :=
  let! par := Params_make stod_ b file in
  let n := (pr_nx par * pr_nlat par * pr_nphi par)%nat in
  let f := Field_make (txt "f") n f0 in
  let p := Field_make (txt "p") n f0 in
  let rho := vec n f0 in
  let! g := Grid_make b (h (pr_nl par) (pr_nm par) (pr_nlat par) (pr_nphi par)) (pr_cl par) (pr_Rmin par) (pr_Rmax par)
              (pr_nx par) (pr_nl par) (pr_nm par) (pr_nlat par) (pr_nphi par) in
  let! e := Eom_make g par in
  let! (fn, pn) := compact_pulse par g (fl_n f) (fl_n p) in
  let! (fnp1, pnp1) := compact_pulse par g (fl_np1 f) (fl_np1 p) in
  let f := with_np1 (with_n f fn) fnp1 in
  let p := with_np1 (with_n p pn) pnp1 in
  let! r := norm_indep_res g (sch_res 0) (pr_dt par) (fl_n f) (fl_np1 f) (fl_n p) in
  let! tv := total_variation g (sch_tv 0) (fl_n f) in
  let! st := save_state g dir f0 r tv 0 (Ms f p rho e fs 0 []) in
  Ok (par, g, st).

(** main.cpp:14-98; the result is the final state (exit status EXIT_SUCCESS) *)
Definition main (b : build) (h : nat -> nat -> nat -> nat -> sht F) (file : option text) (dir : text) (fs : fsys) : res mstate :=
  let! (par, g, st) := main_init b h file dir fs in
  for_ 1 (pr_nt par) (main_iter g par dir) st.

End Main.
Arguments mstate F : clear implicits.
