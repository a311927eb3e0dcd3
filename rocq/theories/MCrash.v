(** * Interrupting a run: the appends the driver performs, in order (Source/main.cpp:58-64, 86-92, Source/io.cpp:88-127).
    The trace is defined beside the driver's model (MMain.v) and proved to describe it (C89_trace). *)
From Coq Require Import Ascii String.
From Verif Require Import Base Arith MSphere MGrid MParams MField MEom MInit MIo MMain.
Local Open Scope list_scope.

(** a file name and the text appended to the file *)
Definition append_ev := (text * text)%type.
Definition play (fs : fsys) (evs : list append_ev) : fsys := fold_left (fun fs ev => fs_append fs (fst ev) (snd ev)) evs fs.

Section Crash.
Context {F : Type} {AF : Arith F}.
Variable fmt : F -> text.
Variable stod_ : text -> option F.
Variables (sch_res sch_tv : nat -> list (list nat)).

(** io.cpp:88-127 *)
Definition psl_events (can : text -> bool) (g : grid F) (name : text) (itm : Z) (vals : list F) : res (list append_ev) :=
  let fn := name_kind "RPsl" name itm in
  let! ps := set_angular_power_spectrum g vals (vec (g_nx g * g_nl g) f0) in
  if can fn then let! body := psl_body fmt (g_R_l g) ps in Ok [(fn, header_R_l ++ body)] else Ok [].
(** main.cpp:58-64, 86-92 *)
Definition save_events (can : text -> bool) (g : grid F) (dir : text) (save : nat) (f p : field F) (rho : list F) (e : eom F) : res (list append_ev) :=
  let! (rho, e) := set_rho g e (fl_np1 f) (fl_np1 p) rho in
  let itm := i32 (Z.of_nat save) in
  let! a := psl_events can g (dir ++ txt "/" ++ fl_name f) itm (fl_np1 f) in
  let! c := psl_events can g (dir ++ txt "/rho") itm rho in
  Ok (a ++ c).
(** main.cpp:68-96 *)
Definition iter_events (g : grid F) (par : params F) (dir : text) (itm : nat) (st : mstate F) : res (list append_ev) :=
  let! (f, p, e) := time_step g (ms_eom st) (ms_f st) (ms_p st) in
  if Nat.eqb (pr_t_step_save par) 0 then UB
  else if Nat.eqb (itm mod pr_t_step_save par) 0 then save_events (fs_can (ms_fs st)) g dir (ms_save st + 1) f p (ms_rho st) e
  else Ok [].
(** main.cpp:20-64 *)
Definition init_events (b : build) (h : nat -> nat -> nat -> nat -> sht F) (file : option text) (dir : text) (fs : fsys) : res (list append_ev) :=
  let! par := Params_make stod_ b file in
  let n := (pr_nx par * pr_nlat par * pr_nphi par)%nat in
  let f := Field_make (txt "f") n f0 in
  let p := Field_make (txt "p") n f0 in
  let! g := Grid_make b (h (pr_nl par) (pr_nm par) (pr_nlat par) (pr_nphi par)) (pr_cl par) (pr_Rmin par) (pr_Rmax par)
              (pr_nx par) (pr_nl par) (pr_nm par) (pr_nlat par) (pr_nphi par) in
  let! e := Eom_make g par in
  let! (fn, pn) := compact_pulse par g (fl_n f) (fl_n p) in
  let! (fnp1, pnp1) := compact_pulse par g (fl_np1 f) (fl_np1 p) in
  save_events (fs_can fs) g dir 0 (with_np1 (with_n f fn) fnp1) (with_np1 (with_n p pn) pnp1) (vec n f0) e.
(** main.cpp:14-98: all appends of a run *)
Definition main_events (b : build) (h : nat -> nat -> nat -> nat -> sht F) (file : option text) (dir : text) (fs : fsys) : res (list append_ev) :=
  let! (par, g, st) := main_init fmt stod_ sch_res sch_tv b h file dir fs in
  let! ev0 := init_events b h file dir fs in
  let! (_, evs) := for_ 1 (pr_nt par) (fun i s => let '(st, evs) := s in
     let! ev := iter_events g par dir i st in
     let! st := main_iter fmt sch_res sch_tv g par dir i st in Ok (st, evs ++ ev)) (st, ev0) in
  Ok evs.
End Crash.

(** What can be found on the disk if the process is killed while it performs these appends: some of them are done, and
    of the next one any part at the front may have reached the file. *)
Inductive killed (fs : fsys) (evs : list append_ev) : fsys -> Prop :=
| between done todo : evs = done ++ todo -> killed fs evs (play fs done)
| amid done fn a b todo : evs = done ++ (fn, a ++ b) :: todo -> killed fs evs (fs_append (play fs done) fn a).
