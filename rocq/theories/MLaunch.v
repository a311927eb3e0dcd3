(** * Model of a launch: sim_class.py:make_output_dir, write_sim_params, launch_run, and of the jobs it submits.
    Paths are lists of components ("/", "//" and "." resolved; ".." and symbolic links are not modelled, the case of a
    binary rebuilt first (recompile = True, sim_class.py:115-116) neither).  Attribute values are the texts Python's
    str() gives. *)
From Coq Require Import Ascii String.
From Verif Require Import Base Arith MSphere MGrid MParams MIo MMain MSim.
Local Open Scope list_scope.

(** ** Paths and the disk *)
Definition path := list text.
Fixpoint split_slash (cur s : text) : list text :=
  match s with
  | [] => [cur]
  | c :: s' => if Ascii.eqb c "/"%char then cur :: split_slash [] s' else split_slash (cur ++ [c]) s'
  end.
Definition comps (s : text) : path :=
  List.filter (fun c => negb (text_eqb c [] || text_eqb c (txt "."))) (split_slash [] s).
Definition path_eqb (a b : path) : bool := if list_eq_dec (list_eq_dec ascii_dec) a b then true else false.
(** an absolute name, or one relative to the working directory *)
Definition resolve (cwd s : text) : path :=
  match s with c :: _ => if Ascii.eqb c "/"%char then comps s else comps cwd ++ comps s | [] => comps cwd end.

Record disk := Disk { d_dir : path -> bool; d_file : path -> option text }.
Definition on_disk (d : disk) (p : path) : bool := d_dir d p || match d_file d p with Some _ => true | None => false end.
Definition add_dir (d : disk) (p : path) : disk := Disk (fun q => path_eqb q p || d_dir d q) (d_file d).
(** open(p, 'w'), shutil.copyfile, tee: the contents are replaced; no effect on a directory *)
Definition put_file (d : disk) (p : path) (t : text) : disk :=
  if d_dir d p then d else Disk (d_dir d) (fun q => if path_eqb q p then Some t else d_file d q).

Section Os.
(** where the user may create directories *)
Variable perm : path -> bool.
(** os.mkdir; the flag tells whether it succeeded (else it raises) *)
Definition mkdir (d : disk) (p : path) : disk * bool :=
  if on_disk d p then (d, false)
  else if d_dir d (removelast p) && perm p then (add_dir d p, true) else (d, false).
(** os.makedirs(p), exist_ok=False (CPython's os.py): parents first, then the directory itself.
    The path is given from its last component upwards. *)
Fixpoint mkdirs_up (d : disk) (up : list text) : disk * bool :=
  match up with
  | [] => mkdir d []
  | c :: rest =>
      let '(d, ok) := match rest with
                      | [] => (d, true)
                      | _ => if on_disk d (rev rest) then (d, true) else mkdirs_up d rest
                      end in
      if ok then mkdir d (rev (c :: rest)) else (d, false)
  end.
Definition makedirs (d : disk) (p : path) : disk * bool := mkdirs_up d (rev p).

(** ** The launcher's object; [sm_vars] is vars(self) in the order of insertion *)
Record sim := Sim {
  sm_home : text;                  (* home_dir, the working directory *)
  sm_output_dir : option text;     (* None or a text *)
  sm_local : bool;                 (* computer == 'home' *)
  sm_out_stem : text; sm_bin : text;
  sm_vars : list (text * pyval) }.
Fixpoint setattr (n : text) (v : pyval) (l : list (text * pyval)) : list (text * pyval) :=
  match l with
  | [] => [(n, v)]
  | (m, w) :: l' => if text_eqb m n then (m, v) :: l' else (m, w) :: setattr n v l'
  end.
Definition str_of (n : string) (l : list (text * pyval)) : text :=
  match List.find (fun a => text_eqb (fst a) (txt n)) l with Some (_, Scalar s) => s | _ => [] end.
(** sim_class.py:13-22; [now] is month_day_hh_mm_ss *)
Definition auto_stem (now : text) (l : list (text * pyval)) : text :=
  txt "/" ++ now ++ txt "_m" ++ str_of "black_hole_mass" l ++ txt "_s" ++ str_of "black_hole_spin" l ++
  txt "_nx" ++ str_of "nx" l ++ txt "_nl" ++ str_of "nl" l ++ txt "_nm" ++ str_of "nm" l.
(** sim_class.py:23-28: the stem and the directory *)
Definition stem_of (now : text) (s : sim) : text :=
  match sm_output_dir s with None => auto_stem now (sm_vars s) | Some x => x end.
Definition dir_of (now : text) (s : sim) : text :=
  if sm_local s then sm_home s ++ txt "/Output" ++ stem_of now s else sm_out_stem s ++ stem_of now s.
(** sim_class.py:12-29 *)
Definition make_output_dir (d : disk) (now : text) (s : sim) : disk * sim * bool :=
  let out := dir_of now s in
  let s' := Sim (sm_home s) (Some out) (sm_local s) (sm_out_stem s) (sm_bin s)
              (setattr (txt "output_dir") (Scalar out) (setattr (txt "output_stem") (Scalar (stem_of now s)) (sm_vars s))) in
  let '(d, ok) := makedirs d (resolve (sm_home s) out) in (d, s', ok).

Section Run.
Context {F : Type} {AF : Arith F}.
Variable fmt : F -> text.
Variable stod_ : text -> option F.
Variables (sch_res sch_tv : nat -> list (list nat)).
Variable lib : nat -> nat -> nat -> nat -> sht F.
(** the build configuration of an executable file, what a run prints, what write_slurm_script writes *)
Variables (build_of : text -> build) (stdout slurm : path -> text).
(** set_derived_params (sim_class.py:36-72; its values are C64 and C66); [None]: it raises *)
Variable derive : list (text * pyval) -> option (list (text * pyval)).

(** the working directory as the solver sees it: it opens "./name" *)
Definition view (d : disk) (cwd : path) : fsys :=
  Fs (fun n => d_file d (cwd ++ comps n)) (fun n => negb (d_dir d (cwd ++ comps n))).
(** the disk when the solver has left [fs] behind in its working directory *)
Fixpoint below (cwd p : path) : option path :=
  match cwd, p with
  | [], _ => Some p
  | c :: cwd', x :: p' => if text_eqb c x then below cwd' p' else None
  | _ :: _, [] => None
  end.
Definition back (d : disk) (cwd : path) (fs : fsys) : disk :=
  Disk (d_dir d) (fun p => match below cwd p with Some [x] => if path_eqb (comps (txt "./" ++ x)) [x] then fs_file fs (txt "./" ++ x) else d_file d p
                         | _ => d_file d p end).
(** sim_class.py:126-133 and 137-140, 107-108: "cd cwd; ./bin params.txt . 2>&1 | tee out.txt"; an executable or
    parameter file that does not exist, an early exit and an exception leave the directory as it is *)
Definition run_solver (d : disk) (cwd : path) (bin : text) : res disk :=
  let! d := match d_file d (cwd ++ comps bin) with
            | None => Ok d
            | Some exe =>
                match main fmt stod_ sch_res sch_tv (build_of exe) lib (d_file d (cwd ++ [txt "params.txt"])) (txt ".") (view d cwd) with
                | Ok st => Ok (back d cwd (ms_fs st))
                | Exit _ | Throw => Ok d
                | UB => UB
                | Abort => Abort
                end
            end in
  Ok (put_file d (cwd ++ [txt "out.txt"]) (stdout cwd)).

(** the disk and the submitted jobs that have not run yet *)
Record world := World { w_disk : disk; w_jobs : list (path * text) }.
(** sim_class.py:110-145; the flag tells whether launch_run returned (else it raised) *)
Definition launch (w : world) (now : text) (s : sim) : res (world * sim * bool) :=
  match derive (sm_vars s) with
  | None => Ok (w, s, false)
  | Some vars =>
      let s := Sim (sm_home s) (sm_output_dir s) (sm_local s) (sm_out_stem s) (sm_bin s) vars in
      let '(d, s, ok) := make_output_dir (w_disk w) now s in
      let P := match sm_output_dir s with Some o => resolve (sm_home s) o | None => [] end in
      if ok then
        let s := Sim (sm_home s) (sm_output_dir s) (sm_local s) (sm_out_stem s) (sm_bin s)
                   (setattr (txt "parameter_file") (Scalar (txt "params.txt")) (sm_vars s)) in
        let d := put_file d (P ++ [txt "params.txt"]) (write_sim_params (sm_vars s)) in
        match d_file d (comps (sm_home s ++ txt "/Bin/" ++ sm_bin s)) with
        | None => Ok (World d (w_jobs w), s, false)
        | Some exe =>
            let d := put_file d (P ++ comps (sm_bin s)) exe in
            if sm_local s then
              let! d := run_solver d P (sm_bin s) in Ok (World d (w_jobs w), s, true)
            else Ok (World (put_file d (P ++ [txt "run.slurm"]) (slurm P)) (w_jobs w ++ [(P, sm_bin s)]), s, true)
        end
      else Ok (World d (w_jobs w), s, false)
  end.

(** what can happen: somebody launches, or the queue starts a job *)
Inductive event := ELaunch (now : text) (s : sim) | EJob (i : nat).
Definition happen (w : world) (e : event) : res world :=
  match e with
  | ELaunch now s => let! (w', _, _) := launch w now s in Ok w'
  | EJob i =>
      match nth_error (w_jobs w) i with
      | Some (P, bin) =>
          let! d := run_solver (w_disk w) P bin in Ok (World d (firstn i (w_jobs w) ++ skipn (S i) (w_jobs w)))
      | None => Ok w
      end
  end.
Fixpoint history (w : world) (es : list event) : res world :=
  match es with [] => Ok w | e :: es' => let! w' := happen w e in history w' es' end.
End Run.
End Os.
