(** * Model of sim_class.py:write_slurm_script, and of the command line and environment of launch_run.
    Attribute values are the texts str() gives.  The shell and sbatch themselves are described in PropSlurm.v. *)
From Coq Require Import Ascii String.
From Verif Require Import Base MParams.
Local Open Scope list_scope.

(** the attributes the script is made from *)
Record job_opts := JobOpts {
  jo_walltime : text; jo_memory : text; jo_email : text;
  jo_threads : text;     (* num_threads *)
  jo_levels : text;      (* num_omp_levels *)
  jo_time_it : bool;
  jo_bin : text;         (* bin_name *)
  jo_param : text        (* parameter_file *) }.

(** sim_class.py:125 *)
Definition output_file : text := txt "out.txt".
(** sim_class.py:126-133 *)
Definition run_str (o : job_opts) : text :=
  let r := txt "./" ++ jo_bin o ++ txt " " ++ jo_param o ++ txt " ." ++ txt " 2>&1 | tee " ++ output_file in
  if jo_time_it o then txt "time " ++ r else r.

Definition tabs : text := [ascii_of_nat 9; ascii_of_nat 9].
Definition nl : text := [nl_char].
(** sim_class.py:88-108, one write after the other *)
Definition write_slurm_script (o : job_opts) : text :=
  txt "#!/bin/sh" ++ nl ++
  txt "#SBATCH -J scalar" ++ tabs ++ txt "# job name" ++ nl ++
  txt "#SBATCH -t " ++ jo_walltime o ++ tabs ++ txt "# walltime (dd:hh:mm:ss)" ++ nl ++
  txt "#SBATCH -p physics" ++ tabs ++ txt "# partition/queue name" ++ nl ++
  txt "#SBATCH --mem=" ++ jo_memory o ++ txt "MB" ++ nl ++
  txt "#SBATCH --output=" ++ output_file ++ tabs ++ txt "# file for STDOUT" ++ nl ++
  txt "#SBATCH --mail-user=" ++ jo_email o ++ tabs ++ txt "# Mail  id of the user" ++ nl ++
  txt "#SBATCH --nodes=1" ++ nl ++
  txt "#SBATCH --ntasks-per-node=1" ++ nl ++
  txt "#SBATCH --cpus-per-task=" ++ jo_threads o ++ nl ++
  nl ++ txt "export OMP_MAX_ACTIVE_LEVELS=" ++ jo_levels o ++ nl ++
  nl ++ txt "export OMP_NUM_THREADS=$SLURM_CPUS_PER_TASK" ++ nl ++
  txt "chmod 755 " ++ jo_bin o ++ nl ++
  nl ++ run_str o ++ nl.

(** sim_class.py:135-136: the environment of a run on this machine *)
Definition local_env (o : job_opts) (env : text -> text) : text -> text := fun x =>
  if text_eqb x (txt "OMP_NUM_THREADS") then jo_threads o
  else if text_eqb x (txt "OMP_MAX_ACTIVE_LEVELS") then jo_levels o else env x.
