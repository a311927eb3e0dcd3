(** * Words for C88: what a sound disk is, and which files are a run's output. *)
From Coq Require Import Ascii String.
From Verif Require Import Base MParams MIo MSim MLaunch.
Local Open Scope list_scope.

(** every file and directory lies in a directory; nothing is both *)
Definition sound (d : disk) : Prop :=
  d_dir d [] = true /\ (forall p c, on_disk d (p ++ [c]) = true -> d_dir d p = true) /\
  (forall p t, d_file d p = Some t -> d_dir d p = false).
(** the names of the files a run creates for save number k *)
Definition f_csv (k : Z) : text := txt "f_RPsl_" ++ dec k ++ txt ".csv".
Definition rho_csv (k : Z) : text := txt "rho_RPsl_" ++ dec k ++ txt ".csv".
Definition is_output (x : text) : Prop := exists k, x = f_csv k \/ x = rho_csv k.
(** the executable has a plain name, different from those of the parameter and output files *)
Definition plain (s : sim) : Prop := comps (sm_bin s) = [sm_bin s] /\ ~ is_output (sm_bin s) /\ sm_bin s <> txt "params.txt".
(** every file of d is still there in d' with the same contents, and every directory too *)
Definition keeps (d d' : disk) : Prop :=
  (forall p t, d_file d p = Some t -> d_file d' p = Some t) /\ (forall p, d_dir d p = true -> d_dir d' p = true).
(** no output file in the directory P *)
Definition clean (d : disk) (P : path) : Prop := forall x, is_output x -> d_file d (P ++ [x]) = None.
(** the path lies in the working directory of a job that has not run yet *)
Definition pending (w : world) (p : path) : Prop := exists P bin x, In (P, bin) (w_jobs w) /\ p = P ++ [x].
