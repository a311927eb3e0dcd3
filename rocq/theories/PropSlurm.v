(** * C102, the job script: what the queue and the shell make of the text write_slurm_script writes *)
From Coq Require Import Ascii String Lia.
From Verif Require Import Base MParams PText PParams PropParams PLaunch MSlurm.
Local Open Scope list_scope.

(** ** Reading a job script *)
Fixpoint after (p s : text) : option text :=
  match p, s with
  | [], _ => Some s
  | a :: p', b :: s' => if Ascii.eqb a b then after p' s' else None
  | _ :: _, [] => None
  end.
Fixpoint upto (stop : ascii -> bool) (s : text) : text :=
  match s with c :: s' => if stop c then [] else c :: upto stop s' | [] => [] end.
Definition blank (c : ascii) : bool := Ascii.eqb c " "%char || Ascii.eqb c (ascii_of_nat 9).
(** a line for the shell: neither empty nor a comment *)
Definition command (l : text) : bool := match l with [] => false | c :: _ => negb (Ascii.eqb c "#"%char) end.
(** sbatch takes the "#SBATCH" lines before the first command; the value of an option ends at a blank *)
Fixpoint options (opt : text) (L : list text) : list text :=
  match L with
  | [] => []
  | l :: L' => if command l then [] else
      match after (txt "#SBATCH " ++ opt) l with Some v => upto blank v :: options opt L' | None => options opt L' end
  end.
(** the shell: "export NAME=value" (a value "$NAME" is looked up), and the other commands in order *)
Definition equals (c : ascii) : bool := Ascii.eqb c "="%char.
Definition export (env : text -> text) (l : text) : option (text -> text) :=
  match after (txt "export ") l with
  | None => None
  | Some r => let n := upto equals r in
      Some (fun x => if text_eqb x n then
        match skipn (S (length n)) r with c :: y => if Ascii.eqb c "$"%char then env y else c :: y | [] => [] end else env x)
  end.
Fixpoint shell (env : text -> text) (L : list text) : list (text * (text -> text)) :=
  match L with
  | [] => []
  | l :: L' => if command l then match export env l with Some env' => shell env' L' | None => (l, env) :: shell env L' end else shell env L'
  end.

(** no newline and no blank; a value that is not itself a reference to a variable *)
Definition word_ok (s : text) : Prop := ~ In nl_char s /\ forallb (fun c => negb (blank c)) s = true.
Definition literal (s : text) : Prop := match s with c :: _ => c <> "$"%char | [] => True end.

Lemma upto_all stop s c t : forallb (fun c => negb (stop c)) s = true -> stop c = true -> upto stop (s ++ c :: t) = s.
Proof. intros H K. induction s as [|a s IH]; cbn; [now rewrite K|]. cbn in H. apply andb_prop in H. destruct H as [H1 H2]. apply Bool.negb_true_iff in H1. rewrite H1. now rewrite IH. Qed.
Lemma upto_end stop s : forallb (fun c => negb (stop c)) s = true -> upto stop s = s.
Proof. intros H. induction s as [|a s IH]; cbn; auto. cbn in H. apply andb_prop in H. destruct H as [H1 H2]. apply Bool.negb_true_iff in H1. rewrite H1. now rewrite IH. Qed.

Definition script_lines (o : job_opts) : list text :=
  [ txt "#!/bin/sh"; txt "#SBATCH -J scalar" ++ tabs ++ txt "# job name"; txt "#SBATCH -t " ++ jo_walltime o ++ tabs ++ txt "# walltime (dd:hh:mm:ss)";
    txt "#SBATCH -p physics" ++ tabs ++ txt "# partition/queue name"; txt "#SBATCH --mem=" ++ jo_memory o ++ txt "MB";
    txt "#SBATCH --output=" ++ output_file ++ tabs ++ txt "# file for STDOUT"; txt "#SBATCH --mail-user=" ++ jo_email o ++ tabs ++ txt "# Mail  id of the user";
    txt "#SBATCH --nodes=1"; txt "#SBATCH --ntasks-per-node=1"; txt "#SBATCH --cpus-per-task=" ++ jo_threads o;
    []; txt "export OMP_MAX_ACTIVE_LEVELS=" ++ jo_levels o; []; txt "export OMP_NUM_THREADS=$SLURM_CPUS_PER_TASK"; txt "chmod 755 " ++ jo_bin o; []; run_str o ].
Definition opts_ok (o : job_opts) : Prop :=
  word_ok (jo_walltime o) /\ word_ok (jo_memory o) /\ word_ok (jo_email o) /\ word_ok (jo_threads o) /\ word_ok (jo_levels o) /\ word_ok (jo_bin o) /\ word_ok (jo_param o) /\
  literal (jo_threads o) /\ literal (jo_levels o).

Ltac no_nl := let H := fresh in intros H; repeat (apply in_app_or in H; destruct H as [H|H]); try (vm_compute in H; repeat destruct H as [H|H]; (discriminate H || contradiction H)); try contradiction.
Lemma script_is_lines o : opts_ok o -> is_lines (write_slurm_script o) (script_lines o).
Proof.
  intros ((W & _) & (M & _) & (E & _) & (T & _) & (V & _) & (B & _) & (P & _) & _). exists (script_lines o), []. split; [|split; [|split; [intros []|now rewrite app_nil_r]]].
  - unfold joined, script_lines, write_slurm_script. cbn [map concat]. rewrite !app_nil_r. unfold nl. rewrite <- !app_assoc. reflexivity.
  - unfold script_lines. repeat (apply Forall_cons); try apply Forall_nil; unfold one_line, run_str; try destruct (jo_time_it o); no_nl.
Qed.

(** the solver of the job's own directory, with the parameter file there, what it prints kept in out.txt; timed on request *)
Definition command_line (o : job_opts) : text :=
  txt (if jo_time_it o then "time ./" else "./") ++ jo_bin o ++ txt " " ++ jo_param o ++ txt " . 2>&1 | tee out.txt".
Lemma run_str_is o : run_str o = command_line o.
Proof. unfold run_str, command_line. destruct (jo_time_it o); reflexivity. Qed.
(** num_threads threads, num_omp_levels levels, nothing else touched *)
Definition omp_env (o : job_opts) (env e : text -> text) : Prop :=
  e (txt "OMP_NUM_THREADS") = jo_threads o /\ e (txt "OMP_MAX_ACTIVE_LEVELS") = jo_levels o /\
  forall x, x <> txt "OMP_NUM_THREADS" -> x <> txt "OMP_MAX_ACTIVE_LEVELS" -> e x = env x.
Theorem C102_local o env : run_str o = command_line o /\ omp_env o env (local_env o env).
Proof.
  split; [apply run_str_is|]. split; [reflexivity|]. split; [reflexivity|]. intros x N1 N2. unfold local_env.
  destruct (text_eqb_spec x (txt "OMP_NUM_THREADS")); [contradiction|]. destruct (text_eqb_spec x (txt "OMP_MAX_ACTIVE_LEVELS")); [contradiction|reflexivity].
Qed.
(** what the queue is asked for, and what the job does: exactly two commands, with the same OpenMP settings and the
    same command line as a run on this machine *)
Theorem C102_script o L env : opts_ok o -> is_lines (write_slurm_script o) L ->
  options (txt "--cpus-per-task=") L = [jo_threads o] /\ options (txt "--nodes=") L = [txt "1"] /\ options (txt "--ntasks-per-node=") L = [txt "1"] /\
  options (txt "-t ") L = [jo_walltime o] /\ options (txt "--mem=") L = [jo_memory o ++ txt "MB"] /\ options (txt "--output=") L = [txt "out.txt"] /\
  options (txt "--mail-user=") L = [jo_email o] /\
  (* the queue sets SLURM_CPUS_PER_TASK to the number it was asked for *)
  (env (txt "SLURM_CPUS_PER_TASK") = jo_threads o ->
   exists e, shell env L = [(txt "chmod 755 " ++ jo_bin o, e); (command_line o, e)] /\ omp_env o env e).
Proof.
  intros H HL. rewrite <- run_str_is. assert (E : L = script_lines o) by (destruct (lines_unique (write_slurm_script o)) as (L0 & _ & U); rewrite (U _ HL); symmetry; apply U; now apply script_is_lines).
  subst L. destruct H as ((_ & W) & (_ & M) & (_ & E) & (_ & T) & (_ & V) & (_ & B) & (_ & P) & LT & LV).
  assert (TB : blank (ascii_of_nat 9) = true) by reflexivity.
  assert (U : forall s t, forallb (fun c => negb (blank c)) s = true -> upto blank (s ++ tabs ++ t) = s) by (intros s t Hs; unfold tabs; cbn [app]; now apply upto_all).
  assert (C : forall s, command (txt "#SBATCH " ++ s) = false) by reflexivity.
  repeat match goal with |- _ /\ _ => split end.
  - cbn. now rewrite upto_end.
  - reflexivity.
  - reflexivity.
  - cbn. f_equal. apply (U _ _ W).
  - cbn. f_equal. apply upto_end. rewrite forallb_app, M. reflexivity.
  - reflexivity.
  - cbn. f_equal. apply (U _ _ E).
  - intros Hq. set (e1 := fun x : text => if text_eqb x (txt "OMP_MAX_ACTIVE_LEVELS") then jo_levels o else env x).
    set (e2 := fun x : text => if text_eqb x (txt "OMP_NUM_THREADS") then e1 (txt "SLURM_CPUS_PER_TASK") else e1 x).
    assert (LIT : forall (f : text -> text) s, literal s -> match s with c :: y => if Ascii.eqb c "$"%char then f y else c :: y | [] => [] end = s).
    { intros f [|c y] Hc; auto. cbn in Hc. destruct (Ascii.eqb_spec c "$"%char); [contradiction|reflexivity]. }
    assert (X1 : export env (txt "export OMP_MAX_ACTIVE_LEVELS=" ++ jo_levels o) = Some e1).
    { unfold export. cbn [after txt list_ascii_of_string app Ascii.eqb Bool.eqb]. cbv zeta. cbn [upto equals Ascii.eqb Bool.eqb length skipn].
      f_equal. unfold e1. rewrite (LIT env (jo_levels o) LV). reflexivity. }
    assert (X2 : export e1 (txt "export OMP_NUM_THREADS=$SLURM_CPUS_PER_TASK") = Some e2) by reflexivity.
    assert (X3 : forall f, export f (run_str o) = None) by (intros f; unfold run_str; destruct (jo_time_it o); reflexivity).
    assert (X4 : command (run_str o) = true) by (unfold run_str; destruct (jo_time_it o); reflexivity).
    exists e2. split.
    + unfold script_lines.
      change (shell env (script_lines o) = [(txt "chmod 755 " ++ jo_bin o, e2); (run_str o, e2)]).
      change (shell env (script_lines o)) with (match export env (txt "export OMP_MAX_ACTIVE_LEVELS=" ++ jo_levels o) with
        Some env' => shell env' (skipn 12 (script_lines o)) | None => (txt "export OMP_MAX_ACTIVE_LEVELS=" ++ jo_levels o, env) :: shell env (skipn 12 (script_lines o)) end).
      rewrite X1. change (shell e1 (skipn 12 (script_lines o))) with (match export e1 (txt "export OMP_NUM_THREADS=$SLURM_CPUS_PER_TASK") with
        Some env' => shell env' (skipn 14 (script_lines o)) | None => (txt "export OMP_NUM_THREADS=$SLURM_CPUS_PER_TASK", e1) :: shell e1 (skipn 14 (script_lines o)) end).
      rewrite X2. unfold script_lines. cbn [skipn]. change (shell e2 [txt "chmod 755 " ++ jo_bin o; []; run_str o]) with ((txt "chmod 755 " ++ jo_bin o, e2) :: shell e2 [run_str o]).
      cbn [shell]. rewrite X3, X4. reflexivity.
    + split; [|split; [reflexivity|]].
      * unfold e2, e1. destruct (text_eqb_spec (txt "OMP_NUM_THREADS") (txt "OMP_NUM_THREADS")); [|contradiction].
        destruct (text_eqb_spec (txt "SLURM_CPUS_PER_TASK") (txt "OMP_MAX_ACTIVE_LEVELS")) as [K|_]; [discriminate K|exact Hq].
      * intros x N1 N2. unfold e2, e1. destruct (text_eqb_spec x (txt "OMP_NUM_THREADS")); [contradiction|]. destruct (text_eqb_spec x (txt "OMP_MAX_ACTIVE_LEVELS")); [contradiction|reflexivity].
Qed.

(** a value with a newline adds commands of its own: the walltime is written as it is *)
Theorem C102_injection_refuted : exists o L, ~ opts_ok o /\ is_lines (write_slurm_script o) L /\
  shell (fun _ => []) L <> [] /\ exists e rest, shell (fun _ => []) L = (txt "reboot" ++ tabs ++ txt "# walltime (dd:hh:mm:ss)", e) :: rest.
Proof.
  set (o := JobOpts (txt "1" ++ nl ++ txt "reboot") (txt "10") (txt "a@b") (txt "4") (txt "1") false (txt "default_fd.run") (txt "params.txt")).
  destruct (lines_unique (write_slurm_script o)) as (L & HL & U). exists o, L. split; [|split; [exact HL|]].
  - intros ((H & _) & _). apply H. right. left. reflexivity.
  - assert (E : L = lines (write_slurm_script o)). { symmetry. apply U. destruct HL as (ls & rest & E & A & B & C). exists ls, rest. rewrite E, lines_joined by auto. auto. }
    subst L. clear. split; [vm_compute; discriminate|]. eexists _, _. vm_compute. reflexivity.
Qed.

Example C102_script_nonvacuous : exists o, opts_ok o /\ jo_threads o = txt "8" /\ run_str o = txt "time ./default_fd.run params.txt . 2>&1 | tee out.txt".
Proof.
  exists (JobOpts (txt "36:00:00") (txt "8000") (txt "me@x.org") (txt "8") (txt "1") true (txt "default_fd.run") (txt "params.txt")).
  split; [|split; reflexivity]. unfold opts_ok, word_ok. cbn [jo_walltime jo_memory jo_email jo_threads jo_levels jo_bin jo_param].
  repeat split; try (apply freeb_ok; vm_compute; reflexivity); discriminate.
Qed.
