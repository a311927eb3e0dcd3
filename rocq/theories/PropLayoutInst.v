(** A concrete run that meets the hypotheses of C95. *)
From Coq Require Import Reals Ascii String.
From Verif Require Import Base Arith MSphere MGrid MParams MField MMain SphereSpec LaySpec PConc PRed PDriver PropDriver PLay PropLayout Toy.
Local Open Scope nat_scope.
Section E.
#[local] Existing Instance Z_arith.
Definition one_thread (n : nat) : list (list nat) := [seq 0 n].
Lemma one_thread_deals n : deals (one_thread n) n.
Proof. unfold deals, one_thread. cbn [concat]. rewrite app_nil_r. reflexivity. Qed.
(** a parameter file, two threads against one, theta-first storage against phi-first, with and without assertions:
    the hypotheses of C95_schedule_independent, C95_assertions_irrelevant and C95_storage_order hold, and the two
    storage orders do number the points differently *)
Example C95_nonvacuous :
  Params_make demo_stod (Build false true false) (Some (demo_file "7" "3")) = Ok (demo_params 7 3) /\
  runnable (fun _ => two_threads 108) (fun _ => two_threads 8) (Build false true false) toy_sht (demo_params 7 3) /\
  runnable (fun _ => one_thread 108) (fun _ => one_thread 8) (Build false true false) toy_sht (demo_params 7 3) /\
  1 <= pr_t_step_save (demo_params 7 3) /\
  pos (Build false true false) 3 4 2 1 = 5 /\ pos (Build false false true) 3 4 2 1 = 9 /\
  (exists lib', relaid (Build false true false) (Build false false true) (toy_sht 2 1 3 4) (lib' 2 1 3 4) /\
     runnable (fun _ => two_threads 108) (fun _ => two_threads 8) (Build false false true) lib' (demo_params 7 3) /\
     same_sphere (Build false true false) (Build false false true) 3 4 (map Z.of_nat (seq 0 12)) [0;3;6;9;1;4;7;10;2;5;8;11]%Z).
Proof.
  destruct C48_C51_C65_nonvacuous as (A & _ & _ & B & _). pose proof (B 3) as R.
  split; [exact A|]. split; [exact R|]. split; [|split; [cbn; lia|split; [reflexivity|split; [reflexivity|]]]].
  - unfold runnable in *. cbv zeta in *. repeat match goal with H : _ /\ _ |- _ => destruct H end.
    repeat match goal with |- _ /\ _ => split end; auto; intros _; apply one_thread_deals.
  - destruct (C95_storage_order (fun z => []) demo_stod _ _ toy_sht false false true _ _ [] (MIo.Fs (fun _ => None) (fun _ => true)) A R ltac:(cbn; lia)) as (lib' & H1 & H2 & _).
    exists lib'. split; [exact H1|]. split; [exact H2|]. split; [reflexivity|]. split; [reflexivity|].
    intros it ip Ht Hp. do 3 (destruct it as [|it]; [do 4 (destruct ip as [|ip]; [reflexivity|]); lia|]). lia.
Qed.
End E.
