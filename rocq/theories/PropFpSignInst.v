(** * Cases that meet the hypotheses of C103. *)
From Coq Require Import ZArith SpecFloat Bool List.
From Verif Require Import Base BaseLemmas Arith MFd MCheb MSphere MGrid MParams MField MEom PropFpRhsInst FpSign FlipOps PropFpSign.
Import ListNotations.

Notation FL := spec_float.
#[local] Hint Extern 0 (Arith FL) => exact (b64_here PropFpRhsInst.one PropFpRhsInst.one PropFpRhsInst.one PropFpRhsInst.one PropFpRhsInst.one (sf_ofZ 3)) : typeclass_instances.
Notation calm_run_ := (calm_run PropFpRhsInst.one PropFpRhsInst.one PropFpRhsInst.one PropFpRhsInst.one PropFpRhsInst.one (sf_ofZ 3)).
Notation calm_step_ := (calm_step PropFpRhsInst.one PropFpRhsInst.one PropFpRhsInst.one PropFpRhsInst.one PropFpRhsInst.one (sf_ofZ 3)).
Notation calm_ := (calm PropFpRhsInst.one PropFpRhsInst.one PropFpRhsInst.one PropFpRhsInst.one PropFpRhsInst.one (sf_ofZ 3)).
Notation run_ := (run PropFpRhsInst.one PropFpRhsInst.one PropFpRhsInst.one PropFpRhsInst.one PropFpRhsInst.one (sf_ofZ 3)).
Notation k_ := (k_of PropFpRhsInst.one PropFpRhsInst.one PropFpRhsInst.one PropFpRhsInst.one PropFpRhsInst.one (sf_ofZ 3)).
Notation one_iter_ := (one_iter PropFpRhsInst.one PropFpRhsInst.one PropFpRhsInst.one PropFpRhsInst.one PropFpRhsInst.one (sf_ofZ 3)).

Lemma const_odd : odd_lib (rel true) const_sht.
Proof.
  assert (Z : rel true f0 f0) by exact I. assert (ZC : PC (rel true) c0 c0) by (split; exact I).
  split; intros v v' H; cbn [s_an s_sy s_anc s_syc const_sht]; apply F2_map; intros i.
  - destruct (Nat.eqb i 0); [|exact ZC]. split; cbn [fst snd]; [now apply F2_nth|exact I].
  - now apply (F2_nth (PC (rel true))).
  - destruct (Nat.eqb i 0); [|exact ZC]. now apply (F2_nth (PC (rel true))).
  - now apply (F2_nth (PC (rel true))).
Qed.

(** the hypothesis calm_step, decided by computation *)
Definition zerob (x : FL) : bool := match x with S754_zero _ => true | _ => false end.
Definition calmb (e : eom FL) (f : FL) : bool :=
  negb (zerob (fpow (fadd f (fofZ 1)) 2)) && negb (zerob (fpow (fadd (fopp f) (fofZ 1)) 2)) && negb (zerob (k_ e f)).
Lemma calmb_ok e f : calmb e f = true -> calm_ e f.
Proof.
  unfold calmb. rewrite !andb_true_iff, !negb_true_iff. intros [[A B] C].
  assert (G : forall x, zerob x = false -> ~ zero x) by (intros [s|s| |s m h]; cbn; intuition congruence).
  repeat split; now apply G.
Qed.
Definition step_calmb (g : grid FL) (u : field FL * field FL * eom FL) : bool :=
  let '(f, p, e) := u in
  match (let! fn := grid_filter g (fl_n f) in let! pn := grid_filter g (fl_n p) in let! (a, b) := set_level e 1 (with_n f fn) (with_n p pn) in
         let! s2 := rk_stage g 2 (a, b, e) in let! s3 := rk_stage g 3 s2 in let! s4 := rk_stage g 4 s3 in
         Ok (map (fun u => fl_l (f_of u)) [(a, b, e); s2; s3; s4])) with
  | Ok l => forallb (forallb (calmb e)) l
  | _ => false
  end.
Lemma step_calmb_ok g u : step_calmb g u = true -> calm_step_ g u.
Proof.
  destruct u as [[f p] e]. unfold step_calmb. intros H. cbn [calm_step]. intros fn E1 pn E2 [a b] E3.
  rewrite E1 in H. cbn [bind] in H. rewrite E2 in H. cbn [bind] in H. rewrite E3 in H. cbn [bind] in H.
  destruct (rk_stage g 2 (a, b, e)) as [s2| | | |] eqn:E4; try discriminate H. cbn [bind] in H.
  destruct (rk_stage g 3 s2) as [s3| | | |] eqn:E5; try discriminate H. cbn [bind] in H.
  destruct (rk_stage g 4 s3) as [s4| | | |] eqn:E6; try discriminate H. cbn [bind map forallb] in H. rewrite !andb_true_iff in H.
  assert (G : forall l, forallb (calmb e) l = true -> Forall (calm_ e) l).
  { intros l Hl. apply Forall_forall. intros x Hx. apply calmb_ok. rewrite forallb_forall in Hl. auto. }
  destruct H as (H1 & H2 & H3 & H4 & _). split; [now apply G|]. intros s2' Q. cbn [fst snd] in Q. rewrite E4 in Q. injection Q as <-.
  split; [now apply G|]. intros s3' Q. rewrite E5 in Q. injection Q as <-. split; [now apply G|]. intros s4' Q. rewrite E6 in Q. injection Q as <-. now apply G.
Qed.

(** f falls and p alternates with the radius; the same with the other sign *)
Definition fdata : list FL := flat_map (fun k => repeat (SFdiv 53 1024 (sf_ofZ 1) (sf_ofZ (2 + k))) 3) [0; 1; 2; 3; 4; 5; 6; 7]%Z.
Definition pdata : list FL := flat_map (fun k => repeat (SFdiv 53 1024 (sf_ofZ (if Z.even k then 1 else -1)) (sf_ofZ 8)) 3) [0; 1; 2; 3; 4; 5; 6; 7]%Z.
Definition start (e : eom FL) (s : FL -> FL) :=
  (Fld [] (map s fdata) (map s fdata) (map s fdata) (map s fdata) 24, Fld [] (map s pdata) (map s pdata) (map s pdata) (map s pdata) 24, e).
Definition moved (l : list FL) : bool := negb (forallb (fun x => zerob (SFsub 53 1024 (fst x) (snd x))) (combine l fdata)).

Example C103_nonvacuous : exists g e f1 p1 e1, Grid_make fdb const_sht (pr_cl par) (pr_Rmin par) (pr_Rmax par) 8 1 1 1 3 = Ok g /\ Eom_make g par = Ok e /\
  odd_lib (rel true) (sp_shtns (g_sphere g)) /\ zero (pr_km1 par) /\ zero (pr_k1 par) /\ zero (pr_V3 par) /\
  calm_run_ g 2 (start e (fun x => x)) /\ run_ g 2 (start e (fun x => x)) = Ok (f1, p1, e1) /\
  forallb is_finite_sf (fl_n f1 ++ fl_n p1) = true /\ moved (fl_n f1) = true.
Proof.
  assert (X : exists gg, Grid_make fdb const_sht (pr_cl par) (pr_Rmin par) (pr_Rmax par) 8 1 1 1 3 = Ok gg /\ sp_shtns (g_sphere gg) = const_sht /\ exists e, Eom_make gg par = Ok e /\
    step_calmb gg (start e (fun x => x)) = true /\ exists u, one_iter_ gg (start e (fun x => x)) = Ok u /\
      step_calmb gg u = true /\ exists w, one_iter_ gg u = Ok w /\
      forallb is_finite_sf (fl_n (fst (fst w)) ++ fl_n (snd (fst w))) = true /\ moved (fl_n (fst (fst w))) = true).
  { eexists. split; [vm_compute; reflexivity|]. split; [vm_compute; reflexivity|]. eexists. split; [vm_compute; reflexivity|]. split; [vm_compute; reflexivity|].
    eexists. split; [vm_compute; reflexivity|]. split; [vm_compute; reflexivity|]. eexists. split; [vm_compute; reflexivity|]. split; vm_compute; reflexivity. }
  destruct X as (g & G & L & e & E & C1 & u & U & C2 & [[f1 p1] e1] & W & A & B). exists g, e, f1, p1, e1. split; [exact G|]. split; [exact E|].
  split; [rewrite L; apply const_odd|]. do 3 (split; [exact I|]). split; [|split; [|split; assumption]].
  - split; [now apply step_calmb_ok|]. intros u' Q. pose proof (eq_trans (eq_sym U) Q) as Q2. injection Q2 as <-. split; [now apply step_calmb_ok|]. intros w _. exact I.
  - cbn [run]. change (bind (one_iter_ g (start e (fun x => x))) (run_ g 1) = Ok (f1, p1, e1)).
    rewrite U. cbn [bind run]. rewrite W. reflexivity.
Qed.
