(** * C24: every OpenMP construct outside the reductions gives the serial result under every schedule.
    Vocabulary: Conc.v ([par_for its body t]: the task t is some team of threads sharing the iterations
    in some way; [always t m m']: every interleaving of the single memory accesses of t, from m, can
    only end in m' and never gets stuck), ConcSec.v ([touches], [par_sections]), ConcGrid.v (the threads). *)
From Verif Require Import Base BaseLemmas ForList Arith MFd MCheb MSphere MGrid MParams MField MEom PGrid Conc ConcSec ConcGrid PConc Toy ToyRun.
From Coq Require Import Permutation.
#[local] Existing Instance Z_arith.

Section PropConc.
Context {F : Type} {AF : Arith F}.
Local Notation prog := (prog F).
Local Notation task := (task F).
Local Notation mem := (mem F).

(** A parallel loop is harmless: no two iterations conflict on any cell, and however the iterations are
    dealt to threads and interleaved, memory m becomes m'. *)
Definition harmless_loop (n : nat) (body : nat -> prog) (m m' : mem) : Prop :=
  conflict_free n body /\ forall t, par_for (seq 0 n) body t -> always t m m'.

Theorem C24_angular_operators (g : grid F) v dv r :
  (set_partial_phi g v dv = Ok r -> harmless_loop (g_nx g) (p_shell g (fun w => partial_phi (g_bld g) (g_sphere g) w (sph0 g)) 0 1) [v; dv] [v; r]) /\
  (set_spherical_lap g v dv = Ok r -> harmless_loop (g_nx g) (p_shell g (fun w => laplace_beltrami (g_bld g) (g_sphere g) w (sph0 g)) 0 1) [v; dv] [v; r]) /\
  (set_sphereX g v dv = Ok r -> harmless_loop (g_nx g) (p_shell g (fun w => sphereX (g_bld g) (g_sphere g) w (sph0 g)) 0 1) [v; dv] [v; r]).
Proof.
  split; [|split]; intros H; (edestruct (cert_shell g _ 0 1 [v; dv] v dv r ltac:(discriminate) eq_refl eq_refl H) as [C G]; split; [exact C|]);
    intros t P; eapply good_always; apply G; exact P.
Qed.
Theorem C24_radial_operators (g : grid F) v dv r :
  (set_partial_R g v dv = Ok r -> harmless_loop (g_nlat g) (p_line g (line_R g) 0 1) [v; dv] [v; r]) /\
  (set_partial_r g v dv = Ok r -> harmless_loop (g_nlat g) (p_line g (line_r g) 0 1) [v; dv] [v; r]) /\
  (set_partial2_r g v dv = Ok r -> harmless_loop (g_nlat g) (p_line g (line_r2 g) 0 1) [v; dv] [v; r]).
Proof.
  split; [|split]; intros H; (edestruct (cert_lines g _ 0 1 [v; dv] v dv r ltac:(discriminate) eq_refl eq_refl H) as [C G]; split; [exact C|]);
    intros t P; eapply good_always; apply G; exact P.
Qed.
(** the in-place filter: two parallel loops with a barrier between them *)
Theorem C24_filter (g : grid F) v r : grid_filter g v = Ok r ->
  conflict_free (g_nx g) (filter_shells g 0) /\ conflict_free (g_nlat g) (filter_lines g 0) /\
  forall t u, par_for (seq 0 (g_nx g)) (filter_shells g 0) t -> par_for (seq 0 (g_nlat g)) (filter_lines g 0) u ->
    always (TSeq t u) [v] [r].
Proof.
  intros H. destruct (cert_filter g 0 [v] v r eq_refl H) as (C1 & C2 & G). repeat split; auto.
  intros t u Pt Pu. eapply good_always. exact (G t u Pt Pu).
Qed.
Theorem C24_power_spectrum (g : grid F) v p r : set_angular_power_spectrum g v p = Ok r ->
  harmless_loop (g_nx g) (p_spec g 0 1) [v; p] [v; r].
Proof.
  intros H. destruct (cert_spectrum g 0 1 [v; p] v p r) as [C G]; auto. split; auto.
  intros t P. eapply good_always. exact (G t P).
Qed.
Theorem C24_n_l_coef (g : grid F) v p r : set_n_l_coef g v p = Ok r ->
  conflict_free (g_nx g) (p_spec g 0 1) /\ conflict_free (g_nl g) (p_nl g 1) /\
  forall t u, par_for (seq 0 (g_nx g)) (p_spec g 0 1) t -> par_for (seq 0 (g_nl g)) (p_nl g 1) u ->
    always (TSeq t u) [v; p] [v; r].
Proof.
  intros H. destruct (cert_n_l g 0 1 [v; p] v p r) as (C1 & C2 & G); auto. repeat split; auto.
  intros t u Pt Pu. eapply good_always. exact (G t u Pt Pu).
Qed.
Theorem C24_shift (f f' : field F) : shift f = Ok f' ->
  harmless_loop (fl_size f) p_shift [fl_n f; fl_np1 f] [fl_n f'; fl_np1 f'].
Proof.
  intros H. destruct (cert_shift f f' H) as [C G]. split; auto. intros t P. eapply good_always. exact (G t P).
Qed.
Theorem C24_set_level (e : eom F) level (f p f' p' : field F) : (1 <= level <= 5)%Z -> set_level e level f p = Ok (f', p') ->
  harmless_loop (e_n e) (p_level (e_dt e) level) (arrays f p) (arrays f' p').
Proof.
  intros Hl H. unfold set_level in H. inv_bind H. inv_bind H. injection H as <- <-.
  destruct (cert_level (e_n e) (e_dt e) level f p x x0 [] Hl E E0) as [C G]. split; auto.
  intros t P. specialize (G t P). rewrite !app_nil_r in G. eapply good_always. exact G.
Qed.

(** ** Parallel sections and the whole time step.
    Shared arrays: f.n f.l f.np1 f.k p.n p.l p.np1 p.k (0-7), then the scratch arrays of Scalar_eom
    dr_f dr_p dr_dr_f dphi_f dphi_dr_f sphereX lap (8-14); the coefficient arrays are never written. *)
Definition scr_mem (s : scratch F) : mem := [s_dr_f s; s_dr_p s; s_dr_dr_f s; s_dphi_f s; s_dphi_dr_f s; s_sphereX_f s; s_lap_f s].
Definition all_mem (f p : field F) (s : scratch F) : mem := arrays f p ++ scr_mem s.

(** scalar_eom.cpp:145-172 on f = array 1 (f.l), p = array 5 (p.l) *)
Definition k_section_tasks (g : grid F) (ts : list task) : Prop :=
  exists t1 t2 t3 t4 t4' t5 t6,
    ts = [t1; t2; t3; TSeq t4 t4'; t5; t6] /\
    par_for (seq 0 (g_nlat g)) (p_line g (line_r g) 1 8) t1 /\
    par_for (seq 0 (g_nlat g)) (p_line g (line_r g) 5 9) t2 /\
    par_for (seq 0 (g_nlat g)) (p_line g (line_r2 g) 1 10) t3 /\
    par_for (seq 0 (g_nx g)) (p_shell g (fun w => partial_phi (g_bld g) (g_sphere g) w (sph0 g)) 1 11) t4 /\
    par_for (seq 0 (g_nlat g)) (p_line g (line_r g) 11 12) t4' /\
    par_for (seq 0 (g_nx g)) (p_shell g (fun w => sphereX (g_bld g) (g_sphere g) w (sph0 g)) 1 13) t5 /\
    par_for (seq 0 (g_nx g)) (p_shell g (fun w => laplace_beltrami (g_bld g) (g_sphere g) w (sph0 g)) 1 14) t6.
(** scalar_eom.cpp:173-216, a serial loop *)
Definition p_rhs_loop (e : eom F) : prog :=
  p_for 0 (e_n e) (fun i _ k =>
    Rd (1, i) (fun fi => Rd (5, i) (fun pi => Wr (3, i) pi (lift ((e_coef e).[i]) (fun c =>
    Rd (8, i) (fun dr_f => Rd (9, i) (fun dr_p => Rd (10, i) (fun dr_dr_f => Rd (11, i) (fun dphi_f => Rd (12, i) (fun dphi_dr_f =>
    Rd (14, i) (fun lap => Rd (13, i) (fun sX =>
    Wr (7, i) (p_rhs e c fi pi dr_f dr_p dr_dr_f dphi_f dphi_dr_f lap sX) (k tt))))))))))))) tt (fun _ => Ret).
Definition k_task (g : grid F) (e : eom F) (t : task) : Prop :=
  exists ts s, k_section_tasks g ts /\ par_sections ts s /\ t = TSeq s (TRun (p_rhs_loop e)).
Definition level_task (e : eom F) (level : Z) (t : task) : Prop := par_for (seq 0 (e_n e)) (p_level (e_dt e) level) t.
Definition filter_task (g : grid F) (c : nat) (t : task) : Prop :=
  exists t1 t2, par_for (seq 0 (g_nx g)) (filter_shells g c) t1 /\ par_for (seq 0 (g_nlat g)) (filter_lines g c) t2 /\ t = TSeq t1 t2.
(** scalar_eom.cpp:280-303 *)
Definition time_step_task (g : grid F) (e : eom F) (t : task) : Prop :=
  exists ff fp s l1 k1 l2 k2 l3 k3 l4 k4 l5,
    filter_task g 0 ff /\ filter_task g 4 fp /\ par_sections [ff; fp] s /\
    level_task e 1 l1 /\ k_task g e k1 /\ level_task e 2 l2 /\ k_task g e k2 /\ level_task e 3 l3 /\
    k_task g e k3 /\ level_task e 4 l4 /\ k_task g e k4 /\ level_task e 5 l5 /\
    t = tseqt [s; l1; k1; l2; k2; l3; k3; l4; k4; l5].

Lemma disj_check fps :
  forallb (fun i => forallb (fun j => orb (Nat.eqb i j)
    (let x := nth i fps ([], []) in let y := nth j fps ([], []) in
     andb (forallb (fun a => andb (negb (existsb (Nat.eqb a) (fst y))) (negb (existsb (Nat.eqb a) (snd y)))) (snd x))
          (forallb (fun a => negb (existsb (Nat.eqb a) (fst x))) (snd y)))) (seq 0 (length fps))) (seq 0 (length fps)) = true ->
  forall i j, i < length fps -> j < length fps -> i <> j ->
     let x := nth i fps ([], []) in let y := nth j fps ([], []) in disjoint_arrays (fst x) (snd x) (fst y) (snd y).
Proof.
  intros H i j Hi Hj Hij. rewrite forallb_forall in H. specialize (H i ltac:(apply in_seq; lia)). rewrite forallb_forall in H.
  specialize (H j ltac:(apply in_seq; lia)). apply orb_prop in H. destruct H as [H|H]; [apply Nat.eqb_eq in H; contradiction|].
  cbv zeta in H. apply andb_prop in H. destruct H as [H1 H2]. rewrite forallb_forall in H1, H2.
  assert (N : forall a l, negb (existsb (Nat.eqb a) l) = true -> ~ In a l).
  { intros a l Hn Hin. apply Bool.negb_true_iff in Hn. assert (existsb (Nat.eqb a) l = true) by (apply existsb_exists; exists a; split; auto; apply Nat.eqb_refl). congruence. }
  split; intros a Ha.
  - specialize (H1 a Ha). apply andb_prop in H1. destruct H1. split; now apply N.
  - specialize (H2 a Ha). now apply N.
Qed.

Lemma sections_k g f p s s' ts : k_sections g (fl_l f) (fl_l p) s = Ok s' -> k_section_tasks g ts ->
  sections_conflict_free ts /\ forall t, par_sections ts t -> race_free t /\ lrun t (all_mem f p s) = Some (all_mem f p s').
Proof.
  intros H (t1 & t2 & t3 & t4 & t4' & t5 & t6 & -> & P1 & P2 & P3 & P4 & P4' & P5 & P6).
  unfold k_sections in H. do 7 (inv_bind H; cbv beta in H). injection H as <-.
  unfold set_partial_r, set_partial2_r, set_partial_phi, set_sphereX, set_spherical_lap in *.
  assert (G : goods [t1; t2; t3; TSeq t4 t4'; t5; t6]
     [([1], [8]); ([5], [9]); ([1], [10]); ([1; 11], [11; 12]); ([1], [13]); ([1], [14])] (all_mem f p s)
     (all_mem f p (Scr x x5 x0 x1 x2 x3 x4))).
  { eapply goods_cons; [eapply (cert_lines g _ 1 8); [discriminate| | |exact E|exact P1]; reflexivity|]. cbn [all_mem arrays scr_mem app upd].
    eapply goods_cons; [eapply (cert_lines g _ 5 9); [discriminate| | |exact E0|exact P2]; reflexivity|]. cbn [upd].
    eapply goods_cons; [eapply (cert_lines g _ 1 10); [discriminate| | |exact E1|exact P3]; reflexivity|]. cbn [upd].
    eapply goods_cons.
    { eapply (good_seq t4 t4' [1] [11] [11] [12]).
      - eapply (cert_shell g _ 1 11); [discriminate| | |exact E2|exact P4]; reflexivity.
      - eapply (cert_lines g _ 11 12); [discriminate| | |exact E3|exact P4']; reflexivity. }
    cbn [upd].
    eapply goods_cons; [eapply (cert_shell g _ 1 13); [discriminate| | |exact E4|exact P5]; reflexivity|]. cbn [upd].
    eapply goods_cons; [eapply (cert_shell g _ 1 14); [discriminate| | |exact E5|exact P6]; reflexivity|]. cbn [upd].
    apply goods_nil. }
  apply (goods_sections _ _ _ _ G). apply disj_check. reflexivity.
Qed.

(** serial loops over several arrays *)
Lemma run_for_state {S} (st : S -> mem) lo hi (body : nat -> unit -> (unit -> prog) -> prog) (fb : nat -> S -> res S) k :
  (forall i s s' k, fb i s = Ok s' -> run (body i tt k) (st s) = run (k tt) (st s')) ->
  forall s s', for_ lo hi fb s = Ok s' -> run (p_for lo hi body tt k) (st s) = run (k tt) (st s').
Proof.
  intros H. unfold for_, p_for. generalize (hi - lo) as n. intros n. revert lo. induction n as [|n IH]; intros lo s s' E; cbn in *.
  - now injection E as ->.
  - inv_bind E. rewrite (H _ _ x) by auto. now apply IH.
Qed.

Lemma run_rhs_loop e f p s fk pk :
  for_ 0 (e_n e) (fun i st =>
    let '(f_k, p_k) := st in
    let! fi := (fl_l f).[i] in
    let! pi := (fl_l p).[i] in
    let! f_k := f_k.[i <- pi] in
    let! c := (e_coef e).[i] in
    let! dr_f := (s_dr_f s).[i] in let! dr_p := (s_dr_p s).[i] in let! dr_dr_f := (s_dr_dr_f s).[i] in
    let! dphi_f := (s_dphi_f s).[i] in let! dphi_dr_f := (s_dphi_dr_f s).[i] in
    let! lap := (s_lap_f s).[i] in let! sX := (s_sphereX_f s).[i] in
    let! p_k := p_k.[i <- p_rhs e c fi pi dr_f dr_p dr_dr_f dphi_f dphi_dr_f lap sX] in
    Ok (f_k, p_k)) (fl_k f, fl_k p) = Ok (fk, pk) ->
  run (p_rhs_loop e) (all_mem f p s) = Some (all_mem (with_k f fk) (with_k p pk) s).
Proof.
  intros H. unfold p_rhs_loop.
  refine (eq_trans (run_for_state (fun st : list F * list F => all_mem (with_k f (fst st)) (with_k p (snd st)) s) 0 (e_n e) _ _ (fun _ => Ret) _ (fl_k f, fl_k p) (fk, pk) H) eq_refl).
  clear H.
  intros i [a b] [a' b'] k E. cbv beta in E. do 12 (inv_bind E; cbv beta in E). injection E as <- <-. unfold all_mem at 1, arrays, scr_mem. cbn [app with_k fl_n fl_l fl_np1 fl_k fst snd].
    erewrite run_rd; [|reflexivity|eassumption]. erewrite run_rd; [|reflexivity|eassumption].
    erewrite run_wr; [|reflexivity|eassumption]. erewrite lift_run by eassumption. cbn [upd].
    do 7 (erewrite run_rd; [|reflexivity|eassumption]).
    erewrite run_wr; [|reflexivity|eassumption]. reflexivity.
Qed.

Lemma set_k_task g e f p fk pk e' t : set_k g e (fl_l f) (fl_l p) (fl_k f) (fl_k p) = Ok (fk, pk, e') -> k_task g e t ->
  race_free t /\ lrun t (all_mem f p (e_scr e)) = Some (all_mem (with_k f fk) (with_k p pk) (e_scr e')).
Proof.
  intros H (ts & s & Hts & Ps & ->). unfold set_k in H.
  repeat (match type of H with bind (assert_ _ _) _ = Ok _ => inv_bind H; cbv beta in H end).
  inv_bind H. rename x3 into s'. cbv beta in H.
  destruct (sections_k g f p _ _ ts E3 Hts) as [_ G]. destruct (G s Ps) as [R1 L1].
  inv_bind H. destruct x3 as [fk' pk']. injection H as <- <- <-.
  split; [split; [exact R1|exact I]|]. cbn [lrun]. rewrite L1. cbn [e_scr with_scr]. eapply run_rhs_loop. exact E4.
Qed.

Lemma set_level_task e level f p f' p' s t : (1 <= level <= 5)%Z -> set_level e level f p = Ok (f', p') -> level_task e level t ->
  race_free t /\ lrun t (all_mem f p s) = Some (all_mem f' p' s).
Proof.
  intros Hl H P. unfold set_level in H. inv_bind H. inv_bind H. injection H as <- <-.
  destruct (cert_level (e_n e) (e_dt e) level f p x x0 (scr_mem s) Hl E E0) as [C G]. destruct (G t P) as (A & _ & B). auto.
Qed.
Lemma filter_tasks g f p s fn pn ff fp : grid_filter g (fl_n f) = Ok fn -> grid_filter g (fl_n p) = Ok pn ->
  filter_task g 0 ff -> filter_task g 4 fp ->
  sections_conflict_free [ff; fp] /\
  forall t, par_sections [ff; fp] t -> race_free t /\ lrun t (all_mem f p s) = Some (all_mem (with_n f fn) (with_n p pn) s).
Proof.
  intros H1 H2 (t1 & t2 & A1 & A2 & ->) (t3 & t4 & A3 & A4 & ->).
  apply (goods_sections _ [([0], [0]); ([4], [4])]).
  - eapply goods_cons; [apply (cert_filter g 0 (all_mem f p s) (fl_n f) fn eq_refl H1); auto|].
    eapply goods_cons; [|apply goods_nil].
    apply (cert_filter g 4 (upd (all_mem f p s) 0 fn) (fl_n p) pn eq_refl H2); auto.
  - apply disj_check. reflexivity.
Qed.

(** the sections of set_k, of time_step and of set_rho do not conflict with each other *)
Theorem C24_set_k_sections (g : grid F) f p s s' ts : k_sections g (fl_l f) (fl_l p) s = Ok s' -> k_section_tasks g ts ->
  sections_conflict_free ts /\ forall t, par_sections ts t -> always t (all_mem f p s) (all_mem f p s').
Proof.
  intros H Hts. destruct (sections_k g f p s s' ts H Hts) as [C G]. split; auto. intros t P. destruct (G t P). now apply race_free_always.
Qed.
Theorem C24_filter_sections (g : grid F) f p s fn pn ff fp : grid_filter g (fl_n f) = Ok fn -> grid_filter g (fl_n p) = Ok pn ->
  filter_task g 0 ff -> filter_task g 4 fp ->
  sections_conflict_free [ff; fp] /\
  forall t, par_sections [ff; fp] t -> always t (all_mem f p s) (all_mem (with_n f fn) (with_n p pn) s).
Proof.
  intros H1 H2 A B. destruct (filter_tasks g f p s fn pn ff fp H1 H2 A B) as [C G]. split; auto. intros t P. destruct (G t P). now apply race_free_always.
Qed.
(** scalar_eom.cpp:317-331 on f p dr_f dphi_f sphereX = 0..4 *)
Definition rho_section_tasks (g : grid F) (ts : list task) : Prop :=
  exists t1 t2 t3, ts = [t1; t2; t3] /\
    par_for (seq 0 (g_nlat g)) (p_line g (line_r g) 0 2) t1 /\
    par_for (seq 0 (g_nx g)) (p_shell g (fun w => partial_phi (g_bld g) (g_sphere g) w (sph0 g)) 0 3) t2 /\
    par_for (seq 0 (g_nx g)) (p_shell g (fun w => sphereX (g_bld g) (g_sphere g) w (sph0 g)) 0 4) t3.
Theorem C24_set_rho_sections (g : grid F) f p a b c a' b' c' ts :
  set_partial_r g f a = Ok a' -> set_partial_phi g f b = Ok b' -> set_sphereX g f c = Ok c' -> rho_section_tasks g ts ->
  sections_conflict_free ts /\ forall t, par_sections ts t -> always t [f; p; a; b; c] [f; p; a'; b'; c'].
Proof.
  intros E E0 E1 (t1 & t2 & t3 & -> & P1 & P2 & P3).
  assert (G : goods [t1; t2; t3] [([0], [2]); ([0], [3]); ([0], [4])] [f; p; a; b; c] [f; p; a'; b'; c']).
  { eapply goods_cons; [eapply (cert_lines g _ 0 2); [discriminate| | |exact E|exact P1]; reflexivity|]. cbn [upd].
    eapply goods_cons; [eapply (cert_shell g _ 0 3); [discriminate| | |exact E0|exact P2]; reflexivity|]. cbn [upd].
    eapply goods_cons; [eapply (cert_shell g _ 0 4); [discriminate| | |exact E1|exact P3]; reflexivity|]. cbn [upd].
    apply goods_nil. }
  destruct (goods_sections _ _ _ _ G) as [C K]; [apply disj_check; reflexivity|]. split; auto.
  intros t P. destruct (K t P). now apply race_free_always.
Qed.

Lemma lruns_cons (t : task) ts m m' : lrun t m = Some m' -> lruns (t :: ts) m = lruns ts m'.
Proof. intros E. cbn. now rewrite E. Qed.
Lemma set_k_consts g e f p fk pk fk' pk' e' : set_k g e f p fk pk = Ok (fk', pk', e') ->
  exists s, e' = with_scr e s.
Proof.
  intros H. unfold set_k in H.
  repeat (match type of H with bind (assert_ _ _) _ = Ok _ => inv_bind H; cbv beta in H end).
  inv_bind H. cbv beta in H. inv_bind H. destruct x4. injection H as <- <- <-. eauto.
Qed.
Lemma k_task_scr g e s t : k_task g e t -> k_task g (with_scr e s) t.
Proof. exact (fun H => H). Qed.
Lemma level_task_scr e s l t : level_task e l t -> level_task (with_scr e s) l t.
Proof. exact (fun H => H). Qed.
Lemma stage_task g level f p e f' p' e' k l : (1 <= level <= 5)%Z -> rk_stage g level (f, p, e) = Ok (f', p', e') ->
  k_task g e k -> level_task e level l ->
  (exists s, e' = with_scr e s) /\ race_free k /\ race_free l /\
  forall ts, lruns (k :: l :: ts) (all_mem f p (e_scr e)) = lruns ts (all_mem f' p' (e_scr e')).
Proof.
  intros Hl H Hk Hlv. unfold rk_stage in H. inv_bind H. destruct x as [[fk pk] e1]. inv_bind H. destruct x as [f1 p1]. injection H as <- <- <-.
  destruct (set_k_consts _ _ _ _ _ _ _ _ _ E) as (s & ->).
  destruct (set_k_task g e f p fk pk _ k E Hk) as [R1 L1].
  destruct (set_level_task _ level _ _ _ _ s l Hl E0 (level_task_scr e s level l Hlv)) as [R2 L2].
  split; [eauto|]. split; auto. split; auto. intros ts. cbn [lruns]. rewrite L1. cbn [e_scr with_scr]. now rewrite L2.
Qed.

(** Every execution of the whole time step, with nested parallel loops and sections interleaved in any
    way, ends with the fields and scratch arrays the sequential model computes. *)
Theorem C24_time_step (g : grid F) (e : eom F) (f p : field F) f' p' e' t :
  time_step g e f p = Ok (f', p', e') -> time_step_task g e t ->
  always t (all_mem f p (e_scr e)) (all_mem f' p' (e_scr e')).
Proof.
  intros H (ff & fp & s & l1 & k1 & l2 & k2 & l3 & k3 & l4 & k4 & l5 & Hff & Hfp & Ps & T1 & K1 & T2 & K2 & T3 & K3 & T4 & K4 & T5 & ->).
  unfold time_step in H.
  repeat (match type of H with bind (assert_ _ _) _ = Ok _ => inv_bind H; cbv beta in H end).
  inv_bind H. cbv beta in H. rename x1 into fn. inv_bind H. cbv beta in H. rename x1 into pn.
  destruct (proj2 (filter_tasks g f p (e_scr e) fn pn ff fp E1 E2 Hff Hfp) s Ps) as [R0 L0].
  inv_bind H. destruct x1 as [f1 p1]. cbv beta iota in H.
  destruct (set_level_task e 1 _ _ _ _ (e_scr e) l1 ltac:(lia) E3 T1) as [R1 L1].
  inv_bind H. destruct x1 as [[f2 p2] e2]. cbv beta in H.
  destruct (stage_task g 2 _ _ _ _ _ _ k1 l2 ltac:(lia) E4 K1 T2) as ((s2 & ->) & Rk1 & Rl2 & L2).
  inv_bind H. destruct x1 as [[f3 p3] e3]. cbv beta in H.
  destruct (stage_task g 3 _ _ _ _ _ _ k2 l3 ltac:(lia) E5 (k_task_scr g e s2 k2 K2) (level_task_scr e s2 3 l3 T3)) as ((s3 & ->) & Rk2 & Rl3 & L3).
  inv_bind H. destruct x1 as [[f4 p4] e4]. cbv beta in H.
  destruct (stage_task g 4 _ _ _ _ _ _ k3 l4 ltac:(lia) E6 (k_task_scr g e s3 k3 K3) (level_task_scr e s3 4 l4 T4)) as ((s4 & ->) & Rk3 & Rl4 & L4).
  destruct (stage_task g 5 _ _ _ _ _ _ k4 l5 ltac:(lia) H (k_task_scr g e s4 k4 K4) (level_task_scr e s4 5 l5 T5)) as ((s5 & ->) & Rk4 & Rl5 & L5).
  apply race_free_always.
  - cbn. tauto.
  - rewrite lrun_tseqt, (lruns_cons _ _ _ _ L0), (lruns_cons _ _ _ _ L1), L2, L3, L4, L5. reflexivity.
Qed.
End PropConc.

Lemma mkstep {F} (t t' : task F) l m m' : lstep t l t' -> act l m m' -> step (t, m) (t', m').
Proof. intros A B. exists l. split; assumption. Qed.
(** ** The hypotheses are met, and the conclusion is not automatic *)
(** iterations that DO conflict: cell 0 <- cell 1 and cell 1 <- cell 0; two schedules, two results *)
Definition swap_body (i : nat) : prog Z := if Nat.eqb i 0 then Rd (0, 1) (fun x => Wr (0, 0) x Ret) else Rd (0, 0) (fun x => Wr (0, 1) x Ret).
Example racy_loop_is_not_deterministic : exists t m1 m2, par_for (seq 0 2) swap_body t /\ m1 <> m2 /\
  (exists n, steps n (t, [[1%Z; 2%Z]]) (done m1)) /\ (exists n, steps n (t, [[1%Z; 2%Z]]) (done m2)) /\
  ~ conflict_free 2 swap_body /\ forall m, ~ always t [[1%Z; 2%Z]] m.
Proof.
  set (t := tpar (map (fun ch => tseq (map swap_body ch)) [[0]; [1]])).
  assert (A : lrun t [[1%Z; 2%Z]] = Some [[2%Z; 2%Z]]) by reflexivity.
  assert (B : exists n, steps n (t, [[1%Z; 2%Z]]) (done [[1%Z; 1%Z]])).
  { unfold t. cbn. eexists.
    eapply st_S. { eapply mkstep. { apply l_par2, l_par1, l_seq, l_rd. } { apply a_rd. reflexivity. } } cbn.
    eapply st_S. { eapply mkstep. { apply l_par2, l_par1, l_seq, l_wr. } { apply a_wr. discriminate. } } cbn.
    eapply st_S. { eapply mkstep. { apply l_par1, l_seq, l_rd. } { apply a_rd. reflexivity. } } cbn.
    eapply st_S. { eapply mkstep. { apply l_par1, l_seq, l_wr. } { apply a_wr. discriminate. } } cbn.
    eapply st_S. { eapply mkstep. { apply l_par1, l_next. } { apply a_tau. } } cbn.
    eapply st_S. { eapply mkstep. { apply l_par2, l_par1, l_next. } { apply a_tau. } } cbn.
    eapply st_S. { eapply mkstep. { apply l_par2, l_join. } { apply a_tau. } } cbn.
    eapply st_S. { eapply mkstep. { apply l_join. } { apply a_tau. } } cbn. apply st_0. }
  apply lrun_steps in A. exists t, [[2%Z; 2%Z]], [[1%Z; 1%Z]]. repeat split; auto.
  - exists [[0]; [1]]. split; auto.
  - discriminate.
  - intros C. apply (C 0 1 (0, 0) false); auto.
    + cbn. apply (t_rd_k _ _ 0%Z). apply t_wr.
    + cbn. apply t_rd.
  - intros m Hm. destruct A as (n & A), B as (n' & B).
    pose proof (always_stuck _ _ _ _ _ Hm A (done_final _)) as E1. pose proof (always_stuck _ _ _ _ _ Hm B (done_final _)) as E2.
    unfold done in *. congruence.
Qed.

Lemma par_for_one {F I} (its : list I) (body : I -> prog F) : exists t, par_for its body t.
Proof. eexists. exists [its]. split; [cbn; now rewrite app_nil_r|reflexivity]. Qed.
Lemma par_sections_one {F} (ts : list (task F)) : exists t, par_sections ts t.
Proof. eexists. exists [seq 0 (length ts)]. split; [cbn; now rewrite app_nil_r|reflexivity]. Qed.
Example C24_nonvacuous : exists (g : grid Z) f' p' e' t,
  g_n3 g = 108 /\ time_step g (toy_eom g) (toy_field g 1) (toy_field g 2) = Ok (f', p', e') /\ time_step_task g (toy_eom g) t.
Proof.
  destruct toy_run as (g & f' & p' & e' & _ & N & H). exists g, f', p', e'.
  assert (FT : forall c, exists t, filter_task g c t).
  { intros c. destruct (par_for_one (seq 0 (g_nx g)) (filter_shells g c)) as (t1 & H1).
    destruct (par_for_one (seq 0 (g_nlat g)) (filter_lines g c)) as (t2 & H2). exists (TSeq t1 t2), t1, t2. auto. }
  assert (LT : forall l, exists t, level_task (toy_eom g) l t) by (intros; apply par_for_one).
  assert (KT : exists t, k_task g (toy_eom g) t).
  { destruct (par_for_one (seq 0 (g_nlat g)) (p_line g (line_r g) 1 8)) as (t1 & P1).
    destruct (par_for_one (seq 0 (g_nlat g)) (p_line g (line_r g) 5 9)) as (t2 & P2).
    destruct (par_for_one (seq 0 (g_nlat g)) (p_line g (line_r2 g) 1 10)) as (t3 & P3).
    destruct (par_for_one (seq 0 (g_nx g)) (p_shell g (fun w => partial_phi (g_bld g) (g_sphere g) w (sph0 g)) 1 11)) as (t4 & P4).
    destruct (par_for_one (seq 0 (g_nlat g)) (p_line g (line_r g) 11 12)) as (t4' & P4').
    destruct (par_for_one (seq 0 (g_nx g)) (p_shell g (fun w => sphereX (g_bld g) (g_sphere g) w (sph0 g)) 1 13)) as (t5 & P5).
    destruct (par_for_one (seq 0 (g_nx g)) (p_shell g (fun w => laplace_beltrami (g_bld g) (g_sphere g) w (sph0 g)) 1 14)) as (t6 & P6).
    destruct (par_sections_one [t1; t2; t3; TSeq t4 t4'; t5; t6]) as (s & Ps).
    eexists. exists [t1; t2; t3; TSeq t4 t4'; t5; t6], s. split; [|split; [exact Ps|reflexivity]].
    exists t1, t2, t3, t4, t4', t5, t6. auto 10. }
  destruct (FT 0) as (ff & Hff), (FT 4) as (fp & Hfp). destruct (par_sections_one [ff; fp]) as (s & Ps).
  destruct KT as (k & Hk). destruct (LT 1%Z) as (l1 & H1), (LT 2%Z) as (l2 & H2), (LT 3%Z) as (l3 & H3), (LT 4%Z) as (l4 & H4), (LT 5%Z) as (l5 & H5).
  eexists. split; auto. split; auto. exists ff, fp, s, l1, k, l2, k, l3, k, l4, k, l5. repeat (split; [assumption|]). reflexivity.
Qed.
