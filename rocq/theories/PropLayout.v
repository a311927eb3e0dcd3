(** C95: the storage order, the assertions and the thread schedule do not change the results. *)
From Coq Require Import Reals Lra Ascii String Permutation FinFun.
From Verif Require Import Base BaseLemmas ForList Arith MFd MCheb MSphere MGrid MParams MField MEom MInit MIo MMain
  SphereSpec GridSpec RkSpec LaySpec PGrid PTables PMake PSphere PSphere2 PGridOp PropTables PropGridOp PConc PEom PEomOk PRk PropRk PIo PInit PRed PropRed PDriver PropDriver PLay PLayG.
Local Open Scope nat_scope.

(** ** the same library in another storage order *)
Section Relay.
Context {F : Type} {AF : Arith F}.
Lemma same_sphere_refl {A} b n m (v : list A) : length v = n * m -> same_sphere b b n m v v.
Proof. split; auto. Qed.
Lemma same_sphere_eq {A} b n m (v v' : list A) : same_sphere b b n m v v' -> v = v'.
Proof.
  intros (L & L' & H). apply (list_ext _ _ (n * m)); auto. intros i Hi. destruct (ix_th_ph_surj b n m i Hi) as (it & ip & A1 & A2 & <-). apply H; auto.
Qed.
Lemma relaid_refl (b b' : build) (h : sht F) : contiguous b = contiguous b' -> shapes h -> relaid b b' h h.
Proof.
  intros E Hs.
  assert (S : forall A (v v' : list A), same_sphere b b' (s_nlat h) (s_nphi h) v v' -> v = v').
  { intros A v v' (L & L' & H). apply (same_sphere_eq b (s_nlat h) (s_nphi h)). split; auto. split; auto. intros it ip Ht Hp. rewrite H by auto. unfold pos. now rewrite E. }
  assert (T : forall A (v : list A), length v = s_nlat h * s_nphi h -> same_sphere b b' (s_nlat h) (s_nphi h) v v).
  { intros A v L. split; auto. split; auto. intros. unfold pos. now rewrite E. }
  split; auto.
  - intros v v' H. now rewrite (S _ _ _ H).
  - intros c Hc. apply T. rewrite (sh_sy h Hs c Hc). apply (sh_nspat h Hs).
  - intros v v' H. now rewrite (S _ _ _ H).
  - intros c Hc. apply T. rewrite (sh_syc h Hs c Hc). apply (sh_nspat h Hs).
Qed.
(** position in b's order of what b' stores at position k *)
Definition from (b' b : build) (n m k : nat) : nat := if contiguous b' then pos b n m (k mod n) (k / n) else pos b n m (k / m) (k mod m).
Definition relay {A} (b b' : build) (n m : nat) (z : A) (v : list A) : list A := map (fun k => nth (from b' b n m k) v z) (seq 0 (n * m)).
Lemma from_pos b b' n m it ip : it < n -> ip < m -> from b' b n m (pos b' n m it ip) = pos b n m it ip.
Proof.
  intros Ht Hp. unfold from. destruct (contiguous b') eqn:E.
  - assert (Q : pos b' n m it ip = ip * n + it) by (unfold pos; rewrite E; lia). rewrite Q. f_equal.
    + rewrite Nat.add_comm, Nat.mod_add by lia. now apply Nat.mod_small.
    + rewrite Nat.div_add_l by lia. rewrite Nat.div_small by lia. lia.
  - assert (Q : pos b' n m it ip = it * m + ip) by (unfold pos; rewrite E; lia). rewrite Q. f_equal.
    + rewrite Nat.div_add_l by lia. rewrite Nat.div_small by lia. lia.
    + rewrite Nat.add_comm, Nat.mod_add by lia. now apply Nat.mod_small.
Qed.
Lemma pos_bound b n m it ip : it < n -> ip < m -> pos b n m it ip < n * m.
Proof. intros. unfold pos. destruct (contiguous b); nia. Qed.
Lemma relay_same {A} b b' n m (z : A) v : length v = n * m -> same_sphere b b' n m v (relay b b' n m z v).
Proof.
  intros L. unfold relay. split; auto. split; [now rewrite map_length, seq_length|]. intros it ip Ht Hp.
  pose proof (pos_bound b n m it ip Ht Hp). pose proof (pos_bound b' n m it ip Ht Hp).
  rewrite nth_error_map_seq by auto. rewrite from_pos by auto. apply nth_error_nth'. lia.
Qed.
Lemma same_sphere_sym {A} b b' n m (v v' : list A) : same_sphere b b' n m v v' -> same_sphere b' b n m v' v.
Proof. intros (L & L' & H). split; auto. split; auto. intros. symmetry. auto. Qed.
Lemma relay_back {A} b b' n m (z : A) v v' : same_sphere b b' n m v v' -> relay b' b n m z v' = v.
Proof.
  intros Hv. pose proof Hv as (L & L' & H). pose proof (relay_same b' b n m z v' L') as (_ & L2 & K).
  apply (same_sphere_eq b n m). split; auto. split; auto. intros it ip Ht Hp. now rewrite <- K, H.
Qed.
Definition relay_lib (b b' : build) (h : sht F) : sht F :=
  Sht (s_lmax h) (s_mmax h) (s_nlat h) (s_nphi h) (s_nspat h) (s_ct h)
    (fun v => s_an h (relay b' b (s_nlat h) (s_nphi h) f0 v)) (fun c => relay b b' (s_nlat h) (s_nphi h) f0 (s_sy h c))
    (fun v => s_anc h (relay b' b (s_nlat h) (s_nphi h) c0 v)) (fun c => relay b b' (s_nlat h) (s_nphi h) c0 (s_syc h c)).
(** every configuration of the library has a counterpart in the other order *)
Theorem C95_library_exists (b b' : build) (h : sht F) : shapes h -> exists h', shapes h' /\ relaid b b' h h'.
Proof.
  intros Hs. exists (relay_lib b b' h). pose proof (sh_nspat h Hs) as N. split.
  - split; cbn; try apply Hs; intros; unfold relay in *.
    + apply Hs. rewrite map_length, seq_length. auto.
    + rewrite map_length, seq_length. auto.
    + apply Hs. rewrite map_length, seq_length. auto.
    + rewrite map_length, seq_length. auto.
  - split; cbn; auto; intros.
    + now rewrite (relay_back b b' _ _ f0 v v').
    + apply relay_same. rewrite (sh_sy h Hs c) by auto. auto.
    + now rewrite (relay_back b b' _ _ c0 v v').
    + apply relay_same. rewrite (sh_syc h Hs c) by auto. auto.
Qed.
End Relay.

(** ** the whole program *)
Section Run.
Context {F : Type} {AF : Arith F}.
Variable fmt : F -> text.
Variable stod_ : text -> option F.

Lemma make_same b b' file par : Params_make (F := F) stod_ b file = Ok par -> Params_make stod_ b' file = Ok par.
Proof.
  destruct file as [s|]; [intros H; exact H|]. unfold Params_make. cbn [p_read]. destruct (ndebug b); discriminate.
Qed.

Definition res_fields (st : mstate F) : list F * list F * list F * list F := (fl_n (ms_f st), fl_np1 (ms_f st), fl_n (ms_p st), fl_np1 (ms_p st)).
(** what two runs have in common *)
Definition same_run (b b' : build) (par : params F) (st st' : mstate F) : Prop :=
  ms_fs st = ms_fs st' /\ ms_save st = ms_save st' /\
  same_field b b' (pr_nx par) (pr_nlat par) (pr_nphi par) (fl_n (ms_f st)) (fl_n (ms_f st')) /\
  same_field b b' (pr_nx par) (pr_nlat par) (pr_nphi par) (fl_np1 (ms_f st)) (fl_np1 (ms_f st')) /\
  same_field b b' (pr_nx par) (pr_nlat par) (pr_nphi par) (fl_n (ms_p st)) (fl_n (ms_p st')) /\
  same_field b b' (pr_nx par) (pr_nlat par) (pr_nphi par) (fl_np1 (ms_p st)) (fl_np1 (ms_p st')) /\
  map (fun x => fst (fst x)) (ms_log st) = map (fun x => fst (fst x)) (ms_log st').

Lemma same_field_const b b' n m k (z : F) : same_field b b' n m k (vec (n * m * k) z) (vec (n * m * k) z).
Proof.
  split; [apply vec_length|]. split; [apply vec_length|]. intros ix it ip H1 H2 H3.
  assert (Q : forall c, m * k * ix + pos c m k it ip < n * m * k).
  { intros c. pose proof (pos_bound c m k it ip H2 H3). assert (m * k * ix + m * k <= n * m * k) by nia. lia. }
  assert (G : forall i, i < n * m * k -> nth_error (vec (n * m * k) z) i = Some z) by (intros i Hi; unfold vec; now apply nth_error_repeat).
  now rewrite !G.
Qed.

Lemma run_inv sch_res sch_tv b lib par file dir fs : Params_make stod_ b file = Ok par -> runnable sch_res sch_tv b lib par -> 1 <= pr_t_step_save par ->
  exists g e u0 st, set_up b lib par g e u0 /\ main fmt stod_ sch_res sch_tv b lib file dir fs = Ok st /\
    grid_of b (lib (pr_nl par) (pr_nm par) (pr_nlat par) (pr_nphi par)) (pr_cl par) (pr_Rmin par) (pr_Rmax par) (pr_nx par) g /\
    inv fmt sch_res sch_tv g par dir e u0 fs (pr_nt par - 1) st.
Proof.
  intros HP Hr Hs. destruct (run_init fmt stod_ sch_res sch_tv b lib par file dir fs HP Hr) as (g & e & u0 & st0 & SU & EI & Hg & Oe & N3 & Nx & L1 & L2 & I0).
  pose proof Hr as (Q1 & Q2 & Q3 & Q4 & Hsh & HL & Hla & Hph & H8 & H2 & Hlm & Dr & Dt).
  unfold main. rewrite EI. cbn [bind]. destruct (Nat.eq_dec (pr_nt par) 0) as [Z|Z].
  - rewrite Z, for_nil by lia. exists g, e, u0, st0. auto.
  - destruct (loop_ok fmt sch_res sch_tv b _ _ _ _ _ g Hg Hsh ltac:(rewrite Q1; auto) H8 H2 ltac:(lia) ltac:(lia) par Hs ltac:(rewrite N3; auto) ltac:(rewrite Nx; auto) dir e Oe u0 fs st0 I0 (pr_nt par) ltac:(lia)) as (st & E & I).
    exists g, e, u0, st. auto.
Qed.

Variables (sch_res sch_tv sch_res' sch_tv' : nat -> list (list nat)).
Variables (b b' : build) (lib lib' : nat -> nat -> nat -> nat -> sht F).

Theorem C95_same_results par file dir fs :
  Params_make stod_ b file = Ok par -> use_cheb b = use_cheb b' ->
  runnable sch_res sch_tv b lib par -> runnable sch_res' sch_tv' b' lib' par ->
  relaid b b' (lib (pr_nl par) (pr_nm par) (pr_nlat par) (pr_nphi par)) (lib' (pr_nl par) (pr_nm par) (pr_nlat par) (pr_nphi par)) ->
  1 <= pr_t_step_save par ->
  exists st st', main fmt stod_ sch_res sch_tv b lib file dir fs = Ok st /\ main fmt stod_ sch_res' sch_tv' b' lib' file dir fs = Ok st' /\
    same_run b b' par st st'.
Proof.
  intros HP Hc Hr Hr' Hrl Hs.
  destruct (run_inv sch_res sch_tv b lib par file dir fs HP Hr Hs) as (g & e & u0 & st & (S1 & S2 & S3) & E & Hg & I).
  destruct (run_inv sch_res' sch_tv' b' lib' par file dir fs (make_same b b' file par HP) Hr' Hs) as (g' & e' & u0' & st' & (S1' & S2' & S3') & E' & Hg' & I').
  pose proof Hr as (Q1 & Q2 & Q3 & Q4 & Hsh & HL & Hla & Hph & H8 & H2 & Hlm & _).
  pose proof Hr' as (_ & _ & _ & _ & Hsh' & _).
  set (h := lib (pr_nl par) (pr_nm par) (pr_nlat par) (pr_nphi par)) in *. set (h' := lib' (pr_nl par) (pr_nm par) (pr_nlat par) (pr_nphi par)) in *.
  assert (HLh : (Z.of_nat (s_lmax h) < 2 ^ 31)%Z) by (rewrite Q1; auto).
  assert (Hlm' : LM (s_lmax h) (to_size (pr_l_ang par)) (to_size (pr_m_ang par)) < nlm_calc (s_lmax h) (s_mmax h)) by (rewrite Q1, Q2; auto).
  assert (H0 : same2 b b' h (pr_nx par) u0 u0').
  { eapply (pulse_same b b' h h' _ _ _ (pr_nx par) g g' Hg Hg' Hsh Hsh' Hrl Hc H8 H2 par Hlm'); [| |exact S3|exact S3'];
      rewrite Q3, Q4; apply same_field_const. }
  exists st, st'. split; auto. split; auto.
  destruct I as (_ & _ & _ & _ & In & Inp & _ & Isv & Ifs & Ill & Ilog). destruct I' as (_ & _ & _ & _ & In' & Inp' & _ & Isv' & Ifs' & Ill' & Ilog').
  pose proof (U_same b b' h h' _ _ _ (pr_nx par) g g' Hg Hg' Hsh Hsh' Hrl Hc HLh H8 H2 par e e' S2 S2' u0 u0' (pr_nt par - 1) H0) as [HU1 HU2].
  rewrite <- In, <- In' in HU1, HU2. pose proof Inp as Inp2. pose proof Inp' as Inp2'. rewrite <- In in Inp2. rewrite <- In' in Inp2'.
  injection Inp2 as P1 P2. injection Inp2' as P1' P2'. cbn [fst snd] in HU1, HU2. rewrite Q3, Q4 in HU1, HU2.
  split; [|split; [|split; [|split; [|split; [|split]]]]].
  - rewrite Ifs, Ifs'. apply (saves_same b b' h h' _ _ _ (pr_nx par) g g' Hg Hg' Hsh Hsh' Hrl Hc HLh H8 H2 par e e' S2 S2' Hlm' fmt). exact H0.
  - congruence.
  - exact HU1.
  - rewrite P1, P1'. exact HU1.
  - exact HU2.
  - rewrite P2, P2'. exact HU2.
  - apply (list_ext _ _ (S ((pr_nt par - 1) / pr_t_step_save par))); rewrite ?map_length; auto. intros i Hi. rewrite !nth_error_map.
    destruct (nth_error_ex (ms_log st) i) as (x & X); [lia|]. destruct (nth_error_ex (ms_log st') i) as (x' & X'); [lia|].
    rewrite X, X'. cbn [option_map]. destruct (Ilog i x X) as (T & _). destruct (Ilog' i x' X') as (T' & _). now rewrite T, T'.
Qed.
End Run.

Section Cor.
Context {F : Type} {AF : Arith F}.
Variable fmt : F -> text.
Variable stod_ : text -> option F.
Variables (sch_res sch_tv : nat -> list (list nat)) (lib : nat -> nat -> nat -> nat -> sht F).
(** threads: any two schedules, same executable *)
Theorem C95_schedule_independent sch_res' sch_tv' b par file dir fs : Params_make stod_ b file = Ok par ->
  runnable sch_res sch_tv b lib par -> runnable sch_res' sch_tv' b lib par -> 1 <= pr_t_step_save par ->
  exists st st', main fmt stod_ sch_res sch_tv b lib file dir fs = Ok st /\ main fmt stod_ sch_res' sch_tv' b lib file dir fs = Ok st' /\
    ms_fs st = ms_fs st' /\ res_fields st = res_fields st'.
Proof.
  intros HP Hr Hr' Hs. pose proof Hr as (_ & _ & _ & _ & Hsh & _).
  destruct (C95_same_results fmt stod_ sch_res sch_tv sch_res' sch_tv' b b lib lib par file dir fs HP eq_refl Hr Hr' (relaid_refl b b _ eq_refl Hsh) Hs)
    as (st & st' & E & E' & A & _ & B1 & B2 & B3 & B4 & _).
  exists st, st'. split; auto. split; auto. split; auto.
  assert (S : forall v v' : list F, same_field b b (pr_nx par) (pr_nlat par) (pr_nphi par) v v' -> v = v').
  { intros v v' (L & L' & H). apply (list_ext _ _ (pr_nx par * pr_nlat par * pr_nphi par)); auto. intros i Hi.
    destruct (ix_R_th_ph_surj b _ _ _ _ Hi) as (ix & it & ip & X1 & X2 & X3 & <-). rewrite ix_R_th_ph_eq. apply H; auto. }
  unfold res_fields. rewrite (S _ _ B1), (S _ _ B2), (S _ _ B3), (S _ _ B4). reflexivity.
Qed.
(** assertions: a release build computes what the debug build computes *)
Theorem C95_assertions_irrelevant c k par file dir fs : Params_make stod_ (Build c k false) file = Ok par ->
  runnable sch_res sch_tv (Build c k false) lib par -> 1 <= pr_t_step_save par ->
  exists st st', main fmt stod_ sch_res sch_tv (Build c k false) lib file dir fs = Ok st /\
    main fmt stod_ sch_res sch_tv (Build c k true) lib file dir fs = Ok st' /\
    ms_fs st = ms_fs st' /\ res_fields st = res_fields st'.
Proof.
  intros HP Hr Hs. pose proof Hr as (_ & _ & _ & _ & Hsh & _).
  assert (Hr' : runnable sch_res sch_tv (Build c k true) lib par) by exact Hr.
  destruct (C95_same_results fmt stod_ sch_res sch_tv sch_res sch_tv (Build c k false) (Build c k true) lib lib par file dir fs HP eq_refl Hr Hr'
     (relaid_refl (Build c k false) (Build c k true) _ eq_refl Hsh) Hs)
    as (st & st' & E & E' & A & _ & B1 & B2 & B3 & B4 & _).
  exists st, st'. split; auto. split; auto. split; auto.
  assert (S : forall v v' : list F, same_field (Build c k false) (Build c k true) (pr_nx par) (pr_nlat par) (pr_nphi par) v v' -> v = v').
  { intros v v' (L & L' & H). apply (list_ext _ _ (pr_nx par * pr_nlat par * pr_nphi par)); auto. intros i Hi.
    destruct (ix_R_th_ph_surj (Build c k false) _ _ _ _ Hi) as (ix & it & ip & X1 & X2 & X3 & <-). rewrite ix_R_th_ph_eq. apply H; auto. }
  unfold res_fields. rewrite (S _ _ B1), (S _ _ B2), (S _ _ B3), (S _ _ B4). reflexivity.
Qed.
(** storage order: the build with theta running fastest and the one with phi running fastest *)
Theorem C95_storage_order c nd nd' par file dir fs : Params_make stod_ (Build c true nd) file = Ok par ->
  runnable sch_res sch_tv (Build c true nd) lib par -> 1 <= pr_t_step_save par ->
  exists lib', relaid (Build c true nd) (Build c false nd') (lib (pr_nl par) (pr_nm par) (pr_nlat par) (pr_nphi par)) (lib' (pr_nl par) (pr_nm par) (pr_nlat par) (pr_nphi par)) /\
    runnable sch_res sch_tv (Build c false nd') lib' par /\
  exists st st', main fmt stod_ sch_res sch_tv (Build c true nd) lib file dir fs = Ok st /\
    main fmt stod_ sch_res sch_tv (Build c false nd') lib' file dir fs = Ok st' /\
    same_run (Build c true nd) (Build c false nd') par st st'.
Proof.
  intros HP Hr Hs. pose proof Hr as (Q1 & Q2 & Q3 & Q4 & Hsh & Hrest).
  destruct (C95_library_exists (Build c true nd) (Build c false nd') _ Hsh) as (h' & Hsh' & Hrl).
  exists (fun _ _ _ _ => h'). cbv beta. split; [exact Hrl|].
  assert (Hr' : runnable sch_res sch_tv (Build c false nd') (fun _ _ _ _ => h') par).
  { pose proof (rl_lmax _ _ _ _ Hrl). pose proof (rl_mmax _ _ _ _ Hrl). pose proof (rl_nlat _ _ _ _ Hrl). pose proof (rl_nphi _ _ _ _ Hrl).
    unfold runnable. cbv zeta. split; [congruence|]. split; [congruence|]. split; [congruence|]. split; [congruence|]. split; auto. }
  split; auto. apply C95_same_results; auto.
Qed.
End Cor.
