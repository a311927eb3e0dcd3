(** * C25, C27: the two diagnostics computed with OpenMP reductions.
    [deals sched n] (PRed.v): the lists in [sched] are the iterations of the threads, in the order in
    which the private sums are combined; together they contain each of 0..n-1 exactly once. *)
From Coq Require Import Reals Lra Permutation SpecFloat.
From Verif Require Import Base BaseLemmas ForList Arith MFd MCheb MSphere MGrid PGrid Spec PSum PMake PTables PRed.
Local Open Scope R_scope.

Section C25.
(** ** C25: exact arithmetic does not see the schedule *)
Theorem C25_norm_indep_res_exact (g : grid R) s1 s2 dt f_n f_np1 p :
  length f_n = g_n3 g -> length f_np1 = g_n3 g -> length p = g_n3 g ->
  deals s1 (g_n3 g) -> deals s2 (g_n3 g) ->
  norm_indep_res g s1 dt f_n f_np1 p = norm_indep_res g s2 dt f_n f_np1 p.
Proof. intros. rewrite !nir_closed by auto. reflexivity. Qed.
Theorem C25_total_variation_exact (g : grid R) s1 s2 v :
  length v = g_n3 g -> (1 <= g_nlat g)%nat -> (1 <= g_nphi g)%nat ->
  deals s1 (g_nx g - 1) -> deals s2 (g_nx g - 1) ->
  total_variation g s1 v = total_variation g s2 v.
Proof. intros. rewrite !tv_closed by auto. reflexivity. Qed.
End C25.

(** ** C25: double precision does.
    The libm functions other than + - * / sqrt are arbitrary; the grid object is a real one. *)
Definition big (k : Z) : spec_float := sf_ofZ k.
Definition w_p : list spec_float := big (2 ^ 27) :: repeat (big 1) 27.
Definition w_v (nx : nat) (l : list Z) : list spec_float := flat_map (fun z => repeat (big z) 4) l.

Section B64.
Variables (lexp llog lcos lsin lacos : spec_float -> spec_float) (lpi : spec_float).
Local Instance b64i : Arith spec_float := b64 lexp llog lcos lsin lacos lpi.

Definition one_sht : sht spec_float :=
  Sht 1 1 2 2 4 [sf_ofZ 0; sf_ofZ 1] (fun _ => repeat (sf_ofZ 0, sf_ofZ 0) 3) (fun _ => repeat (sf_ofZ 0) 4)
    (fun _ => repeat (sf_ofZ 0, sf_ofZ 0) 4) (fun _ => repeat (sf_ofZ 0, sf_ofZ 0) 4).
Definition w_z : list spec_float := repeat (sf_ofZ 0) 28.
Definition s_serial (n : nat) : list (list nat) := [seq 0 n].
Definition s_two (n : nat) : list (list nat) := [[0]; seq 1 (n - 1)]%nat.

Lemma deals_two n : (1 <= n)%nat -> deals (s_two n) n.
Proof.
  intros H. unfold deals, s_two. cbn. rewrite app_nil_r. destruct n; [lia|]. cbn [Nat.sub seq]. rewrite Nat.sub_0_r. apply Permutation_refl.
Qed.
(** the residual of 28 points: 2^54 and 27 ones *)
Lemma nir_values : 
  reduce (nir_step (sf_ofZ 1) w_z w_z w_p) (s_serial 28) f0 = Ok (sf_ofZ (2 ^ 54)) /\
  reduce (nir_step (sf_ofZ 1) w_z w_z w_p) (s_two 28) f0 = Ok (sf_ofZ (2 ^ 54 + 28)).
Proof. split; vm_compute; reflexivity. Qed.
Lemma nir_differ : 
  SFsqrt 53 1024 (SFdiv 53 1024 (sf_ofZ (2 ^ 54)) (sf_ofZ 28)) <> SFsqrt 53 1024 (SFdiv 53 1024 (sf_ofZ (2 ^ 54 + 28)) (sf_ofZ 28)).
Proof. vm_compute. discriminate. Qed.

Theorem C25_norm_indep_res_schedule_dependent_in_double : exists (g : grid spec_float) s1 s2 dt f_n f_np1 p r1 r2,
  Grid_make (Build false true false) one_sht (sf_ofZ 100) (sf_ofZ 2) (sf_ofZ 100) 7 1 1 2 2 = Ok g /\
  g_n3 g = 28%nat /\ length f_n = 28%nat /\ length f_np1 = 28%nat /\ length p = 28%nat /\
  deals s1 28 /\ deals s2 28 /\
  norm_indep_res g s1 dt f_n f_np1 p = Ok r1 /\ norm_indep_res g s2 dt f_n f_np1 p = Ok r2 /\ SFltb r1 r2 = true.
Proof.
  destruct (Grid_make_ok (Build false true false) one_sht (sf_ofZ 100) (sf_ofZ 2) (sf_ofZ 100) 7 1 1 2 2) as (g & Hg); [cbn; lia|discriminate|].
  pose proof (Grid_make_tables _ _ _ _ _ _ _ _ _ _ _ Hg) as T.
  assert (Eb : g_bld g = Build false true false) by apply T.
  assert (E3 : g_n3 g = 28%nat). { unfold g_n3. replace (g_nx g) with 7%nat by (symmetry; apply T). replace (g_nlat g) with 2%nat by (symmetry; apply T). replace (g_nphi g) with 2%nat by (symmetry; apply T). reflexivity. }
  exists g, (s_serial 28), (s_two 28), (sf_ofZ 1), w_z, w_z, w_p. do 2 eexists.
  split; [exact Hg|]. split; [exact E3|]. do 3 (split; [reflexivity|]). split; [apply deals_serial|]. split; [apply deals_two; lia|].
  unfold norm_indep_res. rewrite E3, Eb.
  replace (assert_ (Build false true false) (length w_z =? 28)) with (Ok tt) by reflexivity.
  replace (assert_ (Build false true false) (length w_p =? 28)) with (Ok tt) by reflexivity. cbn [bind].
  rewrite (proj1 nir_values), (proj2 nir_values). cbn [bind].
  split; [reflexivity|]. split; [reflexivity|]. vm_compute. reflexivity.
Qed.

(** a radial profile with one huge jump: 2^54+8, then 8, 7, ..., 0 *)
Definition w_tv : list spec_float := flat_map (fun z => repeat (sf_ofZ z) 4) [2 ^ 54 + 8; 8; 7; 6; 5; 4; 3; 2; 1; 0]%Z.
Theorem C25_total_variation_schedule_dependent_in_double : exists (g : grid spec_float) s1 s2 v r1 r2,
  Grid_make (Build false true false) one_sht (sf_ofZ 100) (sf_ofZ 2) (sf_ofZ 100) 10 1 1 2 2 = Ok g /\
  g_nx g = 10%nat /\ length v = g_n3 g /\ deals s1 9 /\ deals s2 9 /\
  total_variation g s1 v = Ok r1 /\ total_variation g s2 v = Ok r2 /\ SFltb r1 r2 = true.
Proof.
  destruct (Grid_make_ok (Build false true false) one_sht (sf_ofZ 100) (sf_ofZ 2) (sf_ofZ 100) 10 1 1 2 2) as (g & Hg); [cbn; lia|discriminate|].
  pose proof (Grid_make_tables _ _ _ _ _ _ _ _ _ _ _ Hg) as T.
  assert (Eb : g_bld g = Build false true false) by apply T.
  assert (Ex : g_nx g = 10%nat) by apply T. assert (El : g_nlat g = 2%nat) by apply T. assert (Ep : g_nphi g = 2%nat) by apply T.
  assert (E3 : g_n3 g = 40%nat) by (unfold g_n3; rewrite Ex, El, Ep; reflexivity).
  exists g, (s_serial 9), (s_two 9), w_tv. do 2 eexists.
  split; [exact Hg|]. split; [exact Ex|]. split; [rewrite E3; reflexivity|]. split; [apply deals_serial|]. split; [apply deals_two; lia|].
  unfold total_variation, tv_step, indx_R_th_ph. rewrite E3, Eb, El, Ep.
  replace (assert_ (Build false true false) (length w_tv =? 40)) with (Ok tt) by reflexivity. cbn [bind].
  match goal with |- bind ?a _ = _ /\ _ => let r := eval vm_compute in a in assert (R1 : a = r) by (vm_compute; reflexivity) end.
  rewrite R1. clear R1.
  match goal with |- _ /\ bind ?a _ = _ /\ _ => let r := eval vm_compute in a in assert (R1 : a = r) by (vm_compute; reflexivity) end.
  rewrite R1. clear R1. cbn [bind].
  split; [reflexivity|]. split; [reflexivity|]. vm_compute. reflexivity.
Qed.
End B64.

(** ** C27 *)
Theorem C27_norm_indep_res_is_rms (g : grid R) sched dt f_n f_np1 p :
  length f_n = g_n3 g -> length f_np1 = g_n3 g -> length p = g_n3 g -> deals sched (g_n3 g) ->
  (1 <= g_n3 g)%nat -> dt <> 0 ->
  exists r, norm_indep_res g sched dt f_n f_np1 p = Ok r /\ 0 <= r /\
    r ^ 2 = Rsum (g_n3 g) (fun i => (nth i p 0 - (nth i f_np1 0 - nth i f_n 0) / dt) ^ 2) / INR (g_n3 g) /\
    (r = 0 <-> forall i, (i < g_n3 g)%nat -> nth i f_np1 0 = nth i f_n 0 + dt * nth i p 0).
Proof.
  intros L1 L2 L3 D Hn Hdt. rewrite nir_closed by auto. eexists. split; [reflexivity|].
  set (S := res_sum (g_n3 g) dt f_n f_np1 p).
  assert (S0 : 0 <= S) by (apply Rsum_nonneg; intros; apply pow2_ge_0).
  assert (N0 : 0 < INR (g_n3 g)) by (apply lt_0_INR; lia).
  assert (Q0 : 0 <= S / INR (g_n3 g)) by (apply Rmult_le_pos; auto; left; now apply Rinv_0_lt_compat).
  split; [apply sqrt_pos|]. split; [now apply pow2_sqrt|]. split.
  - intros Hz i Hi. apply sqrt_eq_0 in Hz; auto.
    assert (Z : S = 0). { apply (Rmult_eq_reg_r (/ INR (g_n3 g))); [rewrite Rmult_0_l; exact Hz|]. apply Rinv_neq_0_compat; lra. }
    pose proof (Rsum_nonneg_zero _ _ (fun i _ => pow2_ge_0 _) Z i Hi) as K. cbv beta in K.
    assert (K' : nth i p 0 - (nth i f_np1 0 - nth i f_n 0) / dt = 0) by (destruct (Req_dec (nth i p 0 - (nth i f_np1 0 - nth i f_n 0) / dt) 0); auto; exfalso; apply (pow_nonzero _ 2) in H; auto).
    assert (nth i p 0 = (nth i f_np1 0 - nth i f_n 0) / dt) as -> by lra. field. exact Hdt.
  - intros H. unfold S, res_sum. rewrite Rsum_zero.
    + unfold Rdiv. rewrite Rmult_0_l. apply sqrt_0.
    + intros i Hi. rewrite (H i Hi). replace (nth i p 0 - (nth i f_n 0 + dt * nth i p 0 - nth i f_n 0) / dt) with 0 by (field; auto). ring.
Qed.

(** the points the code looks at: at most one index is the largest one *)
Definition seen (g : grid R) (ix it ip : nat) : Prop :=
  (ix < g_nx g /\ it < g_nlat g /\ ip < g_nphi g)%nat /\
  ((ix + 1 < g_nx g /\ it + 1 < g_nlat g) \/ (ix + 1 < g_nx g /\ ip + 1 < g_nphi g) \/ (it + 1 < g_nlat g /\ ip + 1 < g_nphi g))%nat.

Lemma tv_ext g v w : (forall ix it ip, seen g ix it ip -> at3 g v ix it ip = at3 g w ix it ip) -> tv_sum g v = tv_sum g w.
Proof.
  intros H. unfold tv_sum. apply Rsum_ext. intros ix Hx. apply Rsum_ext. intros it Ht. apply Rsum_ext. intros ip Hp.
  unfold tv_term. rewrite !H by (unfold seen; lia). reflexivity.
Qed.
Lemma tv_term_nonneg g v ix it ip : 0 <= tv_term g v ix it ip.
Proof. apply sqrt_pos. Qed.
Lemma tv_sum_nonneg g v : 0 <= tv_sum g v.
Proof. unfold tv_sum. apply Rsum_nonneg; intros. apply Rsum_nonneg; intros. apply Rsum_nonneg; intros. apply tv_term_nonneg. Qed.
Lemma sum3_sq_0 a b c : a ^ 2 + b ^ 2 + c ^ 2 = 0 -> a = 0 /\ b = 0 /\ c = 0.
Proof.
  intros H. pose proof (pow2_ge_0 a). pose proof (pow2_ge_0 b). pose proof (pow2_ge_0 c).
  repeat split; apply Rsqr_0_uniq; unfold Rsqr; lra.
Qed.
Lemma tv_zero g v : tv_sum g v = 0 -> forall ix it ip, (ix + 1 < g_nx g)%nat -> (it + 1 < g_nlat g)%nat -> (ip + 1 < g_nphi g)%nat ->
  at3 g v (ix + 1) it ip = at3 g v ix it ip /\ at3 g v ix (it + 1) ip = at3 g v ix it ip /\ at3 g v ix it (ip + 1) = at3 g v ix it ip.
Proof.
  intros H ix it ip Hx Ht Hp. unfold tv_sum in H.
  pose proof (Rsum_nonneg_zero _ _ (fun i _ => Rsum_nonneg _ _ (fun j _ => Rsum_nonneg _ _ (fun k _ => tv_term_nonneg g v i j k))) H ix ltac:(lia)) as H1. cbv beta in H1.
  pose proof (Rsum_nonneg_zero _ _ (fun j _ => Rsum_nonneg _ _ (fun k _ => tv_term_nonneg g v ix j k)) H1 it ltac:(lia)) as H2. cbv beta in H2.
  pose proof (Rsum_nonneg_zero _ _ (fun k _ => tv_term_nonneg g v ix it k) H2 ip ltac:(lia)) as H3. cbv beta in H3.
  unfold tv_term in H3. apply sqrt_eq_0 in H3.
  - apply sum3_sq_0 in H3. lra.
  - pose proof (pow2_ge_0 (at3 g v (ix + 1) it ip - at3 g v ix it ip)). pose proof (pow2_ge_0 (at3 g v ix (it + 1) ip - at3 g v ix it ip)).
    pose proof (pow2_ge_0 (at3 g v ix it (ip + 1) - at3 g v ix it ip)). lra.
Qed.
Lemma at_origin g v : tv_sum g v = 0 -> forall n ix it ip, (ix + it + ip = n)%nat ->
  (ix + 1 < g_nx g)%nat -> (it + 1 < g_nlat g)%nat -> (ip + 1 < g_nphi g)%nat -> at3 g v ix it ip = at3 g v 0 0 0.
Proof.
  intros H n. induction n as [|n IH]; intros ix it ip E Hx Ht Hp.
  - now replace ix with 0%nat by lia; replace it with 0%nat by lia; replace ip with 0%nat by lia.
  - destruct ix as [|ix].
    + destruct it as [|it].
      * destruct ip as [|ip]; [lia|]. destruct (tv_zero g v H 0 0 ip) as (_ & _ & K); try lia.
        replace (ip + 1)%nat with (S ip) in K by lia. rewrite K. apply IH; lia.
      * destruct (tv_zero g v H 0 it ip) as (_ & K & _); try lia. replace (it + 1)%nat with (S it) in K by lia. rewrite K. apply IH; lia.
    + destruct (tv_zero g v H ix it ip) as (K & _ & _); try lia. replace (ix + 1)%nat with (S ix) in K by lia. rewrite K. apply IH; lia.
Qed.
Lemma at_seen g v : (2 <= g_nx g)%nat -> (2 <= g_nlat g)%nat -> (2 <= g_nphi g)%nat ->
  tv_sum g v = 0 -> forall ix it ip, seen g ix it ip -> at3 g v ix it ip = at3 g v 0 0 0.
Proof.
  intros N1 N2 N3 H ix it ip ((Hx & Ht & Hp) & K).
  destruct (Nat.lt_ge_cases (ix + 1) (g_nx g)), (Nat.lt_ge_cases (it + 1) (g_nlat g)), (Nat.lt_ge_cases (ip + 1) (g_nphi g)); try lia.
  - eapply at_origin; eauto; lia.
  - destruct ip as [|j]; [lia|]. destruct (tv_zero g v H ix it j) as (_ & _ & E); try lia.
    replace (j + 1)%nat with (S j) in E by lia. rewrite E. eapply at_origin; eauto; lia.
  - destruct it as [|j]; [lia|]. destruct (tv_zero g v H ix j ip) as (_ & E & _); try lia.
    replace (j + 1)%nat with (S j) in E by lia. rewrite E. eapply at_origin; eauto; lia.
  - destruct ix as [|j]; [lia|]. destruct (tv_zero g v H j it ip) as (E & _ & _); try lia.
    replace (j + 1)%nat with (S j) in E by lia. rewrite E. eapply at_origin; eauto; lia.
Qed.

Section C27.
Variables (g : grid R) (sched : list (list nat)).
Hypothesis (N1 : (2 <= g_nx g)%nat) (N2 : (2 <= g_nlat g)%nat) (N3 : (2 <= g_nphi g)%nat) (D : deals sched (g_nx g - 1)).

Lemma n3_pos : 0 < INR (g_n3 g).
Proof. apply lt_0_INR. unfold g_n3. apply Nat.mul_pos_pos; [apply Nat.mul_pos_pos|]; lia. Qed.
Lemma tv_ok v : length v = g_n3 g -> total_variation g sched v = Ok (tv_sum g v / INR (g_n3 g)).
Proof. intros L. apply tv_closed; auto; lia. Qed.

(** never negative; zero exactly when the data are constant on the points the code looks at *)
Theorem C27_total_variation_zero v : length v = g_n3 g ->
  exists tv, total_variation g sched v = Ok tv /\ 0 <= tv /\
    (tv = 0 <-> exists c, forall ix it ip, seen g ix it ip -> at3 g v ix it ip = c).
Proof.
  intros L. rewrite tv_ok by auto. eexists. split; [reflexivity|]. pose proof n3_pos as NP. pose proof (tv_sum_nonneg g v) as TN.
  split; [apply Rmult_le_pos; auto; left; now apply Rinv_0_lt_compat|]. split.
  - intros H. exists (at3 g v 0 0 0). apply at_seen; auto.
    apply (Rmult_eq_reg_r (/ INR (g_n3 g))); [rewrite Rmult_0_l; exact H|]. apply Rinv_neq_0_compat; lra.
  - intros (c & H). assert (tv_sum g v = 0) as ->; [|unfold Rdiv; ring].
    unfold tv_sum. apply Rsum_zero; intros ix Hx. apply Rsum_zero; intros it Ht. apply Rsum_zero; intros ip Hp.
    unfold tv_term. rewrite !H by (unfold seen; lia). replace ((c - c) ^ 2 + (c - c) ^ 2 + (c - c) ^ 2) with 0 by ring. apply sqrt_0.
Qed.
(** constants have none *)
Theorem C27_total_variation_const c : total_variation g sched (repeat c (g_n3 g)) = Ok 0.
Proof.
  destruct (C27_total_variation_zero (repeat c (g_n3 g)) (repeat_length _ _)) as (tv & E & _ & H). rewrite E. f_equal. apply H.
  exists c. intros ix it ip ((Hx & Ht & Hp) & _). unfold at3. pose proof (ix_R_th_ph_lt (g_bld g) (g_nx g) (g_nlat g) (g_nphi g) ix it ip Hx Ht Hp) as K.
  apply nth_vec. exact K.
Qed.
(** unchanged by adding a constant, scales with |c| *)
Theorem C27_total_variation_affine v c d : length v = g_n3 g ->
  exists tv, total_variation g sched v = Ok tv /\ total_variation g sched (map (fun x => c * x + d) v) = Ok (Rabs c * tv).
Proof.
  intros L. rewrite !tv_ok by (rewrite ?map_length; auto). eexists. split; [reflexivity|]. f_equal.
  assert (E : tv_sum g (map (fun x => c * x + d) v) = Rabs c * tv_sum g v); [|rewrite E; unfold Rdiv; ring].
  unfold tv_sum. rewrite <- Rsum_scal. apply Rsum_ext; intros ix Hx. rewrite <- Rsum_scal. apply Rsum_ext; intros it Ht.
  rewrite <- Rsum_scal. apply Rsum_ext; intros ip Hp.
  assert (A : forall ix it ip, (ix < g_nx g)%nat -> (it < g_nlat g)%nat -> (ip < g_nphi g)%nat ->
     at3 g (map (fun x => c * x + d) v) ix it ip = c * at3 g v ix it ip + d).
  { intros. unfold at3. rewrite (nth_indep _ 0 (c * 0 + d)).
    - now rewrite (map_nth (fun x => c * x + d)).
    - rewrite map_length, L. now apply ix_R_th_ph_lt. }
  unfold tv_term. rewrite !A by lia. rewrite <- sqrt_Rsqr_abs, <- sqrt_mult by
    (try apply Rle_0_sqr; pose proof (pow2_ge_0 (at3 g v (ix + 1) it ip - at3 g v ix it ip)); pose proof (pow2_ge_0 (at3 g v ix (it + 1) ip - at3 g v ix it ip));
     pose proof (pow2_ge_0 (at3 g v ix it (ip + 1) - at3 g v ix it ip)); lra).
  f_equal. unfold Rsqr. ring.
Qed.
(** data on the lines where two indices are maximal are never looked at *)
Theorem C27_total_variation_blind v w : length v = g_n3 g -> length w = g_n3 g ->
  (forall ix it ip, seen g ix it ip -> at3 g v ix it ip = at3 g w ix it ip) ->
  total_variation g sched v = total_variation g sched w.
Proof. intros L1 L2 H. rewrite !tv_ok by auto. now rewrite (tv_ext g v w H). Qed.
(** so total variation 0 does not mean constant *)
Theorem C27_zero_implies_constant_refuted :
  exists v, length v = g_n3 g /\ total_variation g sched v = Ok 0 /\ exists i j, (i < g_n3 g)%nat /\ (j < g_n3 g)%nat /\ nth i v 0 <> nth j v 0.
Proof.
  set (k := indx_R_th_ph g (g_nx g - 1) (g_nlat g - 1) 0).
  assert (Hk : (k < g_n3 g)%nat) by (apply ix_R_th_ph_lt; lia).
  assert (H0 : (indx_R_th_ph g 0 0 0 < g_n3 g)%nat) by (apply ix_R_th_ph_lt; lia).
  exists (upd (repeat 0 (g_n3 g)) k 1). split; [now rewrite upd_length, repeat_length|]. split.
  - destruct (C27_total_variation_zero (upd (repeat 0 (g_n3 g)) k 1)) as (tv & E & _ & Hz); [now rewrite upd_length, repeat_length|].
    rewrite E. f_equal. apply Hz. exists 0. intros ix it ip S. unfold at3. rewrite nth_upd_neq; [apply nth_repeat|].
    intros E'. apply ix_R_th_ph_inj in E'; destruct S; lia.
  - exists k, (indx_R_th_ph g 0 0 0). split; auto. split; auto. rewrite nth_upd_eq by now rewrite repeat_length.
    rewrite nth_upd_neq; [rewrite nth_repeat; lra|]. intros E'. apply ix_R_th_ph_inj in E'; lia.
Qed.
End C27.

Example C25_C27_nonvacuous : exists g : grid R, (2 <= g_nx g)%nat /\ (2 <= g_nlat g)%nat /\ (2 <= g_nphi g)%nat /\
  deals [[3; 1]; []; [0; 2; 4]]%nat (g_nx g - 1) /\ g_n3 g = 72%nat.
Proof.
  set (h := Sht 1 1 3 4 12 [0; 1; -1] (fun _ => []) (fun _ => []) (fun _ => []) (fun _ => []) : sht R).
  destruct (Grid_make_ok (Build false true false) h 100 2 100 6 1 1 3 4) as (g & Hg); [cbn; lia|discriminate|].
  pose proof (Grid_make_tables _ _ _ _ _ _ _ _ _ _ _ Hg) as T. exists g.
  assert (Ex : g_nx g = 6%nat) by apply T. assert (El : g_nlat g = 3%nat) by apply T. assert (Ep : g_nphi g = 4%nat) by apply T.
  unfold g_n3. rewrite Ex, El, Ep. repeat split; try lia.
  unfold deals. cbn. apply NoDup_Permutation; [repeat constructor; cbn; lia|repeat constructor; cbn; lia|]. intros x; cbn; tauto.
Qed.
