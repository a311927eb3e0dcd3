(** * Property C96, continued: a pulse stays compact (finite differences), and the Chebyshev derivative is global. *)
From Coq Require Import Reals Lra List.
From Coquelicot Require Import Coquelicot.
From Verif Require Import Base BaseLemmas Arith MFd MCheb MSphere MGrid MParams MField MEom Spec SphereSpec GridSpec RkSpec SpreadSpec
  PGrid PTables PMake PFdR PCheb PCheb2 PropCheb PropTables PropGridOp PEomOk PRk PropRk PEomR PGridOp PEom PSphere2 PropGridFilter PropSpread.
Local Open Scope R_scope.

Section Pulse.
Variables (b : build) (h : sht R) (cl Rmin Rmax : R) (nx : nat) (g : grid R).
Hypothesis Hg : grid_of b h cl Rmin Rmax nx g.
Hypothesis Hsh : shapes h.
Hypothesis HL : (Z.of_nat (s_lmax h) < 2 ^ 31)%Z.
Hypothesis Hfd : use_cheb b = false.
Hypothesis H8 : (8 <= nx)%nat.
Hypothesis Hz : zero_sht h.
Hypothesis Hneq : Rmin <> Rmax.
Hypothesis Hcl : cl <> 0.
Theorem C96_pulse_stays_compact e (f p : field R) j a c : e_k0 e + e_km1 e <> 0 -> eom_ok g e -> field_ok g f -> field_ok g p ->
  (a <= c)%nat -> (12 * j + 5 <= a)%nat -> (c + 12 * j + 6 <= nx)%nat ->
  (forall ix it ip, (ix < nx)%nat -> (ix < a \/ c < ix)%nat -> (it < g_nlat g)%nat -> (ip < g_nphi g)%nat ->
     nth_error (fl_n f) (indx_R_th_ph g ix it ip) = Some 0 /\ nth_error (fl_n p) (indx_R_th_ph g ix it ip) = Some 0) ->
  exists x y e', evolve g j (f, p, e) = Ok (x, y, e') /\
   forall ix it ip, (ix < nx)%nat -> (ix + 12 * j < a \/ c + 12 * j < ix)%nat -> (it < g_nlat g)%nat -> (ip < g_nphi g)%nat ->
     nth_error (fl_n x) (indx_R_th_ph g ix it ip) = Some 0 /\ nth_error (fl_n y) (indx_R_th_ph g ix it ip) = Some 0.
Proof.
  intros Hk Oe Of Op Hac Ha Hc H0. pose proof (nx_eq b h cl Rmin Rmax nx g Hg) as En.
  set (z := repeat 0 (g_n3 g)). assert (Lz : length z = g_n3 g) by apply repeat_length.
  assert (Nz : forall ix it ip, (ix < nx)%nat -> (it < g_nlat g)%nat -> (ip < g_nphi g)%nat -> nth_error z (indx_R_th_ph g ix it ip) = Some 0).
  { intros ix it ip Hx Ht Hp. assert (HI : (indx_R_th_ph g ix it ip < g_n3 g)%nat) by (unfold indx_R_th_ph, g_n3; apply ix_R_th_ph_lt; lia).
    rewrite (nth_error_nth' z 0) by lia. unfold z. now rewrite nth_repeat_any. }
  set (f0' := with_n f z). set (p0' := with_n p z).
  assert (Of0 : field_ok g f0') by (destruct Of as (? & ? & ? & ? & ?); unfold f0', field_ok; cbn; auto).
  assert (Op0 : field_ok g p0') by (destruct Op as (? & ? & ? & ? & ?); unfold p0', field_ok; cbn; auto).
  destruct (C47_vacuum_stays b h cl Rmin Rmax nx g Hg Hsh Hz HL (fun _ => H8) (fun Hc2 => False_ind _ (Bool.diff_true_false (eq_trans (eq_sym Hc2) Hfd))) Hneq Hcl j e f0' p0' Hk Oe Of0 Op0 eq_refl eq_refl) as (fz & pz & ez & Ez & Zf & Zp).
  destruct (C96_cone b h cl Rmin Rmax nx g Hg Hsh HL Hfd H8 e f p f0' p0' j a c Oe Of Op Of0 Op0 Hac Ha Hc) as (x & y & e1 & x' & y' & e2 & E1 & E2 & A1 & A2).
  - apply (agree_pt b h cl Rmin Rmax nx g Hg H8); [apply Of|apply Of0|]. intros ix it ip Hx HS Ht Hp. destruct (H0 ix it ip Hx HS Ht Hp) as [-> _]. symmetry. now apply Nz.
  - apply (agree_pt b h cl Rmin Rmax nx g Hg H8); [apply Op|apply Op0|]. intros ix it ip Hx HS Ht Hp. destruct (H0 ix it ip Hx HS Ht Hp) as [_ ->]. symmetry. now apply Nz.
  - assert (Es : forall k st, steps g k st = evolve g k st) by (clear; induction k as [|k IH]; intros [[f p] e]; cbn; [reflexivity|]; destruct (time_step g e f p) as [[[? ?] ?]| | | |]; cbn; auto;
      destruct (shift _); cbn; auto; destruct (shift _); cbn; auto).
    rewrite Es, E2 in Ez. injection Ez as -> -> _.
    exists x, y, e1. split; [exact E1|]. intros ix it ip Hx HS Ht Hp.
    assert (G : forall v v' : list R, v' = z -> agree_on g (fun ix => ix + 12 * j < a \/ c + 12 * j < ix)%nat v v' -> nth_error v (indx_R_th_ph g ix it ip) = Some 0).
    { intros v v' -> H. rewrite <- nth_error_shell_pt by auto. rewrite H by (auto; lia). rewrite nth_error_shell_pt by auto. now apply Nz. }
    split; [exact (G _ _ Zf A1)|exact (G _ _ Zp A2)].
Qed.
End Pulse.

(** *** the Chebyshev derivative *)
Fixpoint roots (l : list R) : list R := match l with [] => [1] | r :: l => poly_shift_add (- r) 0 (roots l) end.
Lemma roots_length l : length (roots l) = S (length l).
Proof. induction l as [|r l IH]; [reflexivity|]. cbn [roots length]. now rewrite poly_shift_add_length, IH. Qed.
Lemma roots_val r l t : poly (roots (r :: l)) t = (t - r) * poly (roots l) t.
Proof. cbn [roots]. rewrite poly_shift_add_spec. ring. Qed.
Lemma roots_zero l t : In t l -> poly (roots l) t = 0.
Proof. induction l as [|r l IH]; [easy|]. intros [->|H]; rewrite roots_val; [ring|]. rewrite IH by auto. ring. Qed.
Lemma roots_nz l t : ~ In t l -> poly (roots l) t <> 0.
Proof.
  induction l as [|r l IH]; intros H; [cbn; lra|]. rewrite roots_val. cbn in H. apply Rmult_integral_contrapositive. split; [|apply IH; tauto].
  intros E. apply H. left. lra.
Qed.
Lemma roots_der l t : NoDup l -> In t l -> Derive (poly (roots l)) t <> 0.
Proof.
  induction l as [|r l IH]; [easy|]. intros HN Hin. inversion HN as [|? ? Hr HN']; subst.
  assert (D : Derive (poly (roots (r :: l))) t = poly (roots l) t + (t - r) * Derive (poly (roots l)) t).
  { rewrite (Derive_ext _ (fun s => (s - r) * poly (roots l) s)) by (intros; apply roots_val).
    pose proof (poly_is_derive (roots l) t) as Hd. rewrite poly_Derive. apply is_derive_unique. auto_derive; [eexists; exact Hd|].
    change (Derive (fun x : R => poly (roots l) x) t) with (Derive (poly (roots l)) t). rewrite poly_Derive. ring. }
  rewrite D. destruct Hin as [->|Hin].
  - replace (t - t) with 0 by ring. rewrite Rmult_0_l, Rplus_0_r. now apply roots_nz.
  - rewrite (roots_zero l t Hin), Rplus_0_l. apply Rmult_integral_contrapositive. split; [|now apply IH]. intros E. apply Hr. now replace r with t by lra.
Qed.

Lemma cos_inj x y : 0 <= x <= PI -> 0 <= y <= PI -> cos x = cos y -> x = y.
Proof. intros Hx Hy E. rewrite <- (acos_cos x), <- (acos_cos y), E by auto. reflexivity. Qed.

(** changing the samples on the last three shells only changes the derivative on every other shell: there is
    no finite speed of propagation with Chebyshev collocation *)
Theorem C96_chebyshev_global b n lower upper g dv : (4 <= n)%nat -> Cheb_make b n lower upper = Ok g -> lower <> upper -> length dv = n ->
  exists v out out0, length v = n /\ (forall i, (i < n - 3)%nat -> nth i v 0 = 0) /\
    cheb_der b g v dv = Ok out /\ cheb_der b g (repeat 0 n) dv = Ok out0 /\
    forall i, (i < n - 3)%nat -> nth i out0 0 = 0 /\ nth i out 0 <> 0.
Proof.
  intros Hn E Hl Ld. assert (H2 : (2 <= n)%nat) by lia.
  set (pt := fun i => match cheb_pt g i with Ok x => x | _ => 0 end).
  assert (Hpt : forall i, (i < n)%nat -> cheb_pt g i = Ok (pt i)).
  { intros i Hi. destruct (pt_exists _ _ _ _ _ i E H2 Hi) as (x & Hx). unfold pt. now rewrite Hx. }
  assert (Hinj : forall i k, (i < n)%nat -> (k < n)%nat -> pt i = pt k -> i = k).
  { intros i k Hi Hk He. pose proof (unit_coord_pt _ _ _ _ _ _ _ E H2 Hl Hi (Hpt i Hi)) as U1. pose proof (unit_coord_pt _ _ _ _ _ _ _ E H2 Hl Hk (Hpt k Hk)) as U2.
    rewrite He, U2 in U1. assert (HN : 0 < INR (n - 1)) by (apply lt_0_INR; lia). pose proof PI_RGT_0.
    assert (G : forall m, (m < n)%nat -> 0 <= PI * INR m / INR (n - 1) <= PI).
    { intros m Hm. pose proof (pos_INR m). assert (INR m <= INR (n - 1)) by (apply le_INR; lia). split.
      - apply Rmult_le_pos; [nra|]. left. now apply Rinv_0_lt_compat.
      - apply Rmult_le_reg_r with (INR (n - 1)); auto. unfold Rdiv. rewrite Rmult_assoc, Rinv_l by lra. nra. }
    apply cos_inj in U1; try (now apply G). apply INR_eq. apply Rmult_eq_reg_l with (PI / INR (n - 1)).
    - unfold Rdiv in *. lra.
    - apply Rgt_not_eq. apply Rdiv_lt_0_compat; lra. }
  set (l := map pt (seq 0 (n - 3))). set (c := roots l). set (v := map (fun i => poly c (pt i)) (seq 0 n)).
  assert (Lc : (length c <= n - 2)%nat) by (unfold c, l; rewrite roots_length, map_length, seq_length; lia).
  assert (Hv : cheb_samples g n (poly c) v).
  { split; [unfold v; now rewrite map_length, seq_length|]. intros i x Hi Hx. unfold v. rewrite nth_map_seq by auto. rewrite Hpt in Hx by auto. now injection Hx as <-. }
  assert (H0 : cheb_samples g n (poly []) (repeat 0 n)) by (split; [apply repeat_length|intros; apply nth_repeat]).
  destruct (C17_der_exact b n lower upper g c v dv H2 E Hl Ld Lc Hv) as (out & E1 & _ & K1).
  destruct (C17_der_exact b n lower upper g [] (repeat 0 n) dv H2 E Hl Ld ltac:(cbn; lia) H0) as (out0 & E0 & _ & K0).
  exists v, out, out0. split; [apply Hv|]. split; [|split; [exact E1|split; [exact E0|]]].
  - intros i Hi. unfold v. rewrite nth_map_seq by lia. apply roots_zero. unfold l. apply in_map. apply in_seq. lia.
  - intros i Hi. rewrite (K0 i (pt i)), (K1 i (pt i)) by (auto; try apply Hpt; lia). split.
    + rewrite (Derive_ext _ (fun _ => 0)) by reflexivity. apply Derive_const.
    + apply roots_der.
      * unfold l. assert (G : forall m s, (s + m <= n)%nat -> NoDup (map pt (seq s m))).
        { induction m as [|m IH]; intros s Hs; cbn [seq map]; constructor; [|apply IH; lia].
          intros Hin. apply in_map_iff in Hin. destruct Hin as (k & Ek & Hk). apply in_seq in Hk. apply Hinj in Ek; lia. }
        apply G. lia.
      * unfold l. apply in_map. apply in_seq. lia.
Qed.

(** non-vacuity *)
Example C96_nonvacuous : exists g e f p,
  grid_of (Build false true false) (null_sht 4 3 6 8) 50 2 50 40 g /\ shapes (null_sht 4 3 6 8) /\ zero_sht (null_sht 4 3 6 8) /\
  eom_ok g e /\ e_k0 e + e_km1 e <> 0 /\ field_ok g f /\ field_ok g p /\
  (forall ix it ip, (ix < 40)%nat -> (ix < 17 \/ 20 < ix)%nat -> (it < g_nlat g)%nat -> (ip < g_nphi g)%nat ->
     nth_error (fl_n f) (indx_R_th_ph g ix it ip) = Some 0 /\ nth_error (fl_n p) (indx_R_th_ph g ix it ip) = Some 0) /\
  nth_error (fl_n f) (indx_R_th_ph g 18 2 3) = Some 1 /\ (12 * 1 + 5 <= 17)%nat /\ (20 + 12 * 1 + 6 <= 40)%nat.
Proof.
  set (b := Build false true false). set (h := null_sht 4 3 6 8).
  destruct (Grid_make_ok b h 50 2 50 40 4 3 6 8) as (g & E); [cbn; lia|left; lia|].
  assert (Hg : grid_of b h 50 2 50 40 g) by exact E. clear E.
  destruct (Eom_make_total b h 50 2 50 40 g Hg (Par 1 10 4 3 6 8 1 (1/10) 50 50 2 1 (7/10) 0 1 0 0 1 0 0 [] [] 0 0 0 0 0)) as (e & He).
  pose proof (Eom_make_ok _ _ _ He) as Oe. pose proof (Eom_make_inv _ _ _ He) as I.
  destruct (gof_sizes b h 50 2 50 40 g Hg) as (Eb & En & _ & El & Ep & _).
  assert (Eb' : g_bld g = b) by (destruct (gof_sizes b h 50 2 50 40 g Hg); auto).
  set (i0 := indx_R_th_ph g 18 2 3).
  assert (N3 : g_n3 g = 1920%nat) by (unfold g_n3; rewrite En, El, Ep; reflexivity).
  assert (Hi0 : (i0 < 1920)%nat) by (rewrite <- N3; unfold i0, indx_R_th_ph, g_n3; rewrite En, El, Ep; cbn [h null_sht s_nlat s_nphi]; apply ix_R_th_ph_lt; lia).
  set (v := repeat 0 i0 ++ 1 :: repeat 0 (1919 - i0)).
  assert (Lv : length v = 1920%nat) by (unfold v; rewrite app_length; cbn [length]; rewrite !repeat_length; lia).
  assert (V1 : nth_error v i0 = Some 1) by (unfold v; rewrite nth_error_app2; rewrite repeat_length; [now rewrite Nat.sub_diag|lia]).
  assert (V0 : forall i, (i < 1920)%nat -> i <> i0 -> nth_error v i = Some 0).
  { intros i Hi Hne. rewrite (nth_error_nth' v 0) by lia. f_equal. unfold v. destruct (Nat.lt_ge_cases i i0).
    - rewrite app_nth1 by (rewrite repeat_length; lia). apply nth_repeat.
    - rewrite app_nth2 by (rewrite repeat_length; lia). rewrite repeat_length. destruct (i - i0)%nat eqn:Ei; [lia|]. cbn. apply nth_repeat. }
  set (zz := repeat 0 1920).
  set (f := Fld [] v zz zz zz 1920). set (p := Fld [] zz zz zz zz 1920).
  exists g, e, f, p. split; [exact Hg|]. split; [apply null_shapes; lia|]. split; [apply null_zero|]. split; [exact Oe|].
  destruct I as (cs & _ & -> & _). cbn [e_k0 e_km1 e_dt pr_k0 pr_km1 pr_dt]. split; [lra|].
  assert (Lz : length zz = 1920%nat) by apply repeat_length.
  split; [unfold field_ok, f; cbn [fl_n fl_l fl_np1 fl_k fl_size]; rewrite N3; auto 10|]. split; [unfold field_ok, p; cbn [fl_n fl_l fl_np1 fl_k fl_size]; rewrite N3; auto 10|].
  split; [|split; [exact V1|lia]]. intros ix it ip Hx HS Ht Hp. cbn [f p fl_n].
  assert (HI : (indx_R_th_ph g ix it ip < 1920)%nat) by (rewrite <- N3; unfold indx_R_th_ph, g_n3; apply ix_R_th_ph_lt; lia).
  split.
  - apply V0; auto. unfold i0, indx_R_th_ph. intros Hne. apply ix_R_th_ph_inj in Hne; rewrite ?En, ?El, ?Ep in *; cbn [h null_sht s_nlat s_nphi] in *; lia.
  - rewrite (nth_error_nth' zz 0) by lia. f_equal. apply nth_repeat.
Qed.
