(** * Property C93: the evolution equations and the time step in IEEE double precision.
    (i) A field value of exactly -1 makes the right-hand side NaN whatever the theory, also for the canonical
    one, because the code evaluates km1/(f+1); the time step then stores NaN.  (ii) Away from there the
    right-hand side is the documented one to rounding, and (iii) the new values are the Runge-Kutta combination
    of the computed slopes to rounding. *)
From Coq Require Import ZArith Reals SpecFloat Bool List Lra Lia.
From Verif Require Import Base BaseLemmas ForList Arith MFd MCheb MSphere MGrid MParams MField MEom
  SphereSpec GridSpec RkSpec PGrid PTables PMake PSphere PSphere2 PGridOp PropTables PropGridOp PConc PEom PEomOk PRk
  FpSpec Fp FpErr PropFpFd FpKerr.
Import ListNotations.
Local Open Scope R_scope.

Section B64.
Variables (lexp llog lcos lsin lacos : spec_float -> spec_float) (lpi : spec_float).
Local Instance b64i : Arith spec_float := b64 lexp llog lcos lsin lacos lpi.
Local Notation FL := spec_float.

(** ** (i) the value -1 *)
Definition minus_one : FL := SFopp (sf_ofZ 1).
Lemma minus_one_ok : fin minus_one /\ val minus_one = -1.
Proof. unfold minus_one. destruct one_ok as [F E]. destruct (opp_ok _ F) as [F' E']. split; auto. rewrite E', E. ring. Qed.

Definition bad (x : FL) : Prop := x = S754_nan \/ exists s, x = S754_infinity s.
Lemma bad_div0 x : bad (SFdiv 53 1024 x (S754_zero false)).
Proof. destruct x; simpl; unfold bad; eauto. Qed.
Lemma bad_addl x y : bad x -> bad (SFadd 53 1024 x y).
Proof. intros [->|[s ->]]; destruct y as [|s'| |]; simpl; unfold bad; eauto. destruct s, s'; simpl; eauto. Qed.
Lemma bad_addr x y : bad y -> bad (SFadd 53 1024 x y).
Proof. intros [->|[s ->]]; destruct x as [|s'| |]; simpl; unfold bad; eauto. destruct s, s'; simpl; eauto. Qed.
Lemma inv_bad x : bad x -> SFdiv 53 1024 (sf_ofZ 1) x = S754_nan \/ exists s, SFdiv 53 1024 (sf_ofZ 1) x = S754_zero s.
Proof. intros [->|[s ->]]; [left; reflexivity|right; exists (xorb false s); reflexivity]. Qed.
Lemma bad_mul0 x y : bad x -> y = S754_nan \/ (exists s, y = S754_zero s) -> SFmul 53 1024 x y = S754_nan.
Proof. intros [->|[s ->]] [->|[s' ->]]; reflexivity. Qed.
Lemma nan_mulr x : SFmul 53 1024 x S754_nan = S754_nan. Proof. destruct x; reflexivity. Qed.
Lemma nan_addr x : SFadd 53 1024 x S754_nan = S754_nan. Proof. destruct x; reflexivity. Qed.
Lemma nan_addl x : SFadd 53 1024 S754_nan x = S754_nan. Proof. destruct x; reflexivity. Qed.
Lemma nan_subl x : SFsub 53 1024 S754_nan x = S754_nan. Proof. destruct x; reflexivity. Qed.

Theorem C93_minus_one_nan (e : eom FL) (c : coef FL) p dr_f dr_p dr_dr_f dphi_f dphi_dr_f lap_f sphereX_f :
  p_rhs e c minus_one p dr_f dr_p dr_dr_f dphi_f dphi_dr_f lap_f sphereX_f = S754_nan.
Proof.
  unfold p_rhs.
  assert (Z : fadd minus_one (fofZ 1) = S754_zero false) by reflexivity.
  assert (K : (inverse_k e minus_one) = S754_nan \/ exists s, (inverse_k e minus_one) = S754_zero s).
  { unfold inverse_k. rewrite Z. apply inv_bad. apply bad_addl, bad_addl, bad_addr. apply bad_div0. }
  assert (P : bad (kprime e minus_one)).
  { unfold kprime. rewrite Z. apply bad_addl, bad_addl. change (fpow (S754_zero false) 2) with (S754_zero false). apply bad_div0. }
  assert (N : fmul (kprime e minus_one) (inverse_k e minus_one) = S754_nan) by (apply bad_mul0; assumption).
  rewrite N. cbv [fadd fsub fmul b64i b64]. rewrite nan_mulr.
  match goal with |- SFsub _ _ (SFadd _ _ _ (SFmul _ _ S754_nan ?q)) _ = _ => replace (SFmul 53 1024 S754_nan q) with S754_nan by (destruct q; reflexivity) end.
  now rewrite nan_addr, nan_subl.
Qed.

Section Grid.
Variables (b : build) (h : sht FL) (cl0 Rmin0 Rmax0 : FL) (nx : nat) (g : grid FL).
Hypothesis Hg : grid_of b h cl0 Rmin0 Rmax0 nx g.
Hypothesis Hsh : shapes h.
Hypothesis HL : (Z.of_nat (s_lmax h) < 2 ^ 31)%Z.
Hypothesis H8 : use_cheb b = false -> (8 <= nx)%nat.
Hypothesis H2 : use_cheb b = true -> (2 <= nx)%nat.
Local Notation n := (g_n3 g).

(** what is stored in p_k[i]: the formula at the stored neighbours *)
Lemma prhs_some (e : eom FL) f p i x : eom_ok g e -> length f = n -> length p = n -> nth_error f i = Some x ->
  exists c pi d1 d2 d3 d4 d5 d6 d7, nth_error (e_coef e) i = Some c /\ nth_error p i = Some pi /\
  nth_error (s_dr_f (scr_of g f p)) i = Some d1 /\ nth_error (s_dr_p (scr_of g f p)) i = Some d2 /\ nth_error (s_dr_dr_f (scr_of g f p)) i = Some d3 /\
  nth_error (s_dphi_f (scr_of g f p)) i = Some d4 /\ nth_error (s_dphi_dr_f (scr_of g f p)) i = Some d5 /\
  nth_error (s_lap_f (scr_of g f p)) i = Some d6 /\ nth_error (s_sphereX_f (scr_of g f p)) i = Some d7 /\
  nth_error (prhs_of g e f p) i = Some (p_rhs e c x pi d1 d2 d3 d4 d5 d6 d7).
Proof.
  intros Oe Lf Lp Hx. pose proof Oe as (En & Lc & Os).
  assert (Hi : (i < n)%nat) by (rewrite <- Lf; apply nth_error_Some; congruence).
  destruct (set_k_ok b h cl0 Rmin0 Rmax0 nx g Hg Hsh HL H8 H2 e (e_scr e) f p f f Oe Os Lf Lp Lf Lf) as [E _].
  destruct (set_k_inv _ _ _ _ _ _ _ _ _ E) as (s & Es & _ & _ & _ & _ & H). cbn [with_scr e_scr e_n e_coef] in *.
  destruct (k_sections_ok b h cl0 Rmin0 Rmax0 nx g Hg Hsh HL H8 H2 f p (e_scr e) Lf Lp Os) as [Ek _].
  assert (Es' : s = scr_of g f p) by congruence. subst s.
  rewrite <- En in Hi. destruct (H i Hi) as (fi & pi & c & d1 & d2 & d3 & d4 & d5 & d6 & d7 & A1 & A2 & A3 & A4 & A5 & A6 & A7 & A8 & A9 & A10 & A11 & A12).
  assert (fi = x) by congruence. subst fi.
  exists c, pi, d1, d2, d3, d4, d5, d6, d7. repeat (split; [assumption|]). exact A12.
Qed.

Theorem C93_minus_one_set_k (e : eom FL) f p fk pk i :
  eom_ok g e -> length f = n -> length p = n -> length fk = n -> length pk = n ->
  nth_error f i = Some minus_one ->
  exists fk' pk' e', set_k g e f p fk pk = Ok (fk', pk', e') /\ nth_error pk' i = Some S754_nan.
Proof.
  intros Oe Lf Lp Lfk Lpk Hx. pose proof Oe as (En & Lc & Os).
  destruct (set_k_ok b h cl0 Rmin0 Rmax0 nx g Hg Hsh HL H8 H2 e (e_scr e) f p fk pk Oe Os Lf Lp Lfk Lpk) as [E _].
  destruct (prhs_some e f p i minus_one Oe Lf Lp Hx) as (c & pi & d1 & d2 & d3 & d4 & d5 & d6 & d7 & _ & _ & _ & _ & _ & _ & _ & _ & _ & Q).
  do 3 eexists. split; [destruct e; exact E|]. rewrite Q. f_equal. apply C93_minus_one_nan.
Qed.

Lemma axpy_some (c : FL) k u i a : nth_error u i = Some a -> (i < length k)%nat ->
  exists y, nth_error k i = Some y /\ nth_error (axpy c k u) i = Some (SFadd 53 1024 a (SFmul 53 1024 c y)).
Proof.
  intros Hu Hk. destruct (nth_error_ex k i Hk) as (y & Hy). exists y. split; auto. rewrite (axpy_nth c k u i a y Hu Hy). reflexivity.
Qed.
Lemma axpy_nan_k (c : FL) k u i : (i < length u)%nat -> nth_error k i = Some S754_nan -> nth_error (axpy c k u) i = Some S754_nan.
Proof.
  intros Hu Hk. destruct (nth_error_ex u i Hu) as (a & Ha). rewrite (axpy_nth c k u i a S754_nan Ha Hk). f_equal.
  cbv [fadd fmul b64i b64]. now rewrite nan_mulr, nan_addr.
Qed.
Lemma axpy_nan_u (c : FL) k u i : (i < length k)%nat -> nth_error u i = Some S754_nan -> nth_error (axpy c k u) i = Some S754_nan.
Proof.
  intros Hk Hu. destruct (nth_error_ex k i Hk) as (a & Ha). rewrite (axpy_nth c k u i S754_nan a Hu Ha). reflexivity.
Qed.
Lemma prhs_len (e : eom FL) f p : eom_ok g e -> length f = n -> length p = n -> length (prhs_of g e f p) = n.
Proof.
  intros Oe Lf Lp. pose proof Oe as (_ & _ & Os).
  apply (set_k_ok b h cl0 Rmin0 Rmax0 nx g Hg Hsh HL H8 H2 e (e_scr e) f p f f Oe Os Lf Lp Lf Lf).
Qed.

(** one time step: where the first slope is NaN, both new arrays hold NaN *)
Lemma step_nan (e : eom FL) (f p : field FL) i : eom_ok g e -> field_ok g f -> field_ok g p ->
  nth_error (prhs_of g e (filt_of g (fl_n f)) (filt_of g (fl_n p))) i = Some S754_nan ->
  exists f' p' e', time_step g e f p = Ok (f', p', e') /\
    nth_error (fl_np1 f') i = Some S754_nan /\ nth_error (fl_np1 p') i = Some S754_nan.
Proof.
  intros Oe Of Op Q.
  destruct (time_step_closed b h cl0 Rmin0 Rmax0 nx g Hg Hsh HL H8 H2 e f p Oe Of Op) as (f' & p' & s & E & _ & _ & _ & _ & _ & _ & _ & R).
  exists f', p', (with_scr e s). split; [exact E|].
  destruct Of as (_ & Lf & _). destruct Op as (_ & Lp & _).
  destruct (filter_total b h cl0 Rmin0 Rmax0 nx g Hg Hsh H8 H2 (fl_n f) Lf) as [Ef Lf'].
  destruct (filter_total b h cl0 Rmin0 Rmax0 nx g Hg Hsh H8 H2 (fl_n p) Lp) as [Ep Lp'].
  set (u := filt_of g (fl_n f)) in *. set (w := filt_of g (fl_n p)) in *.
  unfold rk4, rhs_of, axpy2 in R. cbn [fst snd] in R.
  set (k1p := prhs_of g e u w) in *. assert (L1 : length k1p = n) by now apply prhs_len.
  assert (Hi : (i < n)%nat) by (rewrite <- L1; apply nth_error_Some; congruence).
  set (hd := (fdec 5 (-1) * e_dt e)%f) in *.
  set (u2 := axpy hd w u) in *. assert (Lu2 : length u2 = n) by now apply axpy_length.
  set (w2 := axpy hd k1p w) in *. assert (Lw2 : length w2 = n) by now apply axpy_length.
  set (k2p := prhs_of g e u2 w2) in *. assert (L2 : length k2p = n) by now apply prhs_len.
  set (u3 := axpy hd w2 u) in *. assert (Lu3 : length u3 = n) by now apply axpy_length.
  set (w3 := axpy hd k2p w) in *. assert (Lw3 : length w3 = n) by now apply axpy_length.
  set (k3p := prhs_of g e u3 w3) in *. assert (L3 : length k3p = n) by now apply prhs_len.
  set (u4 := axpy (e_dt e) w3 u) in *. assert (Lu4 : length u4 = n) by now apply axpy_length.
  set (w4 := axpy (e_dt e) k3p w) in *. assert (Lw4 : length w4 = n) by now apply axpy_length.
  set (k4p := prhs_of g e u4 w4) in *. assert (L4 : length k4p = n) by now apply prhs_len.
  assert (NW2 : nth_error w2 i = Some S754_nan) by (apply axpy_nan_k; [congruence|exact Q]).
  assert (R1 := f_equal fst R). assert (R2 := f_equal snd R). cbn [fst snd] in R1, R2. split.
  - rewrite R1. do 2 (apply axpy_nan_u; [congruence|]). apply axpy_nan_k; [|exact NW2].
    rewrite (axpy_length _ _ _ n); auto.
  - rewrite R2. do 3 (apply axpy_nan_u; [congruence|]). apply axpy_nan_k; [congruence|exact Q].
Qed.

(** where the (filtered) field is -1 *)
Theorem C93_minus_one_time_step (e : eom FL) (f p : field FL) i :
  eom_ok g e -> field_ok g f -> field_ok g p -> (exists fn, grid_filter g (fl_n f) = Ok fn /\ nth_error fn i = Some minus_one) ->
  exists f' p' e', time_step g e f p = Ok (f', p', e') /\
    nth_error (fl_np1 f') i = Some S754_nan /\ nth_error (fl_np1 p') i = Some S754_nan.
Proof.
  intros Oe Of Op (fn & Efn & Hm). apply step_nan; auto.
  destruct Of as (_ & Lf & _). destruct Op as (_ & Lp & _).
  destruct (filter_total b h cl0 Rmin0 Rmax0 nx g Hg Hsh H8 H2 (fl_n f) Lf) as [Ef Lf'].
  destruct (filter_total b h cl0 Rmin0 Rmax0 nx g Hg Hsh H8 H2 (fl_n p) Lp) as [Ep Lp'].
  assert (fn = filt_of g (fl_n f)) by congruence. subst fn.
  destruct (prhs_some e _ _ i minus_one Oe Lf' Lp' Hm) as (c & pi & d1 & d2 & d3 & d4 & d5 & d6 & d7 & _ & _ & _ & _ & _ & _ & _ & _ & _ & Q).
  rewrite C93_minus_one_nan in Q. exact Q.
Qed.
End Grid.

(** ** (ii) the right-hand side to rounding *)
(** the size a number counts with in the error bounds: its modulus, but at least 2^-60 *)
Definition sz (x : FL) : R := Rmax (Rabs (val x)) (/ 2 ^ 60).
(** a finite double of modulus at most 2^60 *)
Definition modest (x : FL) : Prop := fin x /\ Rabs (val x) <= 2 ^ 60.

(** k(f), k'(f), V'(f) of the documentation *)
Definition kin (e : eom FL) (F : R) : R := val (e_k0 e) + val (e_km1 e) / (1 + F) + val (e_k1 e) * F + val (e_k2 e) / 2 * F ^ 2.
Definition kin' (e : eom FL) (F : R) : R := - val (e_km1 e) / (1 + F) ^ 2 + val (e_k1 e) + val (e_k2 e) * F.
Definition pot' (e : eom FL) (F : R) : R := val (e_v2 e) * F + val (e_v3 e) / 2 * F ^ 2 + val (e_v4 e) / 6 * F ^ 3.
(** the documented right-hand side with the stored coefficients and derivatives, exactly evaluated *)
Definition exact_rhs (e : eom FL) (c : coef FL) (f p dr_f dr_p dr_dr_f dphi_f dphi_dr_f lap_f sphereX_f : FL) : R :=
  let F := val f in
  val (c_p c) * val p + val (c_dr_f c) * val dr_f + val (c_dr_p c) * val dr_p + val (c_dr_dr_f c) * val dr_dr_f
  + val (c_dphi_dr_f c) * val dphi_dr_f + val (c_lap_f c) * val lap_f
  + / 2 * (kin' e F / kin e F) *
     (val (c_p_p c) * val p ^ 2 + val (c_p_dr_f c) * val p * val dr_f + val (c_dr_f_dr_f c) * val dr_f ^ 2
      + val (c_dr_f_dphi_f c) * val dr_f * val dphi_f + val (c_sphereX_f c) * val sphereX_f)
  - val (c_pre c) * (pot' e F / kin e F).
(** the same sums with the sizes of the factors in place of the factors *)
Definition kin_size (e : eom FL) (f : FL) : R :=
  sz (e_k0 e) + sz (e_km1 e) / (1 + val f) + sz (e_k1 e) * sz f + sz (e_k2 e) / 2 * (sz f * sz f).
Definition kin'_size (e : eom FL) (f : FL) : R :=
  sz (e_km1 e) / ((1 + val f) * (1 + val f)) + sz (e_k1 e) + sz (e_k2 e) * sz f.
Definition pot'_size (e : eom FL) (f : FL) : R :=
  sz (e_v2 e) * sz f + sz (e_v3 e) / 2 * (sz f * sz f) + sz (e_v4 e) / 6 * (sz f * (sz f * sz f)).
Definition rhs_size (e : eom FL) (c : coef FL) (f p dr_f dr_p dr_dr_f dphi_f dphi_dr_f lap_f sphereX_f : FL) : R :=
  sz (c_p c) * sz p + sz (c_dr_f c) * sz dr_f + sz (c_dr_p c) * sz dr_p + sz (c_dr_dr_f c) * sz dr_dr_f
  + sz (c_dphi_dr_f c) * sz dphi_dr_f + sz (c_lap_f c) * sz lap_f
  + 1 / 2 * (kin'_size e f * (1 / kin e (val f))) *
     (sz (c_p_p c) * (sz p * sz p) + sz (c_p_dr_f c) * sz p * sz dr_f + sz (c_dr_f_dr_f c) * (sz dr_f * sz dr_f)
      + sz (c_dr_f_dphi_f c) * sz dr_f * sz dphi_f + sz (c_sphereX_f c) * sz sphereX_f)
  + sz (c_pre c) * (1 / kin e (val f) * pot'_size e f).

Lemma sz_ok x : modest x -> ap x (val x) (sz x) 0 /\ mg 60 (sz x).
Proof.
  intros [F H]. split.
  - apply ap_exact; [exact F|apply Rmax_l].
  - split; [apply Rmax_r|]. apply Rmax_lub; [exact H|]. apply Rle_trans with 1; [|apply pow_R1_Rle; lra].
    rewrite <- Rinv_1. apply Rinv_le_contravar; [lra|apply pow_R1_Rle; lra].
Qed.
Lemma mg_add n k A B : mg n A -> mg k B -> mg (S (Nat.max n k)) (A + B).
Proof.
  intros HA HB. apply (mg_le _ (Nat.max n k)) in HA; [|lia]. apply (mg_le _ (Nat.max n k)) in HB; [|lia].
  set (m := Nat.max n k) in *. destruct HA as [A1 A2], HB as [B1 B2]. assert (P := pow2_pos m). assert (Q := Rinv_0_lt_compat _ P).
  split.
  - rewrite <- tech_pow_Rmult, Rinv_mult. lra.
  - rewrite <- tech_pow_Rmult. lra.
Qed.
Ltac mgs := unfold Rdiv; repeat first [eassumption | apply mg_lit; lra | eapply mg_mul | eapply mg_inv | eapply mg_add].
Ltac mgm := eapply mg_mid; [mgs|cbn; lia].
Ltac mgtp := eapply mg_top; [mgs|cbn; lia].

Lemma ap_half : ap (sf_dec 5 (-1)) (1 / 2) (1 / 2) 1.
Proof. eapply ap_weak; [apply (ap_q 5 10); lia|lra|lra|lra]. Qed.
Lemma ap_over x r A j z : ap x r A j -> 0 <= j <= 900 -> (0 < z < 1000)%Z -> mid (A / IZR z) -> ap (SFdiv 53 1024 x (sf_ofZ z)) (r / IZR z) (A / IZR z) (j + 2).
Proof.
  intros H J Z M. assert (P : 0 < IZR z) by (apply IZR_lt; lia).
  apply (ap_le _ _ _ (j + 0 * 1 + 2)); [lra|]. apply (ap_divg _ _ _ _ A (IZR z) (IZR z) j 0 1); try lra; auto. apply ap_ofZ. lia.
Qed.

Theorem C93_rhs_rounding (e : eom FL) (c : coef FL) f p dr_f dr_p dr_dr_f dphi_f dphi_dr_f lap_f sphereX_f q :
  (forall x, In x [e_k0 e; e_km1 e; e_k1 e; e_k2 e; e_v2 e; e_v3 e; e_v4 e;
                   c_pre c; c_p c; c_dr_f c; c_dr_p c; c_dr_dr_f c; c_dphi_dr_f c; c_lap_f c; c_p_p c; c_p_dr_f c; c_dr_f_dr_f c; c_dr_f_dphi_f c; c_sphereX_f c;
                   f; p; dr_f; dr_p; dr_dr_f; dphi_f; dphi_dr_f; lap_f; sphereX_f] -> modest x) ->
  / 2 ^ 60 <= 1 + val f ->                                        (* to the right of the singular value -1 *)
  kin_size e f <= q * kin e (val f) -> 0 <= q <= 20 ->            (* k is positive, its terms cancel by at most a factor q *)
  let r := p_rhs e c f p dr_f dr_p dr_dr_f dphi_f dphi_dr_f lap_f sphereX_f in
  fin r /\ Rabs (val r - exact_rhs e c f p dr_f dr_p dr_dr_f dphi_f dphi_dr_f lap_f sphereX_f)
     <= (6 * q + 21) * / 2 ^ 52 * rhs_size e c f p dr_f dr_p dr_dr_f dphi_f dphi_dr_f lap_f sphereX_f.
Proof.
  intros HM HF HK Q r.
  assert (M : forall x, In x [e_k0 e; e_km1 e; e_k1 e; e_k2 e; e_v2 e; e_v3 e; e_v4 e;
                   c_pre c; c_p c; c_dr_f c; c_dr_p c; c_dr_dr_f c; c_dphi_dr_f c; c_lap_f c; c_p_p c; c_p_dr_f c; c_dr_f_dr_f c; c_dr_f_dphi_f c; c_sphereX_f c;
                   f; p; dr_f; dr_p; dr_dr_f; dphi_f; dphi_dr_f; lap_f; sphereX_f] -> ap x (val x) (sz x) 0 /\ mg 60 (sz x)) by (intros x Hx; apply sz_ok, HM, Hx).
  assert (Ff := HM f ltac:(cbn; tauto)).
  cbn [In] in M. clear HM.
  destruct (M (e_k0 e) ltac:(tauto)) as [Ak0 Mk0]. destruct (M (e_km1 e) ltac:(tauto)) as [Akm Mkm].
  destruct (M (e_k1 e) ltac:(tauto)) as [Ak1 Mk1]. destruct (M (e_k2 e) ltac:(tauto)) as [Ak2 Mk2].
  destruct (M (e_v2 e) ltac:(tauto)) as [Av2 Mv2]. destruct (M (e_v3 e) ltac:(tauto)) as [Av3 Mv3]. destruct (M (e_v4 e) ltac:(tauto)) as [Av4 Mv4].
  destruct (M (c_pre c) ltac:(tauto)) as [Ac0 Mc0]. destruct (M (c_p c) ltac:(tauto)) as [Ac1 Mc1]. destruct (M (c_dr_f c) ltac:(tauto)) as [Ac2 Mc2].
  destruct (M (c_dr_p c) ltac:(tauto)) as [Ac3 Mc3]. destruct (M (c_dr_dr_f c) ltac:(tauto)) as [Ac4 Mc4]. destruct (M (c_dphi_dr_f c) ltac:(tauto)) as [Ac5 Mc5].
  destruct (M (c_lap_f c) ltac:(tauto)) as [Ac6 Mc6]. destruct (M (c_p_p c) ltac:(tauto)) as [Ac7 Mc7]. destruct (M (c_p_dr_f c) ltac:(tauto)) as [Ac8 Mc8].
  destruct (M (c_dr_f_dr_f c) ltac:(tauto)) as [Ac9 Mc9]. destruct (M (c_dr_f_dphi_f c) ltac:(tauto)) as [Ac10 Mc10]. destruct (M (c_sphereX_f c) ltac:(tauto)) as [Ac11 Mc11].
  destruct (M f ltac:(tauto)) as [Af Mf]. destruct (M p ltac:(tauto)) as [Ap Mp]. destruct (M dr_f ltac:(tauto)) as [Ad1 Md1]. destruct (M dr_p ltac:(tauto)) as [Ad2 Md2].
  destruct (M dr_dr_f ltac:(tauto)) as [Ad3 Md3]. destruct (M dphi_f ltac:(tauto)) as [Ad4 Md4]. destruct (M dphi_dr_f ltac:(tauto)) as [Ad5 Md5].
  destruct (M lap_f ltac:(tauto)) as [Ad6 Md6]. destruct (M sphereX_f ltac:(tauto)) as [Ad7 Md7]. clear M.
  destruct Ff as [Ff Uf]. set (F := val f) in *.
  assert (P60 := pow2_pos 60). assert (I60 := Rinv_0_lt_compat _ P60).
  assert (M1F : mg 61 (1 + F)).
  { split.
    - eapply Rle_trans; [|exact HF]. apply Rinv_le_contravar; [exact P60|]. apply Rle_pow; [lra|lia].
    - apply Rabs_le_between in Uf. change (2 ^ 61) with (2 * 2 ^ 60). assert (1 <= 2 ^ 60) by (apply pow_R1_Rle; lra). lra. }
  assert (PF : 0 < 1 + F) by lra.
  (* f + 1 *)
  assert (A1F : ap (SFadd 53 1024 f (sf_ofZ 1)) (1 + F) (1 + F) 1).
  { destruct one_ok as [F1 E1]. destruct (add_ok f (sf_ofZ 1) Ff F1) as [G (d & Hd & E)].
    { rewrite E1. fold F. rewrite Rplus_comm. rewrite Rabs_right by lra. eapply Rle_trans; [|apply (mid_big (1 + F)); apply (mg_top 61); [exact M1F|lia]]. lra. }
    split; [exact G|]. split; [rewrite Rabs_right; lra|]. rewrite E, E1. fold F.
    replace ((F + 1) * (1 + d) - (1 + F)) with ((1 + F) * d) by ring. rewrite Rabs_mult, (Rabs_right (1 + F)) by lra.
    rewrite ww_uu in Hd. assert (W := ww_pos). rewrite Rmult_comm. apply Rmult_le_compat_r; lra. }
  (* k *)
  assert (B1 : ap (SFdiv 53 1024 (e_km1 e) (SFadd 53 1024 f (sf_ofZ 1))) (val (e_km1 e) / (1 + F)) (sz (e_km1 e) / (1 + F)) 3).
  { apply (ap_le _ _ _ (0 + 1 * 1 + 2)); [lra|]. apply (ap_divg _ _ _ _ (sz (e_km1 e)) (1 + F) (1 + F) 0 1 1); try lra; auto. mgm. }
  assert (B2 := ap_addr _ _ _ _ _ _ _ _ Ak0 B1 ltac:(lra) ltac:(lra) ltac:(mgtp)).
  assert (B3 := ap_mull _ _ _ _ _ _ _ _ Ak1 Af ltac:(lra) ltac:(lra) ltac:(mgm)).
  assert (B4 := ap_addl _ _ _ _ _ _ _ _ B2 B3 ltac:(lra) ltac:(lra) ltac:(mgtp)).
  assert (B5 := ap_over _ _ _ _ 2 Ak2 ltac:(lra) ltac:(lia) ltac:(mgm)).
  assert (B6 := ap_pow2l _ _ _ _ Af ltac:(lra) ltac:(mgm)).
  assert (B7 := ap_mull _ _ _ _ _ _ _ _ B5 B6 ltac:(lra) ltac:(lra) ltac:(mgm)).
  assert (B8 := ap_addl _ _ _ _ _ _ _ _ B4 B7 ltac:(lra) ltac:(lra) ltac:(mgtp)).
  match type of B8 with ap _ ?v ?s ?k => change v with (kin e F) in B8; change s with (kin_size e f) in B8; replace k with 6 in B8 by ring end.
  assert (MKs : mg 250 (kin_size e f)).
  { eapply mg_le; [|unfold kin_size; fold F; mgs]. cbn. lia. }
  assert (Pq : 0 < q * kin e F) by (eapply Rlt_le_trans; [apply (mg_pos _ _ MKs)|exact HK]).
  assert (Pk : 0 < kin e F) by (destruct (Rle_or_lt (kin e F) 0); [nra|assumption]).
  assert (MK : mg 250 (kin e F)).
  { split.
    - assert (L : sz (e_k0 e) <= kin_size e f).
      { unfold kin_size. fold F. assert (T1 := mg_pos _ _ Mkm). assert (T2 := mg_pos _ _ Mk1). assert (T3 := mg_pos _ _ Mk2). assert (T4 := mg_pos _ _ Mf).
        assert (0 < sz (e_km1 e) / (1 + F)) by (apply Rdiv_lt_0_compat; auto).
        assert (0 < sz (e_k1 e) * sz f) by (apply Rmult_lt_0_compat; auto).
        assert (0 < sz (e_k2 e) / 2 * (sz f * sz f)) by (apply Rmult_lt_0_compat; [lra|apply Rmult_lt_0_compat; auto]). lra. }
      destruct Mk0 as [L0 _]. assert (L20 : kin_size e f <= 20 * kin e F) by nra.
      assert (L1 : / 2 ^ 60 * / 20 <= kin e F) by lra. eapply Rle_trans; [|exact L1].
      rewrite <- Rinv_mult. apply Rinv_le_contravar; [lra|]. replace 250%nat with (60 + 190)%nat by reflexivity. rewrite pow_add.
      apply Rmult_le_compat_l; [lra|]. apply Rle_trans with (2 ^ 5); [simpl; lra|apply Rle_pow; [lra|lia]].
    - destruct B8 as (_ & B & _). rewrite Rabs_right in B by lra. eapply Rle_trans; [exact B|apply MKs]. }
  assert (IK : ap (inverse_k e f) (1 / kin e F) (1 / kin e F) (6 * q + 2)).
  { apply (ap_le _ _ _ (0 + 6 * q + 2)); [lra|]. unfold inverse_k.
    apply (ap_divg (sf_ofZ 1) _ 1 (kin e F) 1 (kin_size e f) (kin e F) 0 6 q); try lra; [mgm|apply ap_ofZ; lia|exact B8]. }
  (* k' *)
  assert (D0 := ap_opp _ _ _ _ Akm).
  assert (D1 : ap (SFmul 53 1024 (SFadd 53 1024 f (sf_ofZ 1)) (SFadd 53 1024 f (sf_ofZ 1))) ((1 + F) ^ 2) ((1 + F) * (1 + F)) 3).
  { apply (ap_le _ _ _ (1 + 1 + 1)); [lra|]. apply ap_pow2; [lra|mgm|exact A1F]. }
  assert (P2 : 0 < (1 + F) * (1 + F)) by (apply Rmult_lt_0_compat; lra).
  assert (D2 : ap (SFdiv 53 1024 (SFopp (e_km1 e)) (SFmul 53 1024 (SFadd 53 1024 f (sf_ofZ 1)) (SFadd 53 1024 f (sf_ofZ 1)))) (- val (e_km1 e) / (1 + F) ^ 2) (sz (e_km1 e) / ((1 + F) * (1 + F))) 5).
  { apply (ap_le _ _ _ (0 + 3 * 1 + 2)); [lra|]. apply (ap_divg _ _ _ _ (sz (e_km1 e)) ((1 + F) * (1 + F)) ((1 + F) * (1 + F)) 0 3 1); try lra; auto; mgm. }
  assert (D3 := ap_addl _ _ _ _ _ _ _ _ D2 Ak1 ltac:(lra) ltac:(lra) ltac:(mgtp)).
  assert (D4 := ap_mull _ _ _ _ _ _ _ _ Ak2 Af ltac:(lra) ltac:(lra) ltac:(mgm)).
  assert (D5 := ap_addl _ _ _ _ _ _ _ _ D3 D4 ltac:(lra) ltac:(lra) ltac:(mgtp)).
  assert (KP : ap (kprime e f) (kin' e F) (kin'_size e f) 7).
  { eapply ap_le; [|exact D5]. lra. }
  assert (MKp : mg 190 (kin'_size e f)).
  { eapply mg_le; [|unfold kin'_size; fold F; mgs]. cbn. lia. }
  assert (KI := ap_mull _ _ _ _ _ _ _ _ KP IK ltac:(lra) ltac:(lra) ltac:(mgm)).
  assert (HKI := ap_mull _ _ _ _ _ _ _ _ ap_half KI ltac:(lra) ltac:(lra) ltac:(mgm)).
  (* the quadratic form *)
  assert (Q1 := ap_mull _ _ _ _ _ _ _ _ Ac7 (ap_pow2l _ _ _ _ Ap ltac:(lra) ltac:(mgm)) ltac:(lra) ltac:(lra) ltac:(mgm)).
  assert (Q2 := ap_mull _ _ _ _ _ _ _ _ (ap_mull _ _ _ _ _ _ _ _ Ac8 Ap ltac:(lra) ltac:(lra) ltac:(mgm)) Ad1 ltac:(lra) ltac:(lra) ltac:(mgm)).
  assert (Q3 := ap_mull _ _ _ _ _ _ _ _ Ac9 (ap_pow2l _ _ _ _ Ad1 ltac:(lra) ltac:(mgm)) ltac:(lra) ltac:(lra) ltac:(mgm)).
  assert (Q4 := ap_mull _ _ _ _ _ _ _ _ (ap_mull _ _ _ _ _ _ _ _ Ac10 Ad1 ltac:(lra) ltac:(lra) ltac:(mgm)) Ad4 ltac:(lra) ltac:(lra) ltac:(mgm)).
  assert (Q5 := ap_mull _ _ _ _ _ _ _ _ Ac11 Ad7 ltac:(lra) ltac:(lra) ltac:(mgm)).
  assert (QS := ap_addl _ _ _ _ _ _ _ _ (ap_addl _ _ _ _ _ _ _ _ (ap_addl _ _ _ _ _ _ _ _ (ap_addl _ _ _ _ _ _ _ _ Q1 Q2 ltac:(lra) ltac:(lra) ltac:(mgtp)) Q3 ltac:(lra) ltac:(lra) ltac:(mgtp)) Q4 ltac:(lra) ltac:(lra) ltac:(mgtp)) Q5 ltac:(lra) ltac:(lra) ltac:(mgtp)).
  assert (CP := ap_mull _ _ _ _ _ _ _ _ HKI QS ltac:(lra) ltac:(lra) ltac:(mgm)).
  (* the linear part *)
  assert (L1 := ap_mull _ _ _ _ _ _ _ _ Ac1 Ap ltac:(lra) ltac:(lra) ltac:(mgm)).
  assert (L2 := ap_mull _ _ _ _ _ _ _ _ Ac2 Ad1 ltac:(lra) ltac:(lra) ltac:(mgm)).
  assert (L3 := ap_mull _ _ _ _ _ _ _ _ Ac3 Ad2 ltac:(lra) ltac:(lra) ltac:(mgm)).
  assert (L4 := ap_mull _ _ _ _ _ _ _ _ Ac4 Ad3 ltac:(lra) ltac:(lra) ltac:(mgm)).
  assert (L5 := ap_mull _ _ _ _ _ _ _ _ Ac5 Ad5 ltac:(lra) ltac:(lra) ltac:(mgm)).
  assert (L6 := ap_mull _ _ _ _ _ _ _ _ Ac6 Ad6 ltac:(lra) ltac:(lra) ltac:(mgm)).
  assert (LS2 := ap_addl _ _ _ _ _ _ _ _ L1 L2 ltac:(lra) ltac:(lra) ltac:(mgtp)).
  assert (LS3 := ap_addl _ _ _ _ _ _ _ _ LS2 L3 ltac:(lra) ltac:(lra) ltac:(mgtp)).
  assert (LS4 := ap_addl _ _ _ _ _ _ _ _ LS3 L4 ltac:(lra) ltac:(lra) ltac:(mgtp)).
  assert (LS5 := ap_addl _ _ _ _ _ _ _ _ LS4 L5 ltac:(lra) ltac:(lra) ltac:(mgtp)).
  assert (LS6 := ap_addl _ _ _ _ _ _ _ _ LS5 L6 ltac:(lra) ltac:(lra) ltac:(mgtp)).
  assert (T1 := ap_addr _ _ _ _ _ _ _ _ LS6 CP ltac:(lra) ltac:(lra) ltac:(mgtp)).
  (* V' *)
  assert (V1 := ap_mull _ _ _ _ _ _ _ _ Av2 Af ltac:(lra) ltac:(lra) ltac:(mgm)).
  assert (V2 := ap_mull _ _ _ _ _ _ _ _ (ap_over _ _ _ _ 2 Av3 ltac:(lra) ltac:(lia) ltac:(mgm)) B6 ltac:(lra) ltac:(lra) ltac:(mgm)).
  assert (F3 := ap_mull _ _ _ _ _ _ _ _ Af B6 ltac:(lra) ltac:(lra) ltac:(mgm)).
  assert (V3 := ap_mull _ _ _ _ _ _ _ _ (ap_over _ _ _ _ 6 Av4 ltac:(lra) ltac:(lia) ltac:(mgm)) F3 ltac:(lra) ltac:(lra) ltac:(mgm)).
  assert (V4 := ap_addr _ _ _ _ _ _ _ _ V1 V2 ltac:(lra) ltac:(lra) ltac:(mgtp)).
  assert (V5 := ap_addl _ _ _ _ _ _ _ _ V4 V3 ltac:(lra) ltac:(lra) ltac:(mgtp)).
  assert (MVs : mg 260 (pot'_size e f)).
  { eapply mg_le; [|unfold pot'_size; mgs]. cbn. lia. }
  match type of V5 with ap _ _ ?s _ => change s with (pot'_size e f) in V5 end.
  assert (VP := ap_mull _ _ _ _ _ _ _ _ IK V5 ltac:(lra) ltac:(lra) ltac:(mgm)).
  assert (VQ := ap_mull _ _ _ _ _ _ _ _ Ac0 VP ltac:(lra) ltac:(lra) ltac:(mgm)).
  assert (T2 := ap_subl _ _ _ _ _ _ _ _ T1 VQ ltac:(lra) ltac:(lra) ltac:(mgtp)).
  assert (G : ap r (exact_rhs e c f p dr_f dr_p dr_dr_f dphi_f dphi_dr_f lap_f sphereX_f) (rhs_size e c f p dr_f dr_p dr_dr_f dphi_f dphi_dr_f lap_f sphereX_f) (6 * q + 21)).
  { eapply ap_weak; [exact T2| |right; reflexivity|].
    - unfold exact_rhs, kin', pot'. fold F. field. split; lra.
    - apply Rmult_le_compat_r; [apply (ap_A _ _ _ _ T2)|lra]. }
  destruct G as (G1 & _ & G2). split; [exact G1|exact G2].
Qed.

(** ** (iii) the time step to rounding *)
Local Notation at_ v i := (nth i v (S754_zero false)) (only parsing).
(** the level l is u + c*dt*k at every cell where the three numbers are modest, to within 4 units 2^-52 *)
Definition level_near (dt : FL) (c : R) (k u l : list FL) : Prop := forall i, (i < length u)%nat ->
  modest dt -> modest (at_ k i) -> modest (at_ u i) ->
  fin (at_ l i) /\ Rabs (val (at_ l i) - (val (at_ u i) + c * val dt * val (at_ k i))) <= 4 * / 2 ^ 52 * (sz (at_ u i) + c * sz dt * sz (at_ k i)).
(** l is the Runge-Kutta combination of the four slopes, to within 7 units *)
Definition step_near (dt : FL) (k1 k2 k3 k4 u l : list FL) : Prop := forall i, (i < length u)%nat ->
  modest dt -> modest (at_ k1 i) -> modest (at_ k2 i) -> modest (at_ k3 i) -> modest (at_ k4 i) -> modest (at_ u i) ->
  fin (at_ l i) /\
  Rabs (val (at_ l i) - (val (at_ u i) + val dt * (val (at_ k1 i) + 2 * val (at_ k2 i) + 2 * val (at_ k3 i) + val (at_ k4 i)) / 6))
    <= 7 * / 2 ^ 52 * (sz (at_ u i) + sz dt * (sz (at_ k1 i) + 2 * sz (at_ k2 i) + 2 * sz (at_ k3 i) + sz (at_ k4 i)) / 6).

Lemma axpy_at (c : FL) k u i : (i < length u)%nat -> length k = length u ->
  at_ (axpy c k u) i = SFadd 53 1024 (at_ u i) (SFmul 53 1024 c (at_ k i)).
Proof.
  intros Hi L. destruct (nth_error_ex u i Hi) as (a & Ha). destruct (nth_error_ex k i ltac:(lia)) as (y & Hy).
  assert (E := axpy_nth c k u i a y Ha Hy). rewrite (nth_error_nth _ _ _ E), (nth_error_nth _ _ _ Ha), (nth_error_nth _ _ _ Hy). reflexivity.
Qed.
Lemma level_half dt k u : length k = length u -> level_near dt (/ 2) k u (axpy (fdec 5 (-1) * dt)%f k u).
Proof.
  intros L i Hi Hd Hk Hu. rewrite axpy_at by auto.
  destruct (sz_ok _ Hd) as [Ad Md]. destruct (sz_ok _ Hk) as [Ak Mk]. destruct (sz_ok _ Hu) as [Au Mu].
  assert (H1 := ap_mull _ _ _ _ _ _ _ _ ap_half Ad ltac:(lra) ltac:(lra) ltac:(mgm)).
  assert (H2 := ap_mull _ _ _ _ _ _ _ _ H1 Ak ltac:(lra) ltac:(lra) ltac:(mgm)).
  assert (H3 := ap_addr _ _ _ _ _ _ _ _ Au H2 ltac:(lra) ltac:(lra) ltac:(mgtp)).
  assert (G : ap (SFadd 53 1024 (at_ u i) (SFmul 53 1024 (SFmul 53 1024 (sf_dec 5 (-1)) dt) (at_ k i)))
     (val (at_ u i) + / 2 * val dt * val (at_ k i)) (sz (at_ u i) + / 2 * sz dt * sz (at_ k i)) 4).
  { eapply ap_weak; [exact H3| | |]; try (unfold Rdiv; rewrite Rmult_1_l; first [reflexivity|right; reflexivity]).
    replace (1 / 2) with (/ 2) by lra. apply Rmult_le_compat_r; [|lra].
    assert (T := ap_A _ _ _ _ H3). replace (1 / 2) with (/ 2) in T by lra. exact T. }
  destruct G as (G1 & _ & G2). split; [exact G1|exact G2].
Qed.
Lemma level_full dt k u : length k = length u -> level_near dt 1 k u (axpy dt k u).
Proof.
  intros L i Hi Hd Hk Hu. rewrite axpy_at by auto.
  destruct (sz_ok _ Hd) as [Ad Md]. destruct (sz_ok _ Hk) as [Ak Mk]. destruct (sz_ok _ Hu) as [Au Mu].
  assert (H2 := ap_mull _ _ _ _ _ _ _ _ Ad Ak ltac:(lra) ltac:(lra) ltac:(mgm)).
  assert (H3 := ap_addr _ _ _ _ _ _ _ _ Au H2 ltac:(lra) ltac:(lra) ltac:(mgtp)).
  rewrite !Rmult_1_l. apply (ap_le _ _ _ _ 4) in H3; [|lra]. destruct H3 as (G1 & _ & G2). split; [exact G1|exact G2].
Qed.
Lemma step_comb dt k1 k2 k3 k4 u : length k1 = length u -> length k2 = length u -> length k3 = length u -> length k4 = length u ->
  step_near dt k1 k2 k3 k4 u (axpy (dt / #6)%f k4 (axpy (dt / #3)%f k3 (axpy (dt / #3)%f k2 (axpy (dt / #6)%f k1 u)))).
Proof.
  intros L1 L2 L3 L4 i Hi Hd H1 H2 H3 H4 Hu.
  assert (X1 : length (axpy (dt / #6)%f k1 u) = length u) by (apply axpy_length; auto).
  assert (X2 : length (axpy (dt / #3)%f k2 (axpy (dt / #6)%f k1 u)) = length u) by (apply axpy_length; auto).
  assert (X3 : length (axpy (dt / #3)%f k3 (axpy (dt / #3)%f k2 (axpy (dt / #6)%f k1 u))) = length u) by (apply axpy_length; auto).
  rewrite axpy_at by congruence. rewrite axpy_at by congruence. rewrite axpy_at by congruence. rewrite axpy_at by congruence.
  destruct (sz_ok _ Hd) as [Ad Md]. destruct (sz_ok _ Hu) as [Au Mu].
  destruct (sz_ok _ H1) as [A1 M1]. destruct (sz_ok _ H2) as [A2 M2]. destruct (sz_ok _ H3) as [A3 M3]. destruct (sz_ok _ H4) as [A4 M4].
  assert (D6 := ap_over _ _ _ _ 6 Ad ltac:(lra) ltac:(lia) ltac:(mgm)).
  assert (D3 := ap_over _ _ _ _ 3 Ad ltac:(lra) ltac:(lia) ltac:(mgm)).
  assert (P1 := ap_mull _ _ _ _ _ _ _ _ D6 A1 ltac:(lra) ltac:(lra) ltac:(mgm)).
  assert (P2 := ap_mull _ _ _ _ _ _ _ _ D3 A2 ltac:(lra) ltac:(lra) ltac:(mgm)).
  assert (P3 := ap_mull _ _ _ _ _ _ _ _ D3 A3 ltac:(lra) ltac:(lra) ltac:(mgm)).
  assert (P4 := ap_mull _ _ _ _ _ _ _ _ D6 A4 ltac:(lra) ltac:(lra) ltac:(mgm)).
  assert (S1 := ap_addr _ _ _ _ _ _ _ _ Au P1 ltac:(lra) ltac:(lra) ltac:(mgtp)).
  assert (S2 := ap_addl _ _ _ _ _ _ _ _ S1 P2 ltac:(lra) ltac:(lra) ltac:(mgtp)).
  assert (S3 := ap_addl _ _ _ _ _ _ _ _ S2 P3 ltac:(lra) ltac:(lra) ltac:(mgtp)).
  assert (S4 := ap_addl _ _ _ _ _ _ _ _ S3 P4 ltac:(lra) ltac:(lra) ltac:(mgtp)).
  assert (PA := ap_A _ _ _ _ S4).
  match type of S4 with ap ?x _ _ _ =>
    assert (G : ap x (val (at_ u i) + val dt * (val (at_ k1 i) + 2 * val (at_ k2 i) + 2 * val (at_ k3 i) + val (at_ k4 i)) / 6)
      (sz (at_ u i) + sz dt * (sz (at_ k1 i) + 2 * sz (at_ k2 i) + 2 * sz (at_ k3 i) + sz (at_ k4 i)) / 6) 7) end.
  { eapply ap_weak; [exact S4|field|right; field|]. right. field. }
  destruct G as (G1 & _ & G2). split; [exact G1|exact G2].
Qed.

Section Step.
Variables (b : build) (h : sht FL) (cl0 Rmin0 Rmax0 : FL) (nx : nat) (g : grid FL).
Hypothesis Hg : grid_of b h cl0 Rmin0 Rmax0 nx g.
Hypothesis Hsh : shapes h.
Hypothesis HL : (Z.of_nat (s_lmax h) < 2 ^ 31)%Z.
Hypothesis H8 : use_cheb b = false -> (8 <= nx)%nat.
Hypothesis H2 : use_cheb b = true -> (2 <= nx)%nat.
Local Notation n := (g_n3 g).
(** [k] is the slope of p that set_k returns at (u, w), whatever the contents of its buffers *)
Definition slope (e : eom FL) (u w k : list FL) : Prop := length k = n /\
  forall s fk pk, scr_ok n s -> length fk = n -> length pk = n -> exists e', set_k g (with_scr e s) u w fk pk = Ok (w, k, e').

Theorem C93_time_step_rounding (e : eom FL) (f p : field FL) : eom_ok g e -> field_ok g f -> field_ok g p ->
  exists f' p' e' u w u2 w2 u3 w3 u4 w4 k1 k2 k3 k4,
    time_step g e f p = Ok (f', p', e') /\
    grid_filter g (fl_n f) = Ok u /\ grid_filter g (fl_n p) = Ok w /\ length u = n /\ length w = n /\
    (* the four stages: slopes are (w, k1), (w2, k2), (w3, k3), (w4, k4) *)
    slope e u w k1 /\ slope e u2 w2 k2 /\ slope e u3 w3 k3 /\ slope e u4 w4 k4 /\
    level_near (e_dt e) (/ 2) w u u2 /\ level_near (e_dt e) (/ 2) k1 w w2 /\
    level_near (e_dt e) (/ 2) w2 u u3 /\ level_near (e_dt e) (/ 2) k2 w w3 /\
    level_near (e_dt e) 1 w3 u u4 /\ level_near (e_dt e) 1 k3 w w4 /\
    step_near (e_dt e) w w2 w3 w4 u (fl_np1 f') /\ step_near (e_dt e) k1 k2 k3 k4 w (fl_np1 p').
Proof.
  intros Oe Of Op.
  destruct (time_step_closed b h cl0 Rmin0 Rmax0 nx g Hg Hsh HL H8 H2 e f p Oe Of Op) as (f' & p' & s & E & _ & _ & _ & _ & _ & _ & _ & R).
  destruct Of as (_ & Lf & _). destruct Op as (_ & Lp & _).
  destruct (filter_total b h cl0 Rmin0 Rmax0 nx g Hg Hsh H8 H2 (fl_n f) Lf) as [Ef Lf'].
  destruct (filter_total b h cl0 Rmin0 Rmax0 nx g Hg Hsh H8 H2 (fl_n p) Lp) as [Ep Lp'].
  set (u := filt_of g (fl_n f)) in *. set (w := filt_of g (fl_n p)) in *.
  unfold rk4, rhs_of, axpy2 in R. cbn [fst snd] in R.
  assert (SL : forall u w, length u = n -> length w = n -> slope e u w (prhs_of g e u w)).
  { intros u0 w0 Lu Lw. split; [now apply (prhs_len b h cl0 Rmin0 Rmax0 nx g Hg Hsh HL H8 H2)|]. intros s0 fk pk Os L1 L2.
    destruct (set_k_ok b h cl0 Rmin0 Rmax0 nx g Hg Hsh HL H8 H2 e s0 u0 w0 fk pk Oe Os Lu Lw L1 L2) as [E0 _]. eauto. }
  set (k1p := prhs_of g e u w) in *. assert (L1 : length k1p = n) by now apply (prhs_len b h cl0 Rmin0 Rmax0 nx g Hg Hsh HL H8 H2).
  set (hd := (fdec 5 (-1) * e_dt e)%f) in *.
  set (u2 := axpy hd w u) in *. assert (Lu2 : length u2 = n) by now apply axpy_length.
  set (w2 := axpy hd k1p w) in *. assert (Lw2 : length w2 = n) by now apply axpy_length.
  set (k2p := prhs_of g e u2 w2) in *. assert (L2 : length k2p = n) by now apply (prhs_len b h cl0 Rmin0 Rmax0 nx g Hg Hsh HL H8 H2).
  set (u3 := axpy hd w2 u) in *. assert (Lu3 : length u3 = n) by now apply axpy_length.
  set (w3 := axpy hd k2p w) in *. assert (Lw3 : length w3 = n) by now apply axpy_length.
  set (k3p := prhs_of g e u3 w3) in *. assert (L3 : length k3p = n) by now apply (prhs_len b h cl0 Rmin0 Rmax0 nx g Hg Hsh HL H8 H2).
  set (u4 := axpy (e_dt e) w3 u) in *. assert (Lu4 : length u4 = n) by now apply axpy_length.
  set (w4 := axpy (e_dt e) k3p w) in *. assert (Lw4 : length w4 = n) by now apply axpy_length.
  set (k4p := prhs_of g e u4 w4) in *. assert (L4 : length k4p = n) by now apply (prhs_len b h cl0 Rmin0 Rmax0 nx g Hg Hsh HL H8 H2).
  assert (R1 := f_equal fst R). assert (R2 := f_equal snd R). cbn [fst snd] in R1, R2.
  exists f', p', (with_scr e s), u, w, u2, w2, u3, w3, u4, w4, k1p, k2p, k3p, k4p.
  split; [exact E|]. split; [exact Ef|]. split; [exact Ep|]. split; [exact Lf'|]. split; [exact Lp'|].
  split; [now apply SL|]. split; [now apply SL|]. split; [now apply SL|]. split; [now apply SL|].
  split; [apply level_half; congruence|]. split; [apply level_half; congruence|].
  split; [apply level_half; congruence|]. split; [apply level_half; congruence|].
  split; [apply level_full; congruence|]. split; [apply level_full; congruence|].
  split; [rewrite R1|rewrite R2]; apply step_comb; congruence.
Qed.
End Step.
End B64.
