(** * Property C06: the coordinate tables. *)
From Coq Require Import Reals Lra.
From Verif Require Import Base BaseLemmas Arith MFd MCheb MSphere MGrid PGrid PTables PMake Toy.

Section C06.
Context {F : Type} {AF : Arith F}.

(** After construction every table look-up returns the coordinates of the point it is asked for.
    [R], [th], [ph] are the values of the public functions pt, theta, phi. *)
Theorem C06_tables b h cl0 Rmin0 Rmax0 nx nl nm nlat nphi (g : grid F) :
  Grid_make b h cl0 Rmin0 Rmax0 nx nl nm nlat nphi = Ok g ->
  forall ix it ip, ix < nx -> it < nlat -> ip < nphi ->
  exists R th, let ph := sp_phi (g_sphere g) ip in
    rad_pt (g_radial g) ix = Ok R /\ sp_theta (g_sphere g) it = Ok th /\
    R_th_ph_at g ix it ip = Ok [R; th; ph] /\
    x_y_z_at g ix it ip = Ok [(R * fcos ph * fsin th)%f; (R * fsin ph * fsin th)%f; (R * fcos th)%f] /\
    th_ph_at g it ip = Ok [th; ph] /\
    (forall il, il < nl -> R_l_at g ix il = Ok [R; fnat il] /\
       (use_cheb b = true -> n_l_at g ix il = Ok [fnat ix; fnat il])).
Proof.
  intros H ix it ip Hx Ht Hp. apply Grid_make_tables in H.
  destruct H as (Eb & _ & _ & _ & _ & Enl & _ & Ela & Eph & _ & _ & _ & H1 & H2 & _ & H4 & _).
  destruct (H1 ix it ip Hx Ht Hp) as (R & th & ER & Eth & EA & EX).
  exists R, th. cbn zeta. split; auto. split; auto.
  unfold R_th_ph_at, R_th_ph_i, x_y_z_at, x_y_z_i, th_ph_at, R_l_at, n_l_at, indx_R_th_ph, indx_th_ph, indx_r_l.
  rewrite Eb, Ela, Eph, Enl.
  split; [now apply vget_some|]. split; [now apply vget_some|]. split.
  { destruct (H2 it ip Ht Hp) as (th' & Eth' & ET). apply vget_some. congruence. }
  intros il Hl. destruct (H4 ix il Hx Hl) as (R' & ER' & EL & EN). split.
  - apply vget_some. congruence.
  - intros Hc. apply vget_some. auto.
Qed.

(** construction succeeds whenever SHTns returned at least nlat nodes (and n >= 2 or a release
    build for Chebyshev) *)
Theorem C06_constructor_ok b (h : sht F) cl0 Rmin0 Rmax0 nx nl nm nlat nphi :
  nlat <= length (s_ct h) -> (use_cheb b = true -> 2 <= nx \/ ndebug b = true) ->
  exists g, Grid_make b h cl0 Rmin0 Rmax0 nx nl nm nlat nphi = Ok g.
Proof. apply Grid_make_ok. Qed.
End C06.

(** the Cartesian coordinates have Euclidean length |R| *)
Theorem C06_xyz_length b (h : sht R) cl0 Rmin0 Rmax0 nx nl nm nlat nphi (g : grid R) :
  Grid_make b h cl0 Rmin0 Rmax0 nx nl nm nlat nphi = Ok g ->
  forall ix it ip, ix < nx -> it < nlat -> ip < nphi ->
  exists x y z r, x_y_z_at g ix it ip = Ok [x; y; z] /\ rad_pt (g_radial g) ix = Ok r /\
    sqrt (x * x + y * y + z * z) = Rabs r.
Proof.
  intros H ix it ip Hx Ht Hp.
  destruct (C06_tables _ _ _ _ _ _ _ _ _ _ _ H ix it ip Hx Ht Hp) as (r & th & Er & _ & _ & E & _).
  cbn [R_arith fmul fcos fsin] in E. cbv zeta in E. do 4 eexists. split; [exact E|]. split; [exact Er|].
  set (ph := sp_phi (g_sphere g) ip).
  replace (_ + _)%R with (r²)%R.
  - apply sqrt_Rsqr_abs.
  - unfold Rsqr. pose proof (sin2_cos2 th). pose proof (sin2_cos2 ph). unfold Rsqr in *.
    transitivity (r * r * ((sin ph * sin ph + cos ph * cos ph) * (sin th * sin th) + cos th * cos th))%R.
    + rewrite H1, Rmult_1_l, H0. ring.
    + ring.
Qed.

(** a concrete constructor run *)
Example C06_nonvacuous :
  exists g, @Grid_make Z Z_arith (Build true true false) (toy_sht 2 2 3 5) 10%Z 1%Z 9%Z 4 2 2 3 5 = Ok g /\
            R_th_ph_at g 3 2 4 = Ok [9; 2; 4]%Z /\ n_l_at g 3 1 = Ok [3; 1]%Z.
Proof. eexists. split; [vm_compute; reflexivity|]. split; vm_compute; reflexivity. Qed.
