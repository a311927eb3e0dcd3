(** * Property C06, values: the coordinates in the tables written out in closed form.

    [C06_tables] says that every table holds what the functions pt, theta and phi return; here the
    values themselves are pinned down, with no function of the model left in the statement except
    the constructor and the table look-ups. *)
From Coq Require Import Reals Lra Lia.
From Verif Require Import Base BaseLemmas Arith MFd MCheb MSphere MGrid PGrid PTables PMake PropTables PFdR PropFd PropFd2 PConc ForList.
Local Open Scope R_scope.

(** the radial node number [ix] of an [nx] point grid on [Rmin,Rmax] *)
Definition node_R (cheb : bool) (Rmn Rmx : R) (nx ix : nat) : R :=
  if cheb then (Rmx - Rmn) / 2 * cos (PI * INR ix / INR (nx - 1)) + (Rmx + Rmn) / 2
  else Rmn + INR ix * ((Rmx - Rmn) / INR (nx - 1)).

Lemma rad_pt_val b n (lo up : R) r : rad_make b n lo up = Ok r -> (2 <= n)%nat ->
  forall i, (i < n)%nat -> rad_pt r i = Ok (node_R (use_cheb b) lo up n i).
Proof.
  intros H Hn i Hi. unfold rad_make in H. unfold node_R. destruct (use_cheb b).
  - destruct (Cheb_make b n lo up) eqn:E; cbn in H; try discriminate. injection H as <-. cbn [rad_pt].
    eapply cheb_pt_val; eauto.
  - injection H as <-. cbn [rad_pt]. f_equal. rewrite mk_pt, mk_dx by lia. ring.
Qed.

(** For every grid that is built, every point of it: the radial coordinate is the equally spaced
    node (finite differences) or the Gauss-Lobatto node (Chebyshev), theta is the arccosine of the
    node SHTns handed over and phi is 2 pi ip / nphi; Cartesian coordinates are those of these
    spherical coordinates. *)
Theorem C06_coordinate_values b (h : sht R) cl0 Rmn Rmx nx nl nm nlat nphi (g : grid R) :
  Grid_make b h cl0 Rmn Rmx nx nl nm nlat nphi = Ok g -> (2 <= nx)%nat -> s_nphi h = nphi ->
  forall ix it ip, (ix < nx)%nat -> (it < nlat)%nat -> (ip < nphi)%nat ->
  let X := node_R (use_cheb b) Rmn Rmx nx ix in
  let th := acos (nth it (s_ct h) 0) in
  let ph := 2 * PI * INR ip / INR nphi in
    (it < length (s_ct h))%nat /\
    R_th_ph_at g ix it ip = Ok [X; th; ph] /\
    x_y_z_at g ix it ip = Ok [X * cos ph * sin th; X * sin ph * sin th; X * cos th] /\
    th_ph_at g it ip = Ok [th; ph] /\
    (forall il, (il < nl)%nat -> R_l_at g ix il = Ok [X; INR il] /\
       (use_cheb b = true -> n_l_at g ix il = Ok [INR ix; INR il])).
Proof.
  intros H Hn Hph ix it ip Hx Ht Hp X th ph.
  destruct (C06_tables _ _ _ _ _ _ _ _ _ _ _ H ix it ip Hx Ht Hp) as (Rv & tv & EX & ET & A & B & C & D).
  cbv zeta in *. apply Grid_make_tables in H.
  destruct H as (_ & _ & _ & _ & _ & _ & _ & _ & _ & ES & ER & _).
  rewrite (rad_pt_val _ _ _ _ _ ER Hn ix Hx) in EX. injection EX as <-.
  assert (EH : sp_shtns (g_sphere g) = h).
  { rewrite Sphere_make_ok in ES. injection ES as <-. reflexivity. }
  assert (EP : sp_phi (g_sphere g) ip = ph).
  { unfold sp_phi. rewrite EH. rewrite Nat.mul_1_r, Hph. unfold ph. cbn [R_arith fmul fdiv fpi fofZ].
    rewrite !fnat_INR. unfold Rdiv. ring. }
  rewrite EP in *.
  unfold sp_theta in ET. rewrite EH in ET. inv_bind ET. injection ET as <-.
  apply vget_inv in E. pose proof E as E'. apply nth_error_nth with (d := 0) in E'.
  assert (Hl : (it < length (s_ct h))%nat) by (apply nth_error_Some; congruence).
  cbn [R_arith facos] in *.
  assert (Et : acos x = th) by (unfold th; congruence). rewrite Et in *.
  split; [exact Hl|]. split; [exact A|]. split; [exact B|]. split; [exact C|].
  intros il Hil. destruct (D il Hil) as [D1 D2]. rewrite !fnat_INR in *. auto.
Qed.

Example C06_values_nonvacuous : exists (h : sht R) g,
  Grid_make (Build false true false) h 50 2 50 10 4 3 3 8 = Ok g /\ s_nphi h = 8%nat /\
  exists th, R_th_ph_at g 9 1 2 = Ok [50; th; PI / 2] /\ th = acos (1 / 2).
Proof.
  set (h := Sht 4 3 3 8 24 [3 / 4; 1 / 2; 0] (fun _ => []) (fun _ => []) (fun _ => []) (fun _ => []) : sht R).
  destruct (Grid_make_ok (Build false true false) h 50 2 50 10 4 3 3 8) as (g & E); [cbn; lia|left; lia|].
  exists h, g. split; [exact E|]. split; [reflexivity|].
  destruct (C06_coordinate_values _ _ _ _ _ _ _ _ _ _ _ E ltac:(lia) eq_refl 9 1 2 ltac:(lia) ltac:(lia) ltac:(lia)) as (_ & A & _).
  cbv zeta in A. exists (acos (1 / 2)). split; [|reflexivity]. rewrite A. cbn [nth s_ct h use_cheb node_R].
  f_equal. f_equal; [cbn [Nat.sub INR]; field|]. f_equal. f_equal. cbn [INR]. field.
Qed.
