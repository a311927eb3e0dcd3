(** * Model of class Grid: Source/grid.hpp, Source/grid.cpp. *)
From Verif Require Import Base Arith MFd MCheb MSphere.
Local Open Scope f.

Section Grid.
Context {F : Type} {AF : Arith F}.

(** grid.hpp:238-242: [Cheb _radial] or [FD _radial], chosen by USE_CHEB. *)
Inductive radial := RFd (r : fd F) | RCh (r : cheb F).
Definition rad_make (b : build) (n : nat) (lower upper : F) : res radial :=
  if use_cheb b then let! c := Cheb_make b n lower upper in Ok (RCh c)
  else Ok (RFd (FD_make n lower upper)).
(** cheb.cpp:139 / finite_diff.cpp:221 *)
Definition rad_pt (r : radial) (i : nat) : res F :=
  match r with RFd g => Ok (fd_pt g i) | RCh c => cheb_pt c i end.
Definition rad_der (b : build) (r : radial) (v dv : list F) : res (list F) :=
  match r with RFd g => fd_der b g v dv | RCh c => cheb_der b c v dv end.

(** grid.hpp:228-253; the build flags are part of the object because they select the code. *)
Record grid := Grd {
  g_bld : build;
  g_cl : F; g_Rmin : F; g_Rmax : F;
  g_nx : nat; g_nl : nat; g_nm : nat; g_nlat : nat; g_nphi : nat;
  g_sphere : sphere F; g_radial : radial;
  g_R_th_ph : list (list F); g_x_y_z : list (list F); g_x_z : list (list F);
  g_th_ph : list (list F); g_R_th : list (list F); g_R_l : list (list F); g_n_l : list (list F);
  g_dR : list F; g_d2R : list F }.

(** ** Index maps (grid.hpp:268-295), as functions of the sizes *)
Definition ix_r_th (nlat ix it : nat) : nat := (nlat * ix + it)%nat.              (* 268-271 *)
Definition ix_r_ph (nphi ix ip : nat) : nat := (nphi * ix + ip)%nat.              (* 272-275 *)
Definition ix_r_l (nl ix il : nat) : nat := (nl * ix + il)%nat.                   (* 276-279 *)
Definition ix_R_th_ph (b : build) (nlat nphi ix it ip : nat) : nat :=             (* 280-287 *)
  if contiguous b then (nphi * nlat * ix + nlat * ip + it)%nat
  else (nlat * nphi * ix + nphi * it + ip)%nat.
Definition ix_th_ph (b : build) (nlat nphi it ip : nat) : nat :=                  (* 288-295 *)
  if contiguous b then (nlat * ip + it)%nat else (nphi * it + ip)%nat.

Definition indx_r_th (g : grid) := ix_r_th (g_nlat g).
Definition indx_r_ph (g : grid) := ix_r_ph (g_nphi g).
Definition indx_r_l (g : grid) := ix_r_l (g_nl g).
Definition indx_R_th_ph (g : grid) := ix_R_th_ph (g_bld g) (g_nlat g) (g_nphi g).
Definition indx_th_ph (g : grid) := ix_th_ph (g_bld g) (g_nlat g) (g_nphi g).
(** nx*nlat*nphi *)
Definition g_n3 (g : grid) : nat := (g_nx g * g_nlat g * g_nphi g)%nat.

(** tab[i][k] = x on a vector of vectors *)
Definition vset2 (t : list (list F)) (i k : nat) (x : F) : res (list (list F)) :=
  let! row := t.[i] in let! row := row.[k <- x] in t.[i <- row].

(** grid.cpp:7-91, the constructor.  [h] is what SHTns returns (see [sht]). *)
Definition Grid_make (b : build) (h : sht F) (cl Rmin Rmax : F) (nx nl nm nlat nphi : nat) : res grid :=
  let! sph := Sphere_make h nl nm nlat nphi in
  let! rad := rad_make b nx Rmin Rmax in
  (* 29-48 *)
  let! (R_th_ph, x_y_z) := for_ 0 nx (fun ix t => for_ 0 nlat (fun it t => for_ 0 nphi (fun ip t =>
      let '(a, x) := t in
      let! R := rad_pt rad ix in
      let! theta := sp_theta sph it in
      let phi := sp_phi sph ip in
      let j := ix_R_th_ph b nlat nphi ix it ip in
      let! a := vset2 a j 0 R in
      let! a := vset2 a j 1 theta in
      let! a := vset2 a j 2 phi in
      let! x := vset2 x j 0 (R * fcos phi * fsin theta) in
      let! x := vset2 x j 1 (R * fsin phi * fsin theta) in
      let! x := vset2 x j 2 (R * fcos theta) in
      Ok (a, x)) t) t)
    (vec (nx * nphi * nlat) (vec 3 f0), vec (nx * nphi * nlat) (vec 3 f0)) in
  (* 49-57 *)
  let! th_ph := for_ 0 nlat (fun it t => for_ 0 nphi (fun ip t =>
      let! theta := sp_theta sph it in
      let phi := sp_phi sph ip in
      let! t := vset2 t (ix_th_ph b nlat nphi it ip) 0 theta in
      vset2 t (ix_th_ph b nlat nphi it ip) 1 phi) t)
    (vec (nphi * nlat) (vec 2 f0)) in
  (* 58-69 *)
  let! (R_th, x_z) := for_ 0 nx (fun ix t => for_ 0 nlat (fun it t =>
      let '(a, x) := t in
      let! R := rad_pt rad ix in
      let! theta := sp_theta sph it in
      let j := ix_r_th nlat ix it in
      let! a := vset2 a j 0 R in
      let! a := vset2 a j 1 theta in
      let! x := vset2 x j 0 (R * fsin theta) in
      let! x := vset2 x j 1 (R * fcos theta) in
      Ok (a, x)) t)
    (vec (nx * nlat) (vec 2 f0), vec (nx * nlat) (vec 2 f0)) in
  (* 70-85; in the FD build _n_l does not exist: an empty table here *)
  let! (R_l, n_l) := for_ 0 nx (fun ix t => for_ 0 nl (fun il t =>
      let '(a, c) := t in
      let! R := rad_pt rad ix in
      let l := fnat il in
      let j := ix_r_l nl ix il in
      let! a := vset2 a j 0 R in
      let! a := vset2 a j 1 l in
      if use_cheb b then
        let! c := vset2 c j 0 (fnat ix) in
        let! c := vset2 c j 1 l in
        Ok (a, c)
      else Ok (a, c)) t)
    (vec (nx * nl) (vec 2 f0), if use_cheb b then vec (nx * nl) (vec 2 f0) else []) in
  (* 86-91 *)
  let! (dR, d2R) := for_ 0 nx (fun ix t =>
      let '(a, c) := t in
      let! R := rad_pt rad ix in
      let! a := a.[ix <- (#1 - R / cl) ^^ 2] in
      let! c := c.[ix <- (#(-2) / cl) * ((#1 - R / cl) ^^ 3)] in
      Ok (a, c))
    (vec nx f0, vec nx f0) in
  Ok (Grd b cl Rmin Rmax nx nl nm nlat nphi sph rad R_th_ph x_y_z x_z th_ph R_th R_l n_l dR d2R).

(** grid.hpp:300-341, table look-ups *)
Definition R_th_ph_i (g : grid) (i : nat) : res (list F) := (g_R_th_ph g).[i].
Definition R_th_ph_at (g : grid) (ix it ip : nat) : res (list F) := R_th_ph_i g (indx_R_th_ph g ix it ip).
Definition x_y_z_i (g : grid) (i : nat) : res (list F) := (g_x_y_z g).[i].
Definition x_y_z_at (g : grid) (ix it ip : nat) : res (list F) := x_y_z_i g (indx_R_th_ph g ix it ip).
Definition th_ph_at (g : grid) (it ip : nat) : res (list F) := (g_th_ph g).[indx_th_ph g it ip].
Definition R_l_at (g : grid) (ix il : nat) : res (list F) := (g_R_l g).[indx_r_l g ix il].
Definition n_l_at (g : grid) (ix il : nat) : res (list F) := (g_n_l g).[indx_r_l g ix il].

(** grid.hpp:296-299 *)
Definition R_to_r (g : grid) (R : F) : F :=
  if (fdec 1 (-16) <? fabs (R - g_cl g))%f then R / (#1 - R / g_cl g) else fdec 1 12.

(** ** Rows (grid.hpp:56-225).  Getters return the new content of [out]; [in] is const. *)

(** out[k] = in[src k] for k in 0..n-1 *)
Definition gather (n : nat) (dst src : nat -> nat) (inp out : list F) : res (list F) :=
  for_ 0 n (fun i out => let! x := inp.[src i] in out.[dst i <- x]) out.
(** for (i<n) for (j<m) out[dst i j] = in[src i j] *)
Definition gather2 (n m : nat) (dst src : nat -> nat -> nat) (inp out : list F) : res (list F) :=
  for_ 0 n (fun i out => for_ 0 m (fun j out =>
    let! x := inp.[src i j] in out.[dst i j <- x]) out) out.

Local Notation chk g v n := (assert_ (g_bld g) (Nat.eqb (length v) n)).

(** grid.hpp:56-65 *)
Definition get_row_R (g : grid) (it ip : nat) (inp out : list F) : res (list F) :=
  let! _ := chk g inp (g_n3 g) in
  let! _ := chk g out (g_nx g) in
  gather (g_nx g) (fun ix => ix) (fun ix => indx_R_th_ph g ix it ip) inp out.
(** 66-75 *)
Definition set_row_R (g : grid) (it ip : nat) (inp out : list F) : res (list F) :=
  let! _ := chk g inp (g_nx g) in
  let! _ := chk g out (g_n3 g) in
  gather (g_nx g) (fun ix => indx_R_th_ph g ix it ip) (fun ix => ix) inp out.
(** 77-86 *)
Definition get_row_th (g : grid) (ix ip : nat) (inp out : list F) : res (list F) :=
  let! _ := chk g inp (g_n3 g) in
  let! _ := chk g out (g_nlat g) in
  gather (g_nlat g) (fun it => it) (fun it => indx_R_th_ph g ix it ip) inp out.
(** 87-96 *)
Definition set_row_th (g : grid) (ix ip : nat) (inp out : list F) : res (list F) :=
  let! _ := chk g inp (g_nlat g) in
  let! _ := chk g out (g_n3 g) in
  gather (g_nlat g) (fun it => indx_R_th_ph g ix it ip) (fun it => it) inp out.
(** 98-107 *)
Definition get_row_ph (g : grid) (ix it : nat) (inp out : list F) : res (list F) :=
  let! _ := chk g inp (g_n3 g) in
  let! _ := chk g out (g_nphi g) in
  gather (g_nphi g) (fun ip => ip) (fun ip => indx_R_th_ph g ix it ip) inp out.
(** 108-117; the loop bound really is _nlat *)
Definition set_row_ph (g : grid) (ix it : nat) (inp out : list F) : res (list F) :=
  let! _ := chk g inp (g_nphi g) in
  let! _ := chk g out (g_n3 g) in
  gather (g_nlat g) (fun ip => indx_R_th_ph g ix it ip) (fun ip => ip) inp out.
(** 119-128 *)
Definition get_row_n (g : grid) (il : nat) (inp out : list F) : res (list F) :=
  let! _ := chk g inp (g_nx g * g_nl g)%nat in
  let! _ := chk g out (g_nx g) in
  gather (g_nx g) (fun ix => ix) (fun ix => indx_r_l g ix il) inp out.
(** 129-138 *)
Definition set_row_n (g : grid) (il : nat) (inp out : list F) : res (list F) :=
  let! _ := chk g inp (g_nx g) in
  let! _ := chk g out (g_nx g * g_nl g)%nat in
  gather (g_nx g) (fun ix => indx_r_l g ix il) (fun ix => ix) inp out.
(** 140-151 *)
Definition get_row_R_th (g : grid) (ip : nat) (inp out : list F) : res (list F) :=
  let! _ := chk g inp (g_n3 g) in
  let! _ := chk g out (g_nx g * g_nlat g)%nat in
  gather2 (g_nx g) (g_nlat g) (fun ix it => indx_r_th g ix it) (fun ix it => indx_R_th_ph g ix it ip) inp out.
(** 152-163 *)
Definition set_row_R_th (g : grid) (ip : nat) (inp out : list F) : res (list F) :=
  let! _ := chk g inp (g_nx g * g_nlat g)%nat in
  let! _ := chk g out (g_n3 g) in
  gather2 (g_nx g) (g_nlat g) (fun ix it => indx_R_th_ph g ix it ip) (fun ix it => indx_r_th g ix it) inp out.
(** 165-176; the assertion on [out] really is nx*nlat *)
Definition get_row_R_ph (g : grid) (it : nat) (inp out : list F) : res (list F) :=
  let! _ := chk g inp (g_n3 g) in
  let! _ := chk g out (g_nx g * g_nlat g)%nat in
  gather2 (g_nx g) (g_nphi g) (fun ix ip => indx_r_ph g ix ip) (fun ix ip => indx_R_th_ph g ix it ip) inp out.
(** 177-188 *)
Definition set_row_R_ph (g : grid) (it : nat) (inp out : list F) : res (list F) :=
  let! _ := chk g inp (g_nx g * g_nphi g)%nat in
  let! _ := chk g out (g_n3 g) in
  gather2 (g_nx g) (g_nphi g) (fun ix ip => indx_R_th_ph g ix it ip) (fun ix ip => indx_r_ph g ix ip) inp out.
(** 190-201 *)
Definition get_row_th_ph (g : grid) (ix : nat) (inp out : list F) : res (list F) :=
  let! _ := chk g inp (g_n3 g) in
  let! _ := chk g out (g_nphi g * g_nlat g)%nat in
  gather2 (g_nlat g) (g_nphi g) (fun it ip => indx_th_ph g it ip) (fun it ip => indx_R_th_ph g ix it ip) inp out.
(** 202-214 *)
Definition set_row_th_ph (g : grid) (ix : nat) (inp out : list F) : res (list F) :=
  let! _ := chk g inp (g_nphi g * g_nlat g)%nat in
  let! _ := chk g out (g_n3 g) in
  gather2 (g_nlat g) (g_nphi g) (fun it ip => indx_R_th_ph g ix it ip) (fun it ip => indx_th_ph g it ip) inp out.
(** 216-225 *)
Definition set_row_l (g : grid) (ix : nat) (inp out : list F) : res (list F) :=
  let! _ := chk g inp (g_nl g) in
  let! _ := chk g out (g_nx g * g_nl g)%nat in
  gather (g_nl g) (fun il => indx_r_l g ix il) (fun il => il) inp out.

(** ** Operators (grid.cpp:97-256), iterations in sequential order; see Conc.v for the threads. *)

(** std::vector<double> inter(_nlat*_nphi) *)
Definition sph0 (g : grid) : list F := vec (g_nlat g * g_nphi g) f0.
Definition rad0 (g : grid) : list F := vec (g_nx g) f0.

(** body of the loops at grid.cpp:110-118, 127-136, 145-154 *)
Definition shell_body (g : grid) (op : list F -> list F -> res (list F)) (v : list F)
    (ix : nat) (dv : list F) : res (list F) :=
  let! inter := get_row_th_ph g ix v (sph0 g) in
  let! inter_dv := op inter (sph0 g) in
  set_row_th_ph g ix inter_dv dv.
Definition shell_op (g : grid) (op : list F -> list F -> res (list F)) (v dv : list F) : res (list F) :=
  let! _ := chk g v (g_n3 g) in
  let! _ := chk g dv (g_n3 g) in
  for_ 0 (g_nx g) (shell_body g op v) dv.

Definition set_partial_phi (g : grid) := shell_op g (partial_phi (g_bld g) (g_sphere g)).         (* 102-119 *)
Definition set_spherical_lap (g : grid) := shell_op g (laplace_beltrami (g_bld g) (g_sphere g)).  (* 121-137 *)
Definition set_sphereX (g : grid) := shell_op g (sphereX (g_bld g) (g_sphere g)).                 (* 139-155 *)

(** body of the double loops over (it,ip) *)
Definition line_body (g : grid) (op : list F -> res (list F)) (v : list F)
    (it ip : nat) (dv : list F) : res (list F) :=
  let! inter := get_row_R g it ip v (rad0 g) in
  let! inter_dv := op inter in
  set_row_R g it ip inter_dv dv.
Definition line_op (g : grid) (op : list F -> res (list F)) (v dv : list F) : res (list F) :=
  let! _ := chk g v (g_n3 g) in
  let! _ := chk g dv (g_n3 g) in
  for_ 0 (g_nlat g) (fun it dv => for_ 0 (g_nphi g) (fun ip dv => line_body g op v it ip dv) dv) dv.

(** grid.cpp:157-175 *)
Definition line_R (g : grid) (inter : list F) : res (list F) :=
  rad_der (g_bld g) (g_radial g) inter (rad0 g).
Definition set_partial_R (g : grid) := line_op g (line_R g).
(** grid.cpp:177-199 *)
Definition line_r (g : grid) (inter : list F) : res (list F) :=
  let! dv := rad_der (g_bld g) (g_radial g) inter (rad0 g) in
  for_ 0 (g_nx g) (fun ix dv => let! x := dv.[ix] in let! a := (g_dR g).[ix] in dv.[ix <- x * a]) dv.
Definition set_partial_r (g : grid) := line_op g (line_r g).
(** grid.cpp:201-233 *)
Definition line_r2 (g : grid) (inter : list F) : res (list F) :=
  let! dv := rad_der (g_bld g) (g_radial g) inter (rad0 g) in
  let! ddv := match g_radial g with
              | RCh c => cheb_der (g_bld g) c dv (rad0 g)
              | RFd r => fd_der2 (g_bld g) r inter (rad0 g)
              end in
  for_ 0 (g_nx g) (fun ix ddv =>
    let! d2 := (g_d2R g).[ix] in let! x := dv.[ix] in let! d1 := (g_dR g).[ix] in let! y := ddv.[ix] in
    ddv.[ix <- d2 * x + (d1 ^^ 2) * y]) ddv.
Definition set_partial2_r (g : grid) := line_op g (line_r2 g).

(** grid.cpp:235-251 *)
Definition spectrum_body (g : grid) (v : list F) (ix : nat) (p : list F) : res (list F) :=
  let! inter := get_row_th_ph g ix v (sph0 g) in
  let! q := power_spectrum (g_bld g) (g_sphere g) inter (vec (g_nl g) f0) in
  set_row_l g ix q p.
Definition set_angular_power_spectrum (g : grid) (v p : list F) : res (list F) :=
  let! _ := chk g v (g_n3 g) in
  let! _ := chk g p (g_nx g * g_nl g)%nat in
  for_ 0 (g_nx g) (spectrum_body g v) p.

(** grid.cpp:253-277; only exists in Chebyshev builds (UB stands for "does not compile" otherwise) *)
Definition nl_body (g : grid) (il : nat) (p : list F) : res (list F) :=
  let! v := get_row_n g il p (rad0 g) in
  let! v := for_ 0 (g_nx g) (fun ix v => let! x := v.[ix] in v.[ix <- fpowh x]) v in
  let! q := match g_radial g with RCh c => to_ch (g_bld g) c v (rad0 g) | RFd _ => UB end in
  set_row_n g il q p.
Definition set_n_l_coef (g : grid) (v p : list F) : res (list F) :=
  let! _ := chk g v (g_n3 g) in
  let! _ := chk g p (g_nx g * g_nl g)%nat in
  let! p := set_angular_power_spectrum g v p in
  for_ 0 (g_nl g) (nl_body g) p.

(** grid.cpp:283-305.  After set_row_R the local inter_radial is written and thrown away. *)
Definition filter_shell (g : grid) (ix : nat) (v : list F) : res (list F) :=
  let! inter := get_row_th_ph g ix v (sph0 g) in
  let! inter := sp_filter (g_bld g) (g_sphere g) inter in
  set_row_th_ph g ix inter v.
Definition filter_line (g : grid) (it ip : nat) (v : list F) : res (list F) :=
  let! inter := get_row_R g it ip v (rad0 g) in
  let! lwr := inter.[0%nat] in
  let! upr := inter.[wsub (g_nx g) 1] in
  let! v := set_row_R g it ip inter v in
  let! inter := inter.[0%nat <- lwr] in
  let! inter := inter.[wsub (g_nx g) 1 <- upr] in
  Ok v.
Definition grid_filter (g : grid) (v : list F) : res (list F) :=
  let! _ := chk g v (g_n3 g) in
  let! v := for_ 0 (g_nx g) (filter_shell g) v in
  for_ 0 (g_nlat g) (fun it v => for_ 0 (g_nphi g) (fun ip v => filter_line g it ip v) v) v.

(** ** Reductions.  "#pragma omp parallel for reduction(+:x)": the iterations are dealt to threads,
    each thread adds to a private copy that starts at 0 in its own order, and the private copies are
    then added to the shared variable in some order.  [sched] is the list of the threads' iteration
    lists in the order of combination; a serial run is [[0;1;..;n-1]] up to the final 0 + x. *)
Definition thread_sum (step : nat -> F -> res F) (its : list nat) : res F :=
  fold_left (fun acc i => let! a := acc in step i a) its (Ok f0).
Definition reduce (step : nat -> F -> res F) (sched : list (list nat)) (init : F) : res F :=
  fold_left (fun acc its => let! a := acc in let! s := thread_sum step its in Ok (a + s)) sched (Ok init).

(** grid.cpp:307-328 *)
Definition nir_step (dt : F) (f_n f_np1 p : list F) (i : nat) (r : F) : res F :=
  let! pi := p.[i] in let! a := f_np1.[i] in let! c := f_n.[i] in
  Ok (r + ((pi - ((a - c) / dt)) ^^ 2)).
Definition norm_indep_res (g : grid) (sched : list (list nat)) (dt : F) (f_n f_np1 p : list F) : res F :=
  let! _ := chk g f_n (g_n3 g) in
  let! _ := chk g f_np1 (g_n3 g) in
  let! _ := chk g p (g_n3 g) in
  let! r := reduce (nir_step dt f_n f_np1 p) sched f0 in
  Ok (fpowh (r / fnat (g_n3 g))).

(** grid.cpp:330-354; the parallel loop runs over ix in 0.._nx-2 *)
Definition tv_step (g : grid) (v : list F) (ix : nat) (tv : F) : res F :=
  for_ 0 (wsub (g_nlat g) 1) (fun it tv => for_ 0 (wsub (g_nphi g) 1) (fun ip tv =>
    let! c := v.[indx_R_th_ph g ix it ip] in
    let! x := v.[indx_R_th_ph g (ix + 1) it ip] in
    let! y := v.[indx_R_th_ph g ix (it + 1) ip] in
    let! z := v.[indx_R_th_ph g ix it (ip + 1)] in
    Ok (tv + fpowh (((x - c) ^^ 2) + ((y - c) ^^ 2) + ((z - c) ^^ 2)))) tv) tv.
Definition total_variation (g : grid) (sched : list (list nat)) (v : list F) : res F :=
  let! _ := chk g v (g_n3 g) in
  let! tv := reduce (tv_step g v) sched f0 in
  Ok (tv / fnat (g_n3 g)).

End Grid.
Arguments radial F : clear implicits.
Arguments grid F : clear implicits.
