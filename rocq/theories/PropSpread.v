(** * Property C96: with finite differences information crosses at most twelve shells per step. *)
From Coq Require Import Reals Lra.
From Verif Require Import Base BaseLemmas ForList Arith MFd MCheb MSphere MGrid MParams MField MEom
  SphereSpec GridSpec RkSpec SpreadSpec PGrid PTables PMake PFd PSphere PSphere2 PGridOp PropTables PropGridOp PConc PEom PEomOk PRk PropRk PDriver.
Local Open Scope nat_scope.

Lemma stencil_self nx ix : 8 <= nx -> ix < nx -> stencil nx ix ix.
Proof. intros. split; auto. destruct (Nat.ltb_spec ix 3); [lia|]. destruct (Nat.ltb_spec ix (nx - 3)); lia. Qed.
Lemma reach_incl nx (S : nat -> Prop) ix : 8 <= nx -> ix < nx -> S ix -> reach nx S ix.
Proof. intros. exists ix. auto using stencil_self. Qed.
Lemma reach_n_add nx k m (S : nat -> Prop) : reach_n nx (k + m) S = reach_n nx k (reach_n nx m S).
Proof. induction k; cbn; congruence. Qed.

Lemma iter_out {A} (g : A -> A) j x : Nat.iter j g (g x) = Nat.iter (S j) g x.
Proof. induction j as [|j IH]; [reflexivity|]. change (g (Nat.iter j g (g x)) = g (Nat.iter (S j) g x)). now rewrite IH. Qed.

Section S.
Context {F : Type} {AF : Arith F}.
Lemma der_val_local n dx (w w' : nat -> F) i : 8 <= n -> i < n -> (forall j, stencil n i j -> w j = w' j) ->
  der_val n dx w i = der_val n dx w' i.
Proof.
  intros Hn Hi H. unfold der_val. unfold stencil in H.
  destruct (Nat.ltb_spec i 3).
  - rewrite (H 0), (H 1), (H 2), (H 3), (H 4), (H 5), (H 6) by lia.
    destruct (Nat.eqb_spec i 0); [reflexivity|]. destruct (Nat.eqb_spec i 1); [reflexivity|]. destruct (Nat.eqb_spec i 2); [reflexivity|lia].
  - destruct (Nat.ltb_spec i (n - 3)).
    + do 6 (match goal with |- context [?a =? ?b] => destruct (Nat.eqb_spec a b); [lia|] end). now rewrite !H by lia.
    + rewrite (H (n-1)), (H (n-1-1)), (H (n-1-2)), (H (n-1-3)), (H (n-1-4)), (H (n-1-5)), (H (n-1-6)) by lia.
      do 3 (match goal with |- context [?a =? ?b] => destruct (Nat.eqb_spec a b); [lia|] end).
      destruct (Nat.eqb_spec i (n-1)); [reflexivity|]. destruct (Nat.eqb_spec i (n-2)); [reflexivity|]. destruct (Nat.eqb_spec i (n-3)); [reflexivity|lia].
Qed.
Lemma der2_val_local n dx (w w' : nat -> F) i : 8 <= n -> i < n -> (forall j, stencil n i j -> w j = w' j) ->
  der2_val n dx w i = der2_val n dx w' i.
Proof.
  intros Hn Hi H. unfold der2_val. unfold stencil in H.
  destruct (Nat.ltb_spec i 3).
  - rewrite (H 0), (H 1), (H 2), (H 3), (H 4), (H 5), (H 6), (H 7) by lia.
    destruct (Nat.eqb_spec i 0); [reflexivity|]. destruct (Nat.eqb_spec i 1); [reflexivity|]. destruct (Nat.eqb_spec i 2); [reflexivity|lia].
  - destruct (Nat.ltb_spec i (n - 3)).
    + do 6 (match goal with |- context [?a =? ?b] => destruct (Nat.eqb_spec a b); [lia|] end). now rewrite !H by lia.
    + rewrite (H (n-1)), (H (n-1-1)), (H (n-1-2)), (H (n-1-3)), (H (n-1-4)), (H (n-1-5)), (H (n-1-6)), (H (n-1-7)) by lia.
      do 3 (match goal with |- context [?a =? ?b] => destruct (Nat.eqb_spec a b); [lia|] end).
      destruct (Nat.eqb_spec i (n-1)); [reflexivity|]. destruct (Nat.eqb_spec i (n-1-1)); [reflexivity|]. destruct (Nat.eqb_spec i (n-1-2)); [reflexivity|lia].
Qed.

Variables (b : build) (h : sht F) (cl0 Rmin0 Rmax0 : F) (nx : nat) (g : grid F).
Hypothesis Hg : grid_of b h cl0 Rmin0 Rmax0 nx g.
Hypothesis Hsh : shapes h.
Hypothesis HL : (Z.of_nat (s_lmax h) < 2 ^ 31)%Z.
Hypothesis Hfd : use_cheb b = false.
Hypothesis H8 : 8 <= nx.
Local Notation agree := (agree_on g).
Lemma Hg8 : use_cheb b = false -> 8 <= nx.
Proof. auto. Qed.
Lemma Hg2 : use_cheb b = true -> 2 <= nx.
Proof. congruence. Qed.
Lemma nx_eq : g_nx g = nx.
Proof. now destruct (gof_sizes b h cl0 Rmin0 Rmax0 nx g Hg) as (_ & A & _). Qed.
Lemma fd_eq : exists r, g_radial g = RFd r /\ fd_n r = nx.
Proof.
  destruct (gof_sizes b h cl0 Rmin0 Rmax0 nx g Hg) as (_ & _ & _ & _ & _ & _ & A & _). unfold rad_make in A. rewrite Hfd in A.
  injection A as <-. eexists. split; reflexivity.
Qed.
Lemma agree_pt S (v v' : list F) : length v = g_n3 g -> length v' = g_n3 g ->
  agree S v v' <-> forall ix it ip, ix < nx -> S ix -> it < g_nlat g -> ip < g_nphi g -> nth_error v (indx_R_th_ph g ix it ip) = nth_error v' (indx_R_th_ph g ix it ip).
Proof.
  intros L L'. pose proof nx_eq as En. split.
  - intros H ix it ip Hx HS Ht Hp. rewrite <- !nth_error_shell_pt by auto. now rewrite H by (auto; lia).
  - intros H ix Hx HS. apply (list_ext _ _ (g_nlat g * g_nphi g)); try (apply shell_length; auto). intros k Hk.
    destruct (ix_th_ph_surj (g_bld g) _ _ k Hk) as (it & ip & Ht & Hp & <-).
    pose proof (nth_error_shell_pt g v ix it ip Ht Hp) as A. pose proof (nth_error_shell_pt g v' ix it ip Ht Hp) as A'. unfold indx_th_ph in A, A'.
    rewrite A, A'. apply H; auto; lia.
Qed.
Lemma agree_sub (S S' : nat -> Prop) (v v' : list F) : (forall ix, ix < nx -> S ix -> S' ix) -> agree S' v v' -> agree S v v'.
Proof. intros H K ix Hx HS. apply K; auto. apply H; auto. now rewrite <- nx_eq. Qed.

Lemma ang_local S v v' : length v = g_n3 g -> length v' = g_n3 g -> agree S v v' ->
  agree S (dphi_of g v) (dphi_of g v') /\ agree S (lap_of g v) (lap_of g v') /\ agree S (sX_of g v) (sX_of g v').
Proof.
  intros L L' H. assert (Z0 : length (zero3 g) = g_n3 g) by apply vec_length.
  destruct (C23_angular b h cl0 Rmin0 Rmax0 nx g Hg v (zero3 g) Hsh HL L Z0) as (a1 & a2 & a3 & E1 & E2 & E4 & L1 & L2 & L3 & K).
  destruct (C23_angular b h cl0 Rmin0 Rmax0 nx g Hg v' (zero3 g) Hsh HL L' Z0) as (c1 & c2 & c3 & E1' & E2' & E4' & L1' & L2' & L3' & K').
  unfold dphi_of, lap_of, sX_of. rewrite E1, E2, E4, E1', E2', E4'.
  split; [|split]; intros ix Hx HS; destruct (K ix Hx) as (K1 & K2 & K3); destruct (K' ix Hx) as (K1' & K2' & K3'); specialize (H ix Hx HS); rewrite H in *; congruence.
Qed.
Lemma filt_local S v v' : length v = g_n3 g -> length v' = g_n3 g -> agree S v v' -> agree S (filt_of g v) (filt_of g v').
Proof.
  intros L L' H.
  destruct (C26_filter_is_angular_only b h cl0 Rmin0 Rmax0 nx g Hg v Hsh ltac:(lia) L) as (r & E & Lr & K).
  destruct (C26_filter_is_angular_only b h cl0 Rmin0 Rmax0 nx g Hg v' Hsh ltac:(lia) L') as (r' & E' & Lr' & K').
  unfold filt_of. rewrite E, E'. intros ix Hx HS. specialize (K ix Hx). specialize (K' ix Hx). specialize (H ix Hx HS). rewrite H in *. congruence.
Qed.
Lemma lineR_eq w : length w = nx -> exists r, g_radial g = RFd r /\ fd_n r = nx /\ line_R g w = Ok (map (der_val nx (fd_dx r) (fun i => nth i w f0)) (seq 0 nx)).
Proof.
  intros Lw. destruct fd_eq as (r & Er & En). exists r. split; auto. split; auto. unfold line_R, rad_der. rewrite Er, fd_der_ok; rewrite ?En, ?rad0_length, ?nx_eq; auto. lia.
Qed.
Lemma line_local w w' ix : length w = nx -> length w' = nx -> ix < nx -> (forall jx, stencil nx ix jx -> nth jx w f0 = nth jx w' f0) ->
  forall o o' u u', line_r g w = Ok o -> line_r g w' = Ok o' -> line_r2 g w = Ok u -> line_r2 g w' = Ok u' -> nth ix o f0 = nth ix o' f0 /\ nth ix u f0 = nth ix u' f0.
Proof.
  intros Lw Lw' Hix HS o o' u u' E1 E1' E2 E2'. pose proof nx_eq as En.
  destruct (gof_sizes b h cl0 Rmin0 Rmax0 nx g Hg) as (_ & _ & _ & _ & _ & _ & _ & LdR & Ld2 & _).
  assert (R7 : rad_big g 7) by (apply (gof_rad b h cl0 Rmin0 Rmax0 nx g Hg); [lia|exact Hg2]).
  assert (R8 : rad_big g 8) by (apply (gof_rad b h cl0 Rmin0 Rmax0 nx g Hg); [lia|exact Hg2]).
  destruct (lineR_eq w Lw) as (r & Er & Enr & Q). destruct (lineR_eq w' Lw') as (r' & Er' & _ & Q'). assert (r' = r) by congruence. subst r'.
  destruct (line_r_total g w R7) as (d & o1 & D & E & _ & _ & N); [congruence..|].
  destruct (line_r_total g w' R7) as (d' & o1' & D' & E' & _ & _ & N'); [congruence..|].
  destruct (line_r2_total g w R8) as (d2 & dd & u1 & D2 & _ & _ & DD & E3 & _ & N2); [congruence..|].
  destruct (line_r2_total g w' R8) as (d2' & dd' & u1' & D2' & _ & _ & DD' & E3' & _ & N2'); [congruence..|].
  assert (d2 = d) by congruence. assert (d2' = d') by congruence. assert (o = o1) by congruence. assert (o' = o1') by congruence.
  assert (u = u1) by congruence. assert (u' = u1') by congruence. subst d2 d2' o o' u u'.
  rewrite Er in DD, DD'. rewrite fd_der2_ok in DD, DD' by (rewrite ?rad0_length; lia). rewrite Enr in DD, DD'.
  assert (Ed : nth ix d f0 = nth ix d' f0).
  { assert (d = map (der_val nx (fd_dx r) (fun i => nth i w f0)) (seq 0 nx)) by congruence.
    assert (d' = map (der_val nx (fd_dx r) (fun i => nth i w' f0)) (seq 0 nx)) by congruence. subst d d'. rewrite !nth_map_seq by auto. now apply der_val_local. }
  assert (Edd : nth ix dd f0 = nth ix dd' f0).
  { assert (dd = map (der2_val nx (fpow (fd_dx r) 2) (fun i => nth i w f0)) (seq 0 nx)) by congruence.
    assert (dd' = map (der2_val nx (fpow (fd_dx r) 2) (fun i => nth i w' f0)) (seq 0 nx)) by congruence. subst dd dd'. rewrite !nth_map_seq by auto. now apply der2_val_local. }
  rewrite N, N', N2, N2' by lia. now rewrite Ed, Edd.
Qed.
Lemma rad_local S v v' : length v = g_n3 g -> length v' = g_n3 g -> agree (reach nx S) v v' ->
  agree S (dr_of g v) (dr_of g v') /\ agree S (drr_of g v) (drr_of g v').
Proof.
  intros L L' H. pose proof nx_eq as En. assert (Z0 : length (zero3 g) = g_n3 g) by apply vec_length.
  destruct (C23_radial b h cl0 Rmin0 Rmax0 nx g Hg v (zero3 g) Hg8 Hg2 L Z0) as (a1 & a2 & a3 & E1 & E2 & E4 & L1 & L2 & L3 & K).
  destruct (C23_radial b h cl0 Rmin0 Rmax0 nx g Hg v' (zero3 g) Hg8 Hg2 L' Z0) as (c1 & c2 & c3 & E1' & E2' & E4' & L1' & L2' & L3' & K').
  unfold dr_of, drr_of. rewrite E2, E4, E2', E4'.
  assert (G : forall ix it ip, ix < nx -> S ix -> it < g_nlat g -> ip < g_nphi g ->
     nth ix (rline g a2 it ip) f0 = nth ix (rline g c2 it ip) f0 /\ nth ix (rline g a3 it ip) f0 = nth ix (rline g c3 it ip) f0).
  { intros ix it ip Hx HS Ht Hp. destruct (K it ip Ht Hp) as (_ & K2 & K3). destruct (K' it ip Ht Hp) as (_ & K2' & K3').
    eapply (line_local _ _ ix); [| | |  |exact K2|exact K2'|exact K3|exact K3']; auto; try (rewrite rline_length; exact En).
    intros jx Hj. rewrite !nth_rline by (destruct Hj; lia). rewrite agree_pt in H by auto.
    assert (jx < nx) by (destruct Hj; lia).
    assert (HI : indx_R_th_ph g jx it ip < g_n3 g) by (unfold indx_R_th_ph, g_n3; apply ix_R_th_ph_lt; lia).
    specialize (H jx it ip ltac:(auto) ltac:(exists ix; auto) Ht Hp). rewrite (nth_error_nth' v f0), (nth_error_nth' v' f0) in H by lia. congruence. }
  split; apply agree_pt; auto; intros ix it ip Hx HS Ht Hp; destruct (G ix it ip Hx HS Ht Hp) as [G1 G2];
    assert (HI : indx_R_th_ph g ix it ip < g_n3 g) by (unfold indx_R_th_ph, g_n3; apply ix_R_th_ph_lt; lia).
  - rewrite !nth_rline in G1 by lia. rewrite (nth_error_nth' a2 f0), (nth_error_nth' c2 f0) by lia. congruence.
  - rewrite !nth_rline in G2 by lia. rewrite (nth_error_nth' a3 f0), (nth_error_nth' c3 f0) by lia. congruence.
Qed.

(** *** right-hand side, energy density *)
Lemma prhs_local e S f p f' p' : eom_ok g e -> length f = g_n3 g -> length p = g_n3 g -> length f' = g_n3 g -> length p' = g_n3 g ->
  agree (reach nx S) f f' -> agree (reach nx S) p p' -> agree S (prhs_of g e f p) (prhs_of g e f' p').
Proof.
  intros Oe Lf Lp Lf' Lp' Hf Hp. assert (Z0 : length (zero3 g) = g_n3 g) by apply vec_length.
  destruct (set_k_total b h cl0 Rmin0 Rmax0 nx g Hg Hsh HL Hg8 Hg2 e f p (zero3 g) (zero3 g) Oe Lf Lp Z0 Z0) as (r & E & Lr).
  destruct (set_k_total b h cl0 Rmin0 Rmax0 nx g Hg Hsh HL Hg8 Hg2 e f' p' (zero3 g) (zero3 g) Oe Lf' Lp' Z0 Z0) as (r' & E' & Lr').
  unfold prhs_of. rewrite E, E'. apply set_k_inv in E. apply set_k_inv in E'.
  destruct E as (s & K & _ & _ & _ & _ & H). destruct E' as (s' & K' & _ & _ & _ & _ & H').
  destruct Oe as (En & Lc & Os).
  rewrite (proj1 (k_sections_ok b h cl0 Rmin0 Rmax0 nx g Hg Hsh HL Hg8 Hg2 f p (e_scr e) Lf Lp Os)) in K.
  rewrite (proj1 (k_sections_ok b h cl0 Rmin0 Rmax0 nx g Hg Hsh HL Hg8 Hg2 f' p' (e_scr e) Lf' Lp' Os)) in K'.
  assert (s = scr_of g f p) by congruence. assert (s' = scr_of g f' p') by congruence. subst s s'. unfold scr_of in H, H'.
  cbn [s_dr_f s_lap_f s_dr_p s_dr_dr_f s_dphi_f s_dphi_dr_f s_sphereX_f] in H, H'.
  assert (Hf1 : agree S f f') by (apply (agree_sub S (reach nx S)); auto using reach_incl).
  assert (Hp1 : agree S p p') by (apply (agree_sub S (reach nx S)); auto using reach_incl).
  assert (OL : forall v, length v = g_n3 g -> length (dr_of g v) = g_n3 g /\ length (drr_of g v) = g_n3 g /\ length (dphi_of g v) = g_n3 g /\ length (lap_of g v) = g_n3 g /\ length (sX_of g v) = g_n3 g).
  { intros v Lv. destruct (ops_ok b h cl0 Rmin0 Rmax0 nx g Hg Hsh HL Hg8 Hg2 v (zero3 g) Lv Z0) as (_ & _ & _ & _ & _ & A1 & A2 & A3 & A4 & A5). auto. }
  destruct (OL f Lf) as (O1 & O2 & O3 & O4 & O5). destruct (OL f' Lf') as (O1' & O2' & O3' & O4' & O5').
  destruct (OL p Lp) as (P1 & _). destruct (OL p' Lp') as (P1' & _).
  destruct (OL _ O3) as (Q1 & _). destruct (OL _ O3') as (Q1' & _).
  destruct (ang_local S f f' Lf Lf' Hf1) as (_ & S2 & S3). destruct (ang_local (reach nx S) f f' Lf Lf' Hf) as (S1r & _ & _).
  assert (S1 : agree S (dphi_of g f) (dphi_of g f')) by (apply (agree_sub S (reach nx S)); auto using reach_incl).
  destruct (rad_local S f f' Lf Lf' Hf) as (S4 & S5). destruct (rad_local S p p' Lp Lp' Hp) as (S6 & _). destruct (rad_local S _ _ O3 O3' S1r) as (S7 & _).
  apply agree_pt; auto. intros ix it ip Hx HS Ht Hq. pose proof nx_eq as Enx.
  assert (HI : indx_R_th_ph g ix it ip < e_n e) by (rewrite En; unfold indx_R_th_ph, g_n3; apply ix_R_th_ph_lt; lia).
  destruct (H _ HI) as (a1 & a2 & a3 & a4 & a5 & a6 & a7 & a8 & a9 & a10 & C1 & C2 & C3 & C4 & C5 & C6 & C7 & C8 & C9 & C10 & _ & R).
  destruct (H' _ HI) as (c1 & c2 & c3 & c4 & c5 & c6 & c7 & c8 & c9 & c10 & D1 & D2 & D3 & D4 & D5 & D6 & D7 & D8 & D9 & D10 & _ & R').
  rewrite R, R'.
  rewrite agree_pt in Hf1, Hp1, S1, S2, S3, S4, S5, S6, S7 by auto.
  assert (a1 = c1) by (rewrite (Hf1 ix it ip) in C1 by auto; congruence).
  assert (a2 = c2) by (rewrite (Hp1 ix it ip) in C2 by auto; congruence).
  assert (a3 = c3) by congruence.
  assert (a4 = c4) by (rewrite (S4 ix it ip) in C4 by auto; congruence).
  assert (a5 = c5) by (rewrite (S6 ix it ip) in C5 by auto; congruence).
  assert (a6 = c6) by (rewrite (S5 ix it ip) in C6 by auto; congruence).
  assert (a7 = c7) by (rewrite (S1 ix it ip) in C7 by auto; congruence).
  assert (a8 = c8) by (rewrite (S7 ix it ip) in C8 by auto; congruence).
  assert (a9 = c9) by (rewrite (S2 ix it ip) in C9 by auto; congruence).
  assert (a10 = c10) by (rewrite (S3 ix it ip) in C10 by auto; congruence).
  subst. reflexivity.
Qed.
Theorem C96_energy_density e S f p f' p' rho rho' : eom_ok g e -> length f = g_n3 g -> length p = g_n3 g -> length f' = g_n3 g -> length p' = g_n3 g ->
  length rho = g_n3 g -> length rho' = g_n3 g -> agree (reach nx S) f f' -> agree S p p' ->
  exists r r' e1 e2, set_rho g e f p rho = Ok (r, e1) /\ set_rho g e f' p' rho' = Ok (r', e2) /\ agree S r r'.
Proof.
  intros Oe Lf Lp Lf' Lp' Lr0 Lr0' Hf Hp1. assert (Z0 : length (zero3 g) = g_n3 g) by apply vec_length.
  destruct (set_rho_total b h cl0 Rmin0 Rmax0 nx g Hg Hsh HL Hg8 Hg2 e f p rho Oe Lf Lp Lr0) as (r & e1 & E & Lr).
  destruct (set_rho_total b h cl0 Rmin0 Rmax0 nx g Hg Hsh HL Hg8 Hg2 e f' p' rho' Oe Lf' Lp' Lr0') as (r' & e2 & E' & Lr').
  exists r, r', e1, e2. split; auto. split; auto.
  apply set_rho_inv in E. apply set_rho_inv in E'. destruct E as (_ & d1 & d2 & d3 & K1 & K2 & K3 & H). destruct E' as (_ & d1' & d2' & d3' & K1' & K2' & K3' & H').
  destruct Oe as (En & Lc & (A1 & _ & _ & _ & A5 & _ & A7)).
  destruct (ops_ok b h cl0 Rmin0 Rmax0 nx g Hg Hsh HL Hg8 Hg2 f (s_dr_f (e_scr e)) Lf A1) as (Q1 & _ & _ & _ & _ & O1 & _ & O3 & _ & O5).
  destruct (ops_ok b h cl0 Rmin0 Rmax0 nx g Hg Hsh HL Hg8 Hg2 f (s_dphi_f (e_scr e)) Lf A5) as (_ & _ & Q2 & _).
  destruct (ops_ok b h cl0 Rmin0 Rmax0 nx g Hg Hsh HL Hg8 Hg2 f (s_sphereX_f (e_scr e)) Lf A7) as (_ & _ & _ & _ & Q3 & _).
  destruct (ops_ok b h cl0 Rmin0 Rmax0 nx g Hg Hsh HL Hg8 Hg2 f' (s_dr_f (e_scr e)) Lf' A1) as (Q1' & _ & _ & _ & _ & O1' & _ & O3' & _ & O5').
  destruct (ops_ok b h cl0 Rmin0 Rmax0 nx g Hg Hsh HL Hg8 Hg2 f' (s_dphi_f (e_scr e)) Lf' A5) as (_ & _ & Q2' & _).
  destruct (ops_ok b h cl0 Rmin0 Rmax0 nx g Hg Hsh HL Hg8 Hg2 f' (s_sphereX_f (e_scr e)) Lf' A7) as (_ & _ & _ & _ & Q3' & _).
  assert (d1 = dr_of g f) by congruence. assert (d2 = dphi_of g f) by congruence. assert (d3 = sX_of g f) by congruence.
  assert (d1' = dr_of g f') by congruence. assert (d2' = dphi_of g f') by congruence. assert (d3' = sX_of g f') by congruence. subst d1 d2 d3 d1' d2' d3'.
  assert (Hf1 : agree S f f') by (apply (agree_sub S (reach nx S)); auto using reach_incl).
  destruct (ang_local S f f' Lf Lf' Hf1) as (S1 & _ & S3). destruct (rad_local S f f' Lf Lf' Hf) as (S4 & _).
  apply agree_pt; auto; try congruence. intros ix it ip Hx HS Ht Hq. pose proof nx_eq as Enx.
  assert (HI : indx_R_th_ph g ix it ip < e_n e) by (rewrite En; unfold indx_R_th_ph, g_n3; apply ix_R_th_ph_lt; lia).
  destruct (H _ HI) as (a1 & a2 & a3 & a4 & a7 & a10 & C1 & C2 & C3 & C4 & C7 & C10 & R).
  destruct (H' _ HI) as (c1 & c2 & c3 & c4 & c7 & c10 & D1 & D2 & D3 & D4 & D7 & D10 & R').
  rewrite R, R'. rewrite agree_pt in Hf1, Hp1, S1, S3, S4 by auto.
  assert (a1 = c1) by (rewrite (Hf1 ix it ip) in C1 by auto; congruence).
  assert (a2 = c2) by (rewrite (Hp1 ix it ip) in C2 by auto; congruence).
  assert (a3 = c3) by congruence.
  assert (a4 = c4) by (rewrite (S4 ix it ip) in C4 by auto; congruence).
  assert (a7 = c7) by (rewrite (S1 ix it ip) in C7 by auto; congruence).
  assert (a10 = c10) by (rewrite (S3 ix it ip) in C10 by auto; congruence).
  subst. reflexivity.
Qed.

(** *** the time step *)
Definition lens (u : state F) : Prop := length (fst u) = g_n3 g /\ length (snd u) = g_n3 g.
Definition agree2 (S : nat -> Prop) (u u' : state F) : Prop := agree S (fst u) (fst u') /\ agree S (snd u) (snd u').
Lemma axpy_lens c k u : lens k -> lens u -> lens (axpy2 c k u).
Proof. intros [] []. split; cbn; now apply axpy_length. Qed.
Lemma axpy_local S c k k' u u' : lens k -> lens k' -> lens u -> lens u' -> agree2 S k k' -> agree2 S u u' -> agree2 S (axpy2 c k u) (axpy2 c k' u').
Proof.
  assert (G : forall k k' u u' : list F, length k = g_n3 g -> length k' = g_n3 g -> length u = g_n3 g -> length u' = g_n3 g -> agree S k k' -> agree S u u' -> agree S (axpy c k u) (axpy c k' u')).
  { clear k k' u u'. intros k k' u u' Lk Lk' Lu Lu' Hk Hu. pose proof nx_eq as Enx. rewrite agree_pt in Hk, Hu by auto. apply agree_pt; try now apply axpy_length. intros ix it ip Hx HS Ht Hp.
    assert (HI : indx_R_th_ph g ix it ip < g_n3 g) by (unfold indx_R_th_ph, g_n3; apply ix_R_th_ph_lt; lia).
    destruct (nth_error_ex u (indx_R_th_ph g ix it ip)) as (x & X); [lia|]. destruct (nth_error_ex k (indx_R_th_ph g ix it ip)) as (y & Y); [lia|].
    rewrite (axpy_nth c k u _ x y) by auto. symmetry. apply axpy_nth; [rewrite <- Hu by auto|rewrite <- Hk by auto]; auto. }
  intros [] [] [] [] [] []. split; cbn; now apply G.
Qed.
Lemma rhs_lens e u : eom_ok g e -> lens u -> lens (rhs_of g e u).
Proof.
  intros Oe [A B]. split; cbn; auto. assert (Z0 : length (zero3 g) = g_n3 g) by apply vec_length.
  destruct (set_k_total b h cl0 Rmin0 Rmax0 nx g Hg Hsh HL Hg8 Hg2 e (fst u) (snd u) (zero3 g) (zero3 g) Oe A B Z0 Z0) as (r & E & Lr). unfold prhs_of. now rewrite E.
Qed.
Lemma agree2_sub S u u' : agree2 (reach nx S) u u' -> agree2 S u u'.
Proof. intros []. split; apply (agree_sub S (reach nx S)); auto using reach_incl. Qed.
Lemma rhs_local e S u u' : eom_ok g e -> lens u -> lens u' -> agree2 (reach nx S) u u' -> agree2 S (rhs_of g e u) (rhs_of g e u').
Proof. intros Oe [] [] HA. pose proof (agree2_sub S u u' HA) as [_ HB]. destruct HA. split; cbn; auto. now apply prhs_local. Qed.
Lemma rk4_local e S dt u u' : eom_ok g e -> lens u -> lens u' -> agree2 (reach_n nx 4 S) u u' -> agree2 S (rk4 (rhs_of g e) dt u) (rk4 (rhs_of g e) dt u').
Proof.
  intros Oe L L' H. cbn [reach_n] in H. unfold rk4. cbv zeta.
  set (S1 := reach nx S) in *. set (S2 := reach nx S1) in *. set (S3 := reach nx S2) in *.
  pose proof (agree2_sub S3 _ _ H) as H3. pose proof (agree2_sub S2 _ _ H3) as H2'. pose proof (agree2_sub S1 _ _ H2') as H1. pose proof (agree2_sub S _ _ H1) as H0.
  pose proof (rhs_local e S3 u u' Oe L L' H) as K1. pose proof (rhs_lens e u Oe L) as LK1. pose proof (rhs_lens e u' Oe L') as LK1'.
  pose proof (agree2_sub S2 _ _ K1) as K12. pose proof (agree2_sub S1 _ _ K12) as K11. pose proof (agree2_sub S _ _ K11) as K10.
  set (k1 := rhs_of g e u) in *. set (k1' := rhs_of g e u') in *.
  pose proof (axpy_local S3 (fdec 5 (-1) * dt)%f _ _ _ _ LK1 LK1' L L' K1 H3) as V2. pose proof (axpy_lens (fdec 5 (-1) * dt)%f _ _ LK1 L) as LV2. pose proof (axpy_lens (fdec 5 (-1) * dt)%f _ _ LK1' L') as LV2'.
  pose proof (rhs_local e S2 _ _ Oe LV2 LV2' V2) as K2. pose proof (rhs_lens e _ Oe LV2) as LK2. pose proof (rhs_lens e _ Oe LV2') as LK2'.
  set (k2 := rhs_of g e (axpy2 (fdec 5 (-1) * dt)%f k1 u)) in *. set (k2' := rhs_of g e (axpy2 (fdec 5 (-1) * dt)%f k1' u')) in *.
  pose proof (agree2_sub S1 _ _ K2) as K21. pose proof (agree2_sub S _ _ K21) as K20.
  pose proof (axpy_local S2 (fdec 5 (-1) * dt)%f _ _ _ _ LK2 LK2' L L' K2 H2') as V3. pose proof (axpy_lens (fdec 5 (-1) * dt)%f _ _ LK2 L) as LV3. pose proof (axpy_lens (fdec 5 (-1) * dt)%f _ _ LK2' L') as LV3'.
  pose proof (rhs_local e S1 _ _ Oe LV3 LV3' V3) as K3. pose proof (rhs_lens e _ Oe LV3) as LK3. pose proof (rhs_lens e _ Oe LV3') as LK3'.
  set (k3 := rhs_of g e (axpy2 (fdec 5 (-1) * dt)%f k2 u)) in *. set (k3' := rhs_of g e (axpy2 (fdec 5 (-1) * dt)%f k2' u')) in *.
  pose proof (agree2_sub S _ _ K3) as K30.
  pose proof (axpy_local S1 dt _ _ _ _ LK3 LK3' L L' K3 H1) as V4. pose proof (axpy_lens dt _ _ LK3 L) as LV4. pose proof (axpy_lens dt _ _ LK3' L') as LV4'.
  pose proof (rhs_local e S _ _ Oe LV4 LV4' V4) as K4. pose proof (rhs_lens e _ Oe LV4) as LK4. pose proof (rhs_lens e _ Oe LV4') as LK4'.
  repeat (apply axpy_local || apply axpy_lens); auto.
Qed.
Lemma filt_lens u : lens u -> lens (filt_of g (fst u), filt_of g (snd u)).
Proof. intros []. split; cbn; eapply (filter_total b h cl0 Rmin0 Rmax0 nx g); eauto; exact Hg8 || exact Hg2. Qed.
Lemma advance_lens e u : eom_ok g e -> lens u -> lens (advance g e u).
Proof. intros Oe L. unfold advance, rk4. cbv zeta. apply filt_lens in L. repeat (apply axpy_lens || apply rhs_lens); auto. Qed.
Lemma advance_local e S u u' : eom_ok g e -> lens u -> lens u' -> agree2 (reach_n nx 4 S) u u' -> agree2 S (advance g e u) (advance g e u').
Proof.
  intros Oe L L' H. unfold advance. apply rk4_local; auto using filt_lens. destruct L, L', H. split; cbn; now apply filt_local.
Qed.

Lemma advance_step e s f p : eom_ok g e -> field_ok g f -> field_ok g p -> scr_ok (g_n3 g) s ->
  exists f' p' s', time_step g (with_scr e s) f p = Ok (f', p', with_scr e s') /\ scr_ok (g_n3 g) s' /\ field_ok g f' /\ field_ok g p' /\
    (fl_np1 f', fl_np1 p') = advance g e (fl_n f, fl_n p).
Proof.
  intros Oe Of Op Os. assert (Oe' : eom_ok g (with_scr e s)) by (destruct Oe as (? & ? & _); unfold eom_ok; cbn; auto).
  destruct (time_step_closed b h _ _ _ _ g Hg Hsh HL Hg8 Hg2 (with_scr e s) f p Oe' Of Op) as (f' & p' & s' & E & Os' & Of' & Op' & _ & _ & _ & _ & RK).
  exists f', p', s'. split; [exact E|]. split; [exact Os'|]. split; [exact Of'|]. split; [exact Op'|]. rewrite RK. unfold advance. cbn [fst snd with_scr e_dt]. apply rk4_ext_len with (n := g_n3 g).
  - eapply (filter_total b h cl0 Rmin0 Rmax0 nx g); eauto; exact Hg8 || exact Hg2 || apply Of.
  - eapply (filter_total b h cl0 Rmin0 Rmax0 nx g); eauto; exact Hg8 || exact Hg2 || apply Op.
  - intros [x y] Lx Ly. cbn [fst snd] in *. unfold rhs_of. cbn [fst snd]. unfold prhs_of. assert (Lz : length (zero3 g) = g_n3 g) by apply vec_length.
    destruct (set_k_ok b h _ _ _ _ g Hg Hsh HL Hg8 Hg2 e s x y (zero3 g) (zero3 g) Oe Os Lx Ly Lz Lz) as [-> L']. unfold prhs_of in *. auto.
Qed.
Lemma evolve_closed e j : forall s f p, eom_ok g e -> field_ok g f -> field_ok g p -> scr_ok (g_n3 g) s ->
  exists f' p' s', evolve g j (f, p, with_scr e s) = Ok (f', p', with_scr e s') /\ field_ok g f' /\ field_ok g p' /\
    (fl_n f', fl_n p') = Nat.iter j (advance g e) (fl_n f, fl_n p).
Proof.
  induction j as [|j IH]; intros s f p Oe Of Op Os; [exists f, p, s; auto|]. cbn [evolve].
  destruct (advance_step e s f p Oe Of Op Os) as (f1 & p1 & s1 & E & Os1 & Of1 & Op1 & A). rewrite E. cbn [bind].
  destruct Of1 as (S1 & K1 & K2 & K3 & K4). destruct Op1 as (T1 & M1 & M2 & M3 & M4).
  rewrite C46_shift by congruence. cbn [bind]. rewrite C46_shift by congruence. cbn [bind].
  match goal with |- exists f' p' s', evolve g j (?x, ?y, _) = _ /\ _ => destruct (IH s1 x y) as (f2 & p2 & s2 & E2 & Of2 & Op2 & A2); auto; try (unfold field_ok; cbn; auto; fail) end.
  exists f2, p2, s2. split; [exact E2|]. split; [exact Of2|]. split; [exact Op2|]. rewrite A2. cbn [with_n fl_n]. rewrite A. apply iter_out.
Qed.
Lemma iter_lens e j u : eom_ok g e -> lens u -> lens (Nat.iter j (advance g e) u).
Proof. intros Oe L. induction j as [|j IH]; [exact L|]. exact (advance_lens e _ Oe IH). Qed.
Lemma iter_local e j : forall S u u', eom_ok g e -> lens u -> lens u' -> agree2 (reach_n nx (4 * j) S) u u' ->
  agree2 S (Nat.iter j (advance g e) u) (Nat.iter j (advance g e) u').
Proof.
  induction j as [|j IH]; intros S u u' Oe L L' H; [exact H|].
  change (agree2 S (advance g e (Nat.iter j (advance g e) u)) (advance g e (Nat.iter j (advance g e) u'))).
  apply advance_local; [exact Oe|apply iter_lens; auto|apply iter_lens; auto|]. apply IH; auto. rewrite <- reach_n_add. now replace (4 * j + 4) with (4 * Datatypes.S j) by lia.
Qed.

(** j steps of the main loop from two states that agree on every shell within 4j stencils of a set S of
    shells: both succeed, and the fields agree on S - in any arithmetic, for any transform library *)
Theorem C96_finite_speed e f p f' p' j (S : nat -> Prop) : eom_ok g e -> field_ok g f -> field_ok g p -> field_ok g f' -> field_ok g p' ->
  agree (reach_n nx (4 * j) S) (fl_n f) (fl_n f') -> agree (reach_n nx (4 * j) S) (fl_n p) (fl_n p') ->
  exists a c e1 a' c' e2, evolve g j (f, p, e) = Ok (a, c, e1) /\ evolve g j (f', p', e) = Ok (a', c', e2) /\
    agree S (fl_n a) (fl_n a') /\ agree S (fl_n c) (fl_n c').
Proof.
  intros Oe Of Op Of' Op' Hf Hp. assert (E0 : with_scr e (e_scr e) = e) by (destruct e; reflexivity). pose proof Oe as (_ & _ & Os).
  destruct (evolve_closed e j (e_scr e) f p Oe Of Op Os) as (a & c & s1 & E1 & _ & _ & A1).
  destruct (evolve_closed e j (e_scr e) f' p' Oe Of' Op' Os) as (a' & c' & s2 & E2 & _ & _ & A2). rewrite E0 in E1, E2.
  exists a, c, (with_scr e s1), a', c', (with_scr e s2). split; [exact E1|]. split; [exact E2|].
  destruct (iter_local e j S (fl_n f, fl_n p) (fl_n f', fl_n p') Oe) as [B1 B2].
  - split; [apply Of|apply Op].
  - split; [apply Of'|apply Op'].
  - split; auto.
  - rewrite <- A1, <- A2 in B1, B2. auto.
Qed.
(** away from the ends: the shells a..b after j steps are determined by the shells a-12j..b+12j *)
Lemma reach_window a c k jx : 3 * k <= a -> c + 3 * k < nx -> reach_n nx k (fun x => a <= x <= c) jx -> a - 3 * k <= jx <= c + 3 * k.
Proof.
  revert jx. induction k as [|k IH]; intros jx Ha Hc; [cbn; lia|]. cbn [reach_n]. intros (ix & H & Hx & St). apply IH in H; try lia.
  destruct St as [_ St]. destruct (Nat.ltb_spec ix 3); [lia|]. destruct (Nat.ltb_spec ix (nx - 3)); lia.
Qed.
Theorem C96_window e f p f' p' j a c : eom_ok g e -> field_ok g f -> field_ok g p -> field_ok g f' -> field_ok g p' ->
  12 * j <= a -> c + 12 * j < nx ->
  agree (fun ix => a - 12 * j <= ix <= c + 12 * j) (fl_n f) (fl_n f') -> agree (fun ix => a - 12 * j <= ix <= c + 12 * j) (fl_n p) (fl_n p') ->
  exists x y e1 x' y' e2, evolve g j (f, p, e) = Ok (x, y, e1) /\ evolve g j (f', p', e) = Ok (x', y', e2) /\
    agree (fun ix => a <= ix <= c) (fl_n x) (fl_n x') /\ agree (fun ix => a <= ix <= c) (fl_n y) (fl_n y').
Proof.
  intros Oe Of Op Of' Op' Ha Hc Hf Hp. apply C96_finite_speed; auto.
  - eapply agree_sub; [|exact Hf]. intros ix Hx R; cbv beta in *. apply reach_window in R; cbv beta; lia.
  - eapply agree_sub; [|exact Hp]. intros ix Hx R; cbv beta in *. apply reach_window in R; cbv beta; lia.
Qed.
(** a change inside the shells a..c is not seen outside a-12j..c+12j *)
Lemma reach_outside a c m k jx : a <= c -> 3 * m + 5 <= a -> c + 3 * m + 6 <= nx -> k <= m ->
  reach_n nx k (fun x => x + 3 * m < a \/ c + 3 * m < x) jx -> jx + 3 * (m - k) < a \/ c + 3 * (m - k) < jx.
Proof.
  intros Hac Ha Hc. revert jx. induction k as [|k IH]; intros jx Hk; [cbn [reach_n]; lia|]. cbn [reach_n]. intros (ix & H & Hx & St). apply IH in H; try lia.
  destruct St as [_ St]. destruct (Nat.ltb_spec ix 3); [lia|]. destruct (Nat.ltb_spec ix (nx - 3)); lia.
Qed.
Theorem C96_cone e f p f' p' j a c : eom_ok g e -> field_ok g f -> field_ok g p -> field_ok g f' -> field_ok g p' ->
  a <= c -> 12 * j + 5 <= a -> c + 12 * j + 6 <= nx ->
  agree (fun ix => ix < a \/ c < ix) (fl_n f) (fl_n f') -> agree (fun ix => ix < a \/ c < ix) (fl_n p) (fl_n p') ->
  exists x y e1 x' y' e2, evolve g j (f, p, e) = Ok (x, y, e1) /\ evolve g j (f', p', e) = Ok (x', y', e2) /\
    agree (fun ix => ix + 12 * j < a \/ c + 12 * j < ix) (fl_n x) (fl_n x') /\ agree (fun ix => ix + 12 * j < a \/ c + 12 * j < ix) (fl_n y) (fl_n y').
Proof.
  intros Oe Of Op Of' Op' Hac Ha Hc Hf Hp. apply C96_finite_speed; auto.
  - eapply agree_sub; [|exact Hf]. intros ix Hx R; cbv beta in *. replace (12 * j) with (3 * (4 * j)) in R by lia. apply (reach_outside a c (4 * j)) in R; cbv beta; lia.
  - eapply agree_sub; [|exact Hp]. intros ix Hx R; cbv beta in *. replace (12 * j) with (3 * (4 * j)) in R by lia. apply (reach_outside a c (4 * j)) in R; cbv beta; lia.
Qed.
End S.
